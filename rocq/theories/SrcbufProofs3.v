(** Every edit keeps the buffer in step with the edited text. *)
From Verif Require Import Common RandomModel RandomProofs1 SrcbufModel SrcbufSpec SrcbufProofs1 SrcbufProofs2.
Open Scope nat_scope.

Record Rep (st : srcbuf) (d : doc) : Prop := {
  r_buf : buf st = d_text d ++ [blank; blank];
  r_n : original_size st = length (d_text d);
  r_size : true_size st = size d;
  r_on : write_ok st = d_on d;
  r_front : prependbuf st = d_front d;
  r_lei : length (ext_ind st) = length (d_text d) + 2;
  r_lc : length (d_cells d) = length (d_text d) + 1;
  r_tab : table_ok (ext_ind st) (extents st) (free_ext st) (d_cells d);
  r_len : full_length st = Z.of_nat (length (d_front d) + length (show (d_cells d) (buf st)));
  r_end : d_end d = false -> nth_error (d_cells d) (length (d_text d)) = Some gone;
  r_last : forall c, nth_error (d_cells d) (length (d_text d)) = Some c -> kept c = false }.

Lemma put_put {A : Type} k (x y : A) l : put k x (put k y l) = put k x l.
Proof. revert l. induction k as [|k IH]; intros [|a l]; cbn [put]; try reflexivity. rewrite IH. reflexivity. Qed.

Lemma put_split {A : Type} i (x y : A) l : nth_error l i = Some x -> exists pre post, l = pre ++ x :: post /\ length pre = i /\ put i y l = pre ++ y :: post.
Proof.
  intros H. destruct (nth_error_split l i H) as [pre [post [-> Hl]]]. exists pre, post. split; [reflexivity|]. split; [exact Hl|].
  rewrite <- Hl. apply put_app.
Qed.

Lemma show_put cells chs i c ch c' : nth_error cells i = Some c -> nth_error chs i = Some ch ->
  length (show (put i c' cells) chs) + length (show1 (c, ch)) = length (show cells chs) + length (show1 (c', ch)).
Proof.
  intros Hc Hch. destruct (put_split i c c' cells Hc) as [pre [post [-> [Hl Hp]]]]. rewrite Hp, !show_app, !app_length, Hl.
  rewrite (skipn_cons _ _ _ Hch), !show_cons, !app_length. lia.
Qed.

Lemma change_put i f cells c : nth_error cells i = Some c -> change i f cells = put i (f c) cells.
Proof.
  intros Hc. unfold change. rewrite (skipn_cons _ _ _ Hc). destruct (put_split i c (f c) cells Hc) as [pre [post [-> [Hl Hp]]]].
  rewrite Hp. rewrite firstn_exact by exact Hl. f_equal. f_equal. replace (S i) with (length (pre ++ [c])) by (rewrite app_length; cbn [length]; lia).
  replace (pre ++ c :: post) with ((pre ++ [c]) ++ post) by (rewrite <- app_assoc; reflexivity).
  rewrite skipn_app, skipn_all, Nat.sub_diag. reflexivity.
Qed.

Lemma rep_step st d i c c' ch ei ex fr fl e' ts md :
  Rep st d -> nth_error (d_cells d) i = Some c -> nth_error (buf st) i = Some ch ->
  table_ok ei ex fr (put i c' (d_cells d)) -> length ei = length (ext_ind st) ->
  fl = (full_length st - Z.of_nat (length (show1 (c, ch))) + Z.of_nat (length (show1 (c', ch))))%Z ->
  (i = length (d_text d) -> kept c' = false) ->
  (e' = false -> d_end d = false /\ (i = length (d_text d) -> c' = gone)) ->
  ts = length (d_text d) + (if e' then 1 else 0) ->
  Rep (mkBuf (buf st) ei ex fr (prependbuf st) (write_ok st) md fl (original_size st) ts)
      (mkDoc (d_text d) (put i c' (d_cells d)) (d_front d) (d_on d) e').
Proof.
  intros R Hc Hch HT Hl Hfl Hk He Hts. pose proof (nth_error_lt _ _ _ Hc) as Hi.
  constructor; cbn [buf ext_ind extents free_ext prependbuf write_ok full_length original_size true_size d_text d_cells d_front d_on d_end].
  - apply (r_buf _ _ R).
  - apply (r_n _ _ R).
  - exact Hts.
  - apply (r_on _ _ R).
  - apply (r_front _ _ R).
  - rewrite Hl. apply (r_lei _ _ R).
  - rewrite put_length. apply (r_lc _ _ R).
  - exact HT.
  - rewrite Hfl, (r_len _ _ R). pose proof (show_put (d_cells d) (buf st) i c ch c' Hc Hch). lia.
  - intros E. destruct (He E) as [He1 He2]. rewrite put_nth by exact Hi. destruct (Nat.eqb_spec (length (d_text d)) i) as [Hn|_].
    + f_equal. apply He2. congruence.
    + apply (r_end _ _ R). exact He1.
  - intros c0. rewrite put_nth by exact Hi. destruct (Nat.eqb_spec (length (d_text d)) i) as [Hn|_].
    + intros E. injection E as <-. apply Hk. congruence.
    + apply (r_last _ _ R).
Qed.

Lemma rep_place st d i : Rep st d -> i <= length (d_text d) ->
  exists e c ch, nth_error (ext_ind st) i = Some e /\ nth_error (d_cells d) i = Some c /\ nth_error (buf st) i = Some ch /\ cell_of (extents st) e = Some c.
Proof.
  intros R Hi. apply (at_place st (d_cells d) (r_tab _ _ R)); [rewrite (r_buf _ _ R), app_length, (r_lc _ _ R); cbn [length]; lia|rewrite (r_lc _ _ R); lia].
Qed.

Lemma rep_touch st d : Rep st d -> Rep (with_table st (ext_ind st) (extents st) (free_ext st) (full_length st)) d.
Proof. intros [A B C D E F G H I J K]. constructor; assumption. Qed.

(** ** Removing one place *)
Definition remove1 (st : srcbuf) (i : nat) : option srcbuf :=
  do st1 <- remove_extent st i;
  do e <- nth_error (ext_ind st1) i;
  Some (if (0 <? e)%Z then with_table st1 (put i 0%Z (ext_ind st1)) (extents st1) (free_ext st1) (full_length st1 - 1) else st1).

Definition without (d : doc) (cells : list cell) : doc := mkDoc (d_text d) cells (d_front d) (d_on d) (d_end d).

Lemma remove1_rep st d i : Rep st d -> d_on d = true -> i < size d ->
  exists st', remove1 st i = Some st' /\ Rep st' (without d (put i gone (d_cells d))).
Proof.
  intros R Hon Hi. assert (Hi' : i <= length (d_text d)) by (unfold size in Hi; destruct (d_end d); lia).
  destruct (rep_place st d i R Hi') as [e [c [ch [He [Hc [Hch Hec]]]]]].
  pose proof (nth_error_lt _ _ _ He) as Hil. pose proof (nth_error_lt _ _ _ Hc) as Hicl.
  assert (Hts : true_size st = length (d_text d) + (if d_end d then 1 else 0)) by apply (r_size _ _ R).
  unfold remove1, remove_extent. rewrite (r_on _ _ R), Hon, He. cbn [bind].
  destruct (has_slot e) eqn:S1.
  - destruct (cell_of_slot _ _ _ Hec S1) as [s [Hs Hcs]]. rewrite Hs. cbn [bind with_table ext_ind extents free_ext full_length].
    rewrite put_nth by exact Hil. rewrite Nat.eqb_refl. cbn [bind].
    pose proof (step_free _ _ _ _ i e c (r_tab _ _ R) He Hc S1) as T1.
    destruct (0 <? e)%Z eqn:Hpos.
    + cbn [Z.ltb Z.compare]. eexists. split; [reflexivity|]. unfold with_table. cbn [buf ext_ind extents free_ext prependbuf write_ok full_length original_size true_size].
      assert (T2 : table_ok (put i 0%Z (put i 1%Z (ext_ind st))) (put (slot e) [] (extents st)) (slot e :: free_ext st) (put i gone (d_cells d))).
      { rewrite <- (put_put i gone (mkCell None (kept c)) (d_cells d)).
        assert (N1 : nth_error (put i 1%Z (ext_ind st)) i = Some 1%Z) by (rewrite put_nth by exact Hil; rewrite Nat.eqb_refl; reflexivity).
        assert (N2 : nth_error (put i (mkCell None (kept c)) (d_cells d)) i = Some (mkCell None (kept c))) by (rewrite put_nth by exact Hicl; rewrite Nat.eqb_refl; reflexivity).
        exact (step_drop _ _ _ _ i 1%Z (mkCell None (kept c)) T1 N2 eq_refl). }
      apply (rep_step st d i c gone ch _ _ _ _ (d_end d) (true_size st) true R Hc Hch T2).
      * rewrite !put_length. reflexivity.
      * subst c. unfold show1. cbn [fst snd before kept gone]. rewrite app_length. cbn [app length]. lia.
      * reflexivity.
      * intros E. split; [exact E|reflexivity].
      * exact Hts.
    + cbn [Z.ltb Z.compare]. eexists. split; [reflexivity|]. unfold with_table. cbn [buf ext_ind extents free_ext prependbuf write_ok full_length original_size true_size].
      assert (T2 : table_ok (put i 0%Z (ext_ind st)) (put (slot e) [] (extents st)) (slot e :: free_ext st) (put i gone (d_cells d))).
      { replace gone with (mkCell None (kept c)); [exact T1|]. subst c. reflexivity. }
      apply (rep_step st d i c gone ch _ _ _ _ (d_end d) (true_size st) true R Hc Hch T2).
      * rewrite !put_length. reflexivity.
      * subst c. unfold show1. cbn [fst snd before kept gone]. rewrite app_length. cbn [app length]. lia.
      * reflexivity.
      * intros E. split; [exact E|reflexivity].
      * exact Hts.
  - cbn [bind with_table ext_ind]. rewrite He. cbn [bind].
    destruct (cell_of_plain _ _ _ Hec S1) as [[-> ->]|[-> ->]].
    + cbn [Z.ltb Z.compare]. eexists. split; [reflexivity|]. rewrite (put_same i _ gone Hc). unfold without. replace (mkDoc _ _ _ _ _) with d by (destruct d; reflexivity). apply rep_touch. exact R.
    + cbn [Z.ltb Z.compare]. eexists. split; [reflexivity|]. unfold with_table. cbn [buf ext_ind extents free_ext prependbuf write_ok full_length original_size true_size].
      apply (rep_step st d i _ gone ch _ _ _ _ (d_end d) (true_size st) true R Hc Hch (step_drop _ _ _ _ i 1%Z _ (r_tab _ _ R) Hc eq_refl)).
      * rewrite put_length. reflexivity.
      * unfold show1. cbn [fst snd before kept gone app length]. lia.
      * reflexivity.
      * intros E. split; [exact E|reflexivity].
      * exact Hts.
Qed.

Lemma remove_loop_S st n i : remove_loop st (S n) i = match remove1 st i with Some st' => remove_loop st' n (S i) | None => None end.
Proof.
  unfold remove1. cbn [remove_loop]. destruct (remove_extent st i) as [st1|]; [|reflexivity]. cbn [bind].
  destruct (nth_error (ext_ind st1) i); reflexivity.
Qed.

Definition erase_n (i n : nat) (l : list cell) : list cell := firstn i l ++ repeat gone n ++ skipn (i + n) l.

Lemma erase_n_S i n l c : nth_error l i = Some c -> erase_n (S i) n (put i gone l) = erase_n i (S n) l.
Proof.
  intros Hc. destruct (put_split i c gone l Hc) as [pre [post [-> [Hl Hp]]]]. unfold erase_n. rewrite Hp.
  assert (A : firstn (S i) (pre ++ gone :: post) = pre ++ [gone]).
  { replace (pre ++ gone :: post) with ((pre ++ [gone]) ++ post) by (rewrite <- app_assoc; reflexivity). apply firstn_exact. rewrite app_length. cbn [length]. lia. }
  assert (B : forall x, skipn (i + S n) (pre ++ x :: post) = skipn n post).
  { intros x. rewrite skipn_app. rewrite (skipn_all2 pre) by lia. cbn [app]. replace (i + S n - length pre) with (S n) by lia. reflexivity. }
  rewrite A. replace (S i + n) with (i + S n) by lia. rewrite !B. rewrite firstn_exact by exact Hl. cbn [repeat]. rewrite <- !app_assoc. reflexivity.
Qed.

Lemma remove_loop_rep : forall n st d i, Rep st d -> d_on d = true -> i + n <= size d ->
  exists st', remove_loop st n i = Some st' /\ Rep st' (without d (erase_n i n (d_cells d))).
Proof.
  induction n as [|n IH]; intros st d i R Hon Hi.
  - exists st. split; [reflexivity|]. unfold erase_n. cbn [repeat app]. rewrite Nat.add_0_r, firstn_skipn. unfold without. destruct d. exact R.
  - rewrite remove_loop_S. destruct (remove1_rep st d i R Hon) as [st1 [A B]]; [lia|]. rewrite A.
    destruct (IH st1 _ (S i) B) as [st' [C D]]; [exact Hon|unfold size, without in *; cbn [d_text d_end] in *; lia|].
    exists st'. split; [exact C|]. unfold without in *. cbn [d_text d_cells d_front d_on d_end] in *.
    assert (Hi' : i <= length (d_text d)) by (unfold size in Hi; destruct (d_end d); lia).
    destruct (rep_place st d i R Hi') as [e [c [ch [_ [Hc _]]]]]. rewrite (erase_n_S i n _ c Hc) in D. exact D.
Qed.

Lemma remove_rep st d i1 i2 : Rep st d ->
  match apply_remove d i1 i2 with
  | Some d' => exists st', remove st i1 i2 = Some st' /\ Rep st' d'
  | None => remove st i1 i2 = None
  end.
Proof.
  intros R. unfold apply_remove, remove, check. rewrite (r_size _ _ R). destruct ((i1 <=? i2) && (i2 <? size d)) eqn:Hr; [|reflexivity].
  apply andb_true_iff in Hr. destruct Hr as [H1 H2]. apply Nat.leb_le in H1. apply Nat.ltb_lt in H2. rewrite (r_on _ _ R).
  destruct (d_on d) eqn:Hon; [|exists st; split; [reflexivity|exact R]].
  destruct (remove_loop_rep (S i2 - i1) st d i1 R Hon) as [st1 [A B]]; [lia|]. rewrite A. cbn [bind].
  eexists. split; [reflexivity|]. apply rep_touch. unfold without, erase_n in B. rewrite Hon in B.
  replace (i1 + (S i2 - i1)) with (S i2) in B by lia. exact B.
Qed.

(** ** Indentation *)
Lemma firstn_nth_snoc (b : text) j : j < length b -> firstn (S j) b = firstn j b ++ [nth j b 0%Z].
Proof.
  revert j. induction b as [|a b IH]; intros [|j] H; cbn [length] in H; try lia; [reflexivity|].
  cbn [firstn nth app]. f_equal. apply IH. lia.
Qed.

Lemma after_snoc s c : after_last_newline (s ++ [c]) = if (c =? newline)%Z then [] else after_last_newline s ++ [c].
Proof.
  induction s as [|a s IH].
  - cbn [app after_last_newline existsb]. destruct (c =? newline)%Z; reflexivity.
  - cbn [app after_last_newline]. rewrite existsb_app. cbn [existsb]. rewrite orb_false_r, IH.
    destruct (existsb (fun x => (x =? newline)%Z) s); cbn [orb].
    + reflexivity.
    + destruct (c =? newline)%Z; [reflexivity|]. destruct (a =? newline)%Z; reflexivity.
Qed.

Lemma line_start_spec b : forall i, i <= length b -> line_start b i <= i /\ firstn (i - line_start b i) (skipn (line_start b i) b) = after_last_newline (firstn i b).
Proof.
  induction i as [|i IH]; intros Hi; [split; [reflexivity|]; destruct b; reflexivity|].
  cbn [line_start]. rewrite (firstn_nth_snoc b i) by lia. rewrite after_snoc.
  destruct (nth i b 0%Z =? newline)%Z.
  - split; [lia|]. rewrite Nat.sub_diag. reflexivity.
  - destruct IH as [A B]; [lia|]. split; [lia|]. rewrite <- B. clear B. revert A. generalize (line_start b i) as j. intros j A.
    replace (S i - j) with (S (i - j)) by lia. rewrite firstn_nth_snoc by (rewrite skipn_length; lia). f_equal. f_equal.
    revert b i A Hi. induction j as [|j IH]; intros b i A Hi; [cbn [skipn]; rewrite Nat.sub_0_r; reflexivity|].
    destruct b as [|a b]; cbn [length] in Hi; [lia|]. destruct i as [|i]; [lia|]. cbn [skipn nth Nat.sub]. apply IH; lia.
Qed.

Lemma space_end_spec b : forall n k, k + n <= length b -> k <= space_end b n k /\ firstn (space_end b n k - k) (skipn k b) = leading_space (firstn n (skipn k b)).
Proof.
  induction n as [|n IH]; intros k Hk; cbn [space_end].
  - split; [lia|]. rewrite Nat.sub_diag. reflexivity.
  - destruct (nth_error b k) as [c|] eqn:Hc; [|apply nth_error_None in Hc; lia].
    rewrite (nth_error_nth b k 0%Z Hc). rewrite (skipn_cons _ _ _ Hc). cbn [firstn leading_space].
    destruct (isspace c).
    + destruct (IH (S k)) as [A B]; [lia|]. split; [lia|]. rewrite <- B.
      replace (space_end b n (S k) - k) with (S (space_end b n (S k) - S k)) by lia. reflexivity.
    + split; [lia|]. rewrite Nat.sub_diag. reflexivity.
Qed.

Lemma add_indent_spec ind s : add_indent ind s = indent_lines ind s.
Proof.
  unfold indent_lines. induction s as [|c s IH]; [reflexivity|]. cbn [add_indent flat_map]. rewrite IH. destruct (c =? newline)%Z; reflexivity.
Qed.

Lemma indented_spec st t i s : buf st = t ++ [blank; blank] -> i <= length t -> indented st i s = indent_lines (indent_at t i) s.
Proof.
  intros Hb Hi. unfold indented. rewrite add_indent_spec. f_equal. unfold indent_at.
  assert (Hlb : i <= length (buf st)) by (rewrite Hb, app_length; lia).
  destruct (line_start_spec (buf st) i) as [A B]; [exact Hlb|].
  destruct (space_end_spec (buf st) (i - line_start (buf st) i) (line_start (buf st) i)) as [C D]; [lia|].
  rewrite D, B. f_equal. f_equal. rewrite Hb, firstn_app. replace (i - length t) with 0 by lia. cbn [firstn]. apply app_nil_r.
Qed.

(** ** Insertion *)
Lemma insert_rep st d i s first indent : Rep st d ->
  match apply_insert d i s first indent with
  | Some d' => exists st', insert st i s first indent = Some st' /\ Rep st' d'
  | None => insert st i s first indent = None
  end.
Proof.
  intros R. unfold apply_insert, insert. rewrite (r_on _ _ R). destruct (d_on d) eqn:Hon; [|exists st; split; [reflexivity|exact R]].
  unfold check. cbn [true_size]. rewrite (r_n _ _ R).
  destruct (Nat.leb_spec i (length (d_text d))) as [Hi|Hi].
  2: { replace (i =? length (d_text d)) with false by (symmetry; apply Nat.eqb_neq; lia). rewrite (r_size _ _ R).
       replace (i <? size d) with false by (symmetry; apply Nat.ltb_ge; unfold size; destruct (d_end d); lia). reflexivity. }
  set (e' := d_end d || (i =? length (d_text d))). set (s' := if indent then indent_lines (indent_at (d_text d) i) s else s).
  assert (Hts : (if i =? length (d_text d) then length (d_text d) + 1 else true_size st) = length (d_text d) + (if e' then 1 else 0)).
  { unfold e'. rewrite (r_size _ _ R). unfold size. destruct (i =? length (d_text d)); destruct (d_end d); reflexivity. }
  rewrite Hts. replace (i <? length (d_text d) + (if e' then 1 else 0)) with true.
  2: { symmetry. apply Nat.ltb_lt. unfold e'. destruct (Nat.eqb_spec i (length (d_text d))); rewrite ?orb_true_r; destruct (d_end d); cbn [orb]; lia. }
  set (st1 := mkBuf (buf st) (ext_ind st) (extents st) (free_ext st) (prependbuf st) true true (full_length st) (length (d_text d)) (length (d_text d) + (if e' then 1 else 0))).
  replace (if indent then indented st1 i s else s) with s'.
  2: { unfold s'. destruct indent; [|reflexivity]. symmetry. apply indented_spec; [apply (r_buf _ _ R)|exact Hi]. }
  destruct (rep_place st d i R Hi) as [e [c [ch [He [Hc [Hch Hec]]]]]].
  pose proof (nth_error_lt _ _ _ He) as Hil. pose proof (nth_error_lt _ _ _ Hc) as Hicl.
  assert (Hlast : i = length (d_text d) -> kept c = false) by (intros E; apply (r_last _ _ R); rewrite <- E; exact Hc).
  rewrite (change_put i _ _ c Hc). unfold get_extent_ptr, is_extent, check. cbn [true_size st1 ext_ind extents free_ext full_length].
  replace (i <? length (d_text d) + (if e' then 1 else 0)) with true.
  2: { symmetry. apply Nat.ltb_lt. unfold e'. destruct (Nat.eqb_spec i (length (d_text d))); rewrite ?orb_true_r; destruct (d_end d); cbn [orb]; lia. }
  rewrite He. cbn [bind].
  assert (Hend : forall x, e' = false -> d_end d = false /\ (i = length (d_text d) -> x = gone)).
  { unfold e'. intros x E. apply orb_false_iff in E. destruct E as [E1 E2]. split; [exact E1|]. intros E. apply Nat.eqb_neq in E2. contradiction. }
  assert (Hon' : write_ok st = true) by (rewrite (r_on _ _ R); exact Hon).
  destruct (has_slot e) eqn:S1.
  - destruct (cell_of_slot _ _ _ Hec S1) as [old [Hold Hcs]]. rewrite Hold. cbn [bind]. eexists. split; [reflexivity|].
    unfold with_table, put_before. cbn [buf ext_ind extents free_ext prependbuf write_ok full_length original_size true_size st1].
    assert (Hb : before c = Some old) by (subst c; reflexivity). rewrite Hb. set (new := if first then s' ++ old else old ++ s').
    rewrite <- (r_n _ _ R). rewrite <- Hon' at 1. rewrite <- Hon.
    apply (rep_step st d i c (mkCell (Some new) (kept c)) ch _ _ _ _ e' (original_size st + (if e' then 1 else 0)) _ R Hc Hch (step_extend _ _ _ _ i e c (r_tab _ _ R) He Hc new S1)).
    + reflexivity.
    + unfold show1. cbn [fst snd before kept]. rewrite Hb, !app_length. assert (Hnew : length new = length s' + length old) by (unfold new; destruct first; rewrite app_length; lia). lia.
    + exact Hlast.
    + apply Hend.
    + rewrite (r_n _ _ R). reflexivity.
  - cbn [bind]. assert (Hb : before c = None) by (destruct (cell_of_plain _ _ _ Hec S1) as [[_ ->]|[_ ->]]; reflexivity).
    destruct (free_ext st) as [|j fr] eqn:Hfr.
    + eexists. split; [reflexivity|]. unfold with_table, put_before. rewrite Hb.
      cbn [buf ext_ind extents free_ext prependbuf write_ok full_length original_size true_size st1].
      rewrite <- (r_n _ _ R). rewrite <- Hon' at 1. rewrite <- Hon.
      pose proof (r_tab _ _ R) as T. rewrite Hfr in T.
      apply (rep_step st d i c (mkCell (Some s') (kept c)) ch _ _ _ _ e' (original_size st + (if e' then 1 else 0)) _ R Hc Hch (step_push _ _ _ _ i e c T He Hc s' eq_refl)).
      * rewrite put_length. reflexivity.
      * unfold show1. cbn [fst snd before kept]. rewrite Hb, !app_length. cbn [length]. lia.
      * exact Hlast.
      * apply Hend.
      * rewrite (r_n _ _ R). reflexivity.
    + destruct (step_reuse _ _ _ _ i e c (r_tab _ _ R) He Hc s' j fr S1 Hfr) as [Hj T2]. apply Nat.ltb_lt in Hj. rewrite Hj.
      eexists. split; [reflexivity|]. unfold with_table, put_before. rewrite Hb.
      cbn [buf ext_ind extents free_ext prependbuf write_ok full_length original_size true_size st1].
      rewrite <- (r_n _ _ R). rewrite <- Hon' at 1. rewrite <- Hon.
      apply (rep_step st d i c (mkCell (Some s') (kept c)) ch _ _ _ _ e' (original_size st + (if e' then 1 else 0)) _ R Hc Hch T2).
      * rewrite put_length. reflexivity.
      * unfold show1. cbn [fst snd before kept]. rewrite Hb, !app_length. cbn [length]. lia.
      * exact Hlast.
      * apply Hend.
      * rewrite (r_n _ _ R). reflexivity.
Qed.
