(** New buffers, copies, sequences of edits, and what is read. *)
From Verif Require Import Common RandomModel RandomProofs1 SrcbufModel SrcbufSpec SrcbufProofs1 SrcbufProofs2 SrcbufProofs3.
Open Scope nat_scope.

Definition plain : cell := mkCell None true.

Lemma show_plain t chs : show (repeat plain (length t) ++ [gone]) (t ++ chs) = t.
Proof.
  induction t as [|c t IH].
  - cbn [length repeat app]. destruct chs; reflexivity.
  - cbn [length repeat app]. rewrite show_cons, IH. reflexivity.
Qed.

Lemma nth_repeat_app {A : Type} n (x : A) l i y : nth_error (repeat x n ++ l) i = Some y -> (i < n /\ y = x) \/ (n <= i /\ nth_error l (i - n) = Some y).
Proof.
  intros H. destruct (Nat.lt_ge_cases i n) as [Hi|Hi].
  - left. split; [exact Hi|]. rewrite nth_error_app1 in H by (rewrite repeat_length; exact Hi). apply nth_error_In in H. apply repeat_spec in H. exact H.
  - right. split; [exact Hi|]. rewrite nth_error_app2 in H by (rewrite repeat_length; exact Hi). rewrite repeat_length in H. exact H.
Qed.

Lemma create_rep t : Rep (create t) (fresh t).
Proof.
  unfold create, fresh.
  constructor; cbn [buf ext_ind extents free_ext prependbuf write_ok full_length original_size true_size d_text d_cells d_front d_on d_end].
  - reflexivity.
  - reflexivity.
  - unfold size. cbn [d_text d_end]. lia.
  - reflexivity.
  - reflexivity.
  - rewrite app_length, repeat_length. reflexivity.
  - rewrite app_length, repeat_length. reflexivity.
  - assert (N : forall i e, nth_error (repeat 1%Z (length t) ++ [0; 0]%Z) i = Some e -> (e = 1%Z /\ i < length t) \/ (e = 0%Z /\ length t <= i)).
    { intros i e H. destruct (nth_repeat_app _ _ _ _ _ H) as [[Hi ->]|[Hi Hx]]; [left; auto|]. right. split; [|exact Hi].
      destruct (i - length t) as [|[|k]]; cbn [nth_error] in Hx; [congruence|congruence|]. destruct k; discriminate. }
    assert (S : forall i e, nth_error (repeat 1%Z (length t) ++ [0; 0]%Z) i = Some e -> has_slot e = false).
    { intros i e H. destruct (N i e H) as [[-> _]|[-> _]]; reflexivity. }
    constructor.
    + rewrite !app_length, !repeat_length. cbn [length]. lia.
    + intros i e c He Hc. destruct (nth_repeat_app _ _ _ _ _ Hc) as [[Hi ->]|[Hi Hx]]; destruct (N i e He) as [[-> Hi']|[-> Hi']]; try lia.
      * reflexivity.
      * destruct (i - length t) as [|k]; cbn [nth_error] in Hx; [injection Hx as <-; reflexivity|destruct k; discriminate].
    + intros i e He _. exact (S i e He).
    + intros i j e e' He He' Hs. rewrite (S i e He) in Hs. discriminate.
    + intros i e He Hs. rewrite (S i e He) in Hs. discriminate.
    + intros i e He Hs. rewrite (S i e He) in Hs. discriminate.
    + constructor.
    + intros j [].
  - change (mkCell None true) with plain. rewrite show_plain. reflexivity.
  - intros _. rewrite nth_error_app2 by (rewrite repeat_length; lia). rewrite repeat_length, Nat.sub_diag. reflexivity.
  - intros c. rewrite nth_error_app2 by (rewrite repeat_length; lia). rewrite repeat_length, Nat.sub_diag. cbn [nth_error]. intros H. injection H as <-. reflexivity.
Qed.

Lemma prepend_rep st d s : Rep st d -> Rep (prepend st s) (if d_on d then mkDoc (d_text d) (d_cells d) (s ++ d_front d) true (d_end d) else d).
Proof.
  intros R. unfold prepend. rewrite (r_on _ _ R). destruct (d_on d) eqn:Hon; [|exact R].
  destruct R as [A B C D E F G H I J K]. constructor; cbn [buf ext_ind extents free_ext prependbuf write_ok full_length original_size true_size d_text d_cells d_front d_on d_end]; try assumption.
  - reflexivity.
  - rewrite E. reflexivity.
  - rewrite I, app_length. lia.
Qed.

Lemma write_rep st d w : Rep st d -> Rep (set_write st w) (mkDoc (d_text d) (d_cells d) (d_front d) w (d_end d)).
Proof. intros [A B C D E F G H I J K]. constructor; try assumption. reflexivity. Qed.

(** ** Copies *)
Lemma erase_mid pre (x : cell) post : erase (length pre) (length pre) (pre ++ x :: post) = pre ++ gone :: post.
Proof.
  unfold erase. rewrite firstn_exact by reflexivity. replace (S (length pre) - length pre) with 1 by lia. cbn [repeat app]. f_equal. f_equal.
  replace (pre ++ x :: post) with ((pre ++ [x]) ++ post) by (rewrite <- app_assoc; reflexivity).
  rewrite skipn_app. rewrite (skipn_all2 (pre ++ [x])) by (rewrite app_length; cbn [length]; lia). rewrite app_length. cbn [length app].
  replace (S (length pre) - (length pre + 1)) with 0 by lia. reflexivity.
Qed.

Lemma change_mid pre (x : cell) post f : change (length pre) f (pre ++ x :: post) = pre ++ f x :: post.
Proof.
  rewrite (change_put _ f _ x); [apply put_app|]. rewrite nth_error_app2 by lia. rewrite Nat.sub_diag. reflexivity.
Qed.

Lemma copy_step src d dst t pre post i a :
  Rep src d -> i + a < length (d_text d) -> length pre = i -> i < length t ->
  Rep dst (mkDoc t (pre ++ plain :: post) [] true false) ->
  exists e c dst1 p dst2, nth_error (ext_ind src) (i + a) = Some e /\ nth_error (d_cells d) (i + a) = Some c /\
    (if (e <=? 0)%Z then remove dst i i else Some dst) = Some dst1 /\
    get_extent_ptr src (i + a) = Some p /\
    match p with Some (_, s) => insert dst1 i s true false | None => Some dst1 end = Some dst2 /\
    Rep dst2 (mkDoc t (pre ++ c :: post) [] true false).
Proof.
  intros R Ha Hp Hi Rd. destruct (rep_place src d (i + a) R) as [e [c [ch [He [Hc [Hch Hec]]]]]]; [lia|].
  assert (G : get_extent_ptr src (i + a) = if has_slot e then match nth_error (extents src) (slot e) with Some s => Some (Some (slot e, s)) | None => None end else Some None).
  { unfold get_extent_ptr, is_extent, check. rewrite (r_size _ _ R). replace (i + a <? size d) with true by (symmetry; apply Nat.ltb_lt; unfold size; destruct (d_end d); lia).
    rewrite He. cbn [bind]. destruct (has_slot e); [|reflexivity]. cbn [bind]. destruct (nth_error (extents src) (slot e)); reflexivity. }
  set (x := if (e <=? 0)%Z then gone else plain).
  assert (D1 : exists dst1, (if (e <=? 0)%Z then remove dst i i else Some dst) = Some dst1 /\ Rep dst1 (mkDoc t (pre ++ x :: post) [] true false)).
  { unfold x. destruct (e <=? 0)%Z; [|exists dst; split; [reflexivity|exact Rd]].
    pose proof (remove_rep dst _ i i Rd) as Hr. unfold apply_remove in Hr. unfold size in Hr. cbn [d_text d_end d_on d_cells d_front] in Hr.
    replace ((i <=? i) && (i <? length t + 0)) with true in Hr by (symmetry; apply andb_true_iff; split; [apply Nat.leb_le; lia|apply Nat.ltb_lt; lia]).
    rewrite <- Hp in Hr. rewrite erase_mid in Hr. rewrite Hp in Hr. exact Hr. }
  destruct D1 as [dst1 [H1 R1]].
  destruct (has_slot e) eqn:S1.
  - destruct (cell_of_slot _ _ _ Hec S1) as [s [Hs Hcs]]. rewrite Hs in G.
    pose proof (insert_rep dst1 _ i s true false R1) as Hin. unfold apply_insert in Hin. cbn [d_text d_end d_on d_cells d_front] in Hin.
    replace (i <=? length t) with true in Hin by (symmetry; apply Nat.leb_le; lia).
    replace (i =? length t) with false in Hin by (symmetry; apply Nat.eqb_neq; lia). cbn [orb] in Hin.
    rewrite <- Hp in Hin. rewrite change_mid in Hin. rewrite Hp in Hin.
    destruct Hin as [dst2 [H2 R2]].
    exists e, c, dst1, (Some (slot e, s)), dst2. split; [exact He|]. split; [exact Hc|]. split; [exact H1|]. split; [exact G|]. split; [exact H2|].
    replace c with (put_before s true x); [exact R2|]. subst c. unfold put_before, x. destruct (Z.leb_spec e 0); cbn [before kept gone plain].
    + f_equal. symmetry. apply Z.ltb_ge. assumption.
    + f_equal. symmetry. apply Z.ltb_lt. assumption.
  - exists e, c, dst1, None, dst1. split; [exact He|]. split; [exact Hc|]. split; [exact H1|]. split; [exact G|]. split; [reflexivity|].
    destruct (cell_of_plain _ _ _ Hec S1) as [[-> ->]|[-> ->]]; exact R1.
Qed.

Lemma copy_loop_rep src d t a : Rep src d -> forall n i dst pre,
  i + n = length t -> a + length t <= length (d_text d) -> pre = firstn i (skipn a (d_cells d)) -> length pre = i ->
  Rep dst (mkDoc t (pre ++ repeat plain n ++ [gone]) [] true false) ->
  exists dst', copy_loop src dst n i a = Some dst' /\ Rep dst' (mkDoc t (firstn (i + n) (skipn a (d_cells d)) ++ [gone]) [] true false).
Proof.
  intros R. induction n as [|n IH]; intros i dst pre Hn Ha Hpre Hl Rd.
  - exists dst. split; [reflexivity|]. rewrite Nat.add_0_r, <- Hpre. exact Rd.
  - cbn [repeat app] in Rd. destruct (copy_step src d dst t pre (repeat plain n ++ [gone]) i a R) as [e [c [dst1 [p [dst2 [H1 [H2 [H3 [H4 [H5 R5]]]]]]]]]]; try assumption; try lia.
    cbn [copy_loop]. rewrite H1. cbn [bind]. rewrite H3. cbn [bind]. rewrite H4. cbn [bind]. rewrite H5. cbn [bind].
    assert (Hc : nth_error (skipn a (d_cells d)) i = Some c).
    { rewrite <- H2. clear. revert a. generalize (d_cells d) as l. induction l as [|x l IHl]; intros a; [destruct i, a; reflexivity|].
      destruct a as [|a]; [rewrite Nat.add_0_r; reflexivity|]. rewrite Nat.add_succ_r. cbn [skipn nth_error]. apply IHl. }
    destruct (IH (S i) dst2 (pre ++ [c])) as [dst' [A B]].
    + lia.
    + exact Ha.
    + rewrite Hpre. revert Hc. generalize (skipn a (d_cells d)) as l. clear. induction i as [|i IHi]; intros [|x l] H; try discriminate.
      * injection H as ->. reflexivity.
      * cbn [firstn app]. f_equal. apply IHi. exact H.
    + rewrite app_length. cbn [length]. lia.
    + rewrite <- app_assoc. exact R5.
    + exists dst'. split; [exact A|]. replace (i + S n) with (S i + n) by lia. exact B.
Qed.

Lemma copy_rep src d a n : Rep src d ->
  match apply d (Copy a n) with
  | Some d' => exists st', copy_from_range src a n = Some st' /\ Rep st' d'
  | None => copy_from_range src a n = None
  end.
Proof.
  intros R. cbn [apply]. unfold copy_from_range, check. rewrite (r_n _ _ R). destruct ((0 <? n) && (a + n <=? length (d_text d))) eqn:Hr; [|reflexivity].
  apply andb_true_iff in Hr. destruct Hr as [H1 H2]. apply Nat.ltb_lt in H1. apply Nat.leb_le in H2.
  assert (Ht : firstn n (skipn a (buf src)) = firstn n (skipn a (d_text d))).
  { rewrite (r_buf _ _ R), skipn_app, firstn_app. rewrite skipn_length. replace (n - (length (d_text d) - a)) with 0 by lia. cbn [firstn]. apply app_nil_r. }
  rewrite Ht. set (t := firstn n (skipn a (d_text d))).
  assert (Hlt : length t = n) by (unfold t; rewrite firstn_length, skipn_length; lia).
  destruct (copy_loop_rep src d t a R n 0 (create t) []) as [st' [A B]].
  - lia.
  - lia.
  - reflexivity.
  - reflexivity.
  - pose proof (create_rep t) as C. unfold fresh in C. rewrite Hlt in C. exact C.
  - exists st'. split; [exact A|exact B].
Qed.

(** ** Sequences *)
Lemma obey_rep st d e : Rep st d ->
  match apply d e with Some d' => exists st', obey st e = Some st' /\ Rep st' d' | None => obey st e = None end.
Proof.
  intros R. destruct e as [i s first indent|i1 i2|i1 i2 s|s indent|s| | |a n].
  - exact (insert_rep st d i s first indent R).
  - exact (remove_rep st d i1 i2 R).
  - cbn [apply obey]. unfold replace. pose proof (remove_rep st d i1 i2 R) as H. destruct (apply_remove d i1 i2) as [d1|].
    + destruct H as [st1 [H1 R1]]. rewrite H1. cbn [bind]. exact (insert_rep st1 d1 i1 s true false R1).
    + rewrite H. reflexivity.
  - cbn [apply obey]. unfold append. rewrite (r_n _ _ R). exact (insert_rep st d _ s false indent R).
  - cbn [apply obey]. exists (prepend st s). split; [reflexivity|]. apply prepend_rep. exact R.
  - cbn [apply obey]. exists (set_write st false). split; [reflexivity|]. apply write_rep. exact R.
  - cbn [apply obey]. exists (set_write st true). split; [reflexivity|]. apply write_rep. exact R.
  - exact (copy_rep st d a n R).
Qed.

Lemma obey_all_rep es : forall st d, Rep st d ->
  match apply_all d es with Some d' => exists st', obey_all st es = Some st' /\ Rep st' d' | None => obey_all st es = None end.
Proof.
  induction es as [|e es IH]; intros st d R; cbn [apply_all obey_all].
  - exists st. split; [reflexivity|exact R].
  - pose proof (obey_rep st d e R) as H. destruct (apply d e) as [d1|].
    + destruct H as [st1 [H1 R1]]. rewrite H1. exact (IH st1 d1 R1).
    + rewrite H. reflexivity.
Qed.

(** ** Reading *)
Lemma rep_chars st d : Rep st d -> length (d_cells d) <= length (buf st).
Proof. intros R. rewrite (r_buf _ _ R), (r_lc _ _ R), app_length. cbn [length]. lia. Qed.

Lemma rep_shown st d : Rep st d -> show (d_cells d) (buf st) = shown d.
Proof.
  intros R. unfold shown. rewrite (r_buf _ _ R). replace (d_text d ++ [blank; blank]) with ((d_text d ++ [blank]) ++ [blank]) by (rewrite <- app_assoc; reflexivity).
  apply show_chars. rewrite (r_lc _ _ R), app_length. cbn [length]. lia.
Qed.

Lemma rep_all st d : Rep st d -> rest st (d_cells d) (true_size st) 0 = shown d.
Proof.
  intros R. rewrite <- (rep_shown st d R). unfold rest. cbn [skipn]. rewrite (r_size _ _ R). unfold size. destruct (d_end d) eqn:E.
  - rewrite firstn_all2 by (rewrite (r_lc _ _ R); lia). reflexivity.
  - rewrite Nat.add_0_r. pose proof (r_end _ _ R E) as Hn. destruct (nth_error_split _ _ Hn) as [pre [post [Hs Hl]]].
    assert (Hpost : post = []). { pose proof (r_lc _ _ R) as L. rewrite Hs, app_length in L. cbn [length] in L. destruct post; [reflexivity|cbn [length] in L; lia]. }
    subst post. rewrite Hs. rewrite firstn_exact by exact Hl. rewrite show_app. rewrite (r_buf _ _ R), skipn_app, Hl, skipn_all, Nat.sub_diag. cbn [app skipn].
    rewrite show_cons. cbn [show1 gone fst snd before kept app]. rewrite app_nil_r. reflexivity.
Qed.

Lemma rep_dump st d : Rep st d -> dump st = Some (d_front d ++ shown d ++ surplus d).
Proof.
  intros R. unfold dump, get_mapped. rewrite Nat.sub_0_r, (r_len _ _ R), Nat2Z.id, (rep_shown st d R), (r_front _ _ R).
  assert (Hsz : 0 + true_size st <= length (d_cells d)) by (rewrite (r_size _ _ R), (r_lc _ _ R); unfold size; destruct (d_end d); lia).
  destruct (d_front d) as [|f front] eqn:Hf.
  - rewrite (walk_within st (d_cells d) (r_tab _ _ R) (rep_chars st d R)); [|exact Hsz|rewrite (rep_all st d R); cbn [length]; lia|discriminate].
    cbn [bind app]. rewrite (rep_all st d R). cbn [length Nat.add]. rewrite firstn_all. unfold surplus. rewrite Hf, app_nil_r. reflexivity.
  - rewrite (walk_beyond st (d_cells d) (r_tab _ _ R) (rep_chars st d R)); [|exact Hsz|rewrite (rep_all st d R); cbn [length]; lia].
    cbn [bind]. rewrite (rep_all st d R). cbn [app skipn]. unfold surplus. rewrite Hf, tail_blank_rev, (r_size _ _ R). unfold last_gone.
    destruct (rev (firstn (size d) (d_cells d))) as [|[[s|] [|]] l]; reflexivity.
Qed.

Lemma rep_get st d i1 i2 : Rep st d -> get st i1 i2 = if (i1 <=? i2) && (i2 <? size d) then Some (shown_part d i1 i2) else None.
Proof.
  intros R. unfold get, get_index_range_size, check. rewrite (r_size _ _ R). destruct ((i1 <=? i2) && (i2 <? size d)) eqn:Hr; [|reflexivity].
  apply andb_true_iff in Hr. destruct Hr as [H1 H2]. apply Nat.leb_le in H1. apply Nat.ltb_lt in H2.
  assert (Hsz : size d <= length (d_cells d)) by (rewrite (r_lc _ _ R); unfold size; destruct (d_end d); lia).
  rewrite (range_size_rest st (d_cells d) (r_tab _ _ R) (rep_chars st d R)) by lia. cbn [bind]. rewrite Nat2Z.id. unfold get_mapped. rewrite (r_size _ _ R).
  assert (Hsplit : rest st (d_cells d) (size d - i1) i1 = rest st (d_cells d) (S i2 - i1) i1 ++ rest st (d_cells d) (size d - S i2) (S i2)).
  { unfold rest. replace (size d - i1) with ((S i2 - i1) + (size d - S i2)) by lia.
    assert (F : forall a b (l : list cell), firstn (a + b) l = firstn a l ++ firstn b (skipn a l)).
    { induction a as [|a IHa]; intros b l; [reflexivity|]. destruct l as [|x l]; [destruct b; reflexivity|]. cbn [Nat.add firstn skipn app]. rewrite IHa. reflexivity. }
    rewrite F, show_app. f_equal. rewrite firstn_length, skipn_length.
    replace (Nat.min (S i2 - i1) (length (d_cells d) - i1)) with (S i2 - i1) by lia.
    assert (K : forall {X : Type} a b (l : list X), skipn a (skipn b l) = skipn (b + a) l).
    { intros X a b. induction b as [|b IHb]; intros l; [reflexivity|]. destruct l as [|x l]; [destruct a; reflexivity|]. cbn [skipn Nat.add]. apply IHb. }
    rewrite !K. replace (i1 + (S i2 - i1)) with (S i2) by lia. reflexivity. }
  rewrite (walk_within st (d_cells d) (r_tab _ _ R) (rep_chars st d R)); [|lia|rewrite Hsplit, app_length; cbn [length]; lia|discriminate].
  f_equal. cbn [app]. rewrite Hsplit, firstn_exact by reflexivity. unfold rest, shown_part. rewrite (r_buf _ _ R).
  replace (d_text d ++ [blank; blank]) with ((d_text d ++ [blank]) ++ [blank]) by (rewrite <- app_assoc; reflexivity).
  rewrite skipn_app. apply show_chars. rewrite firstn_length, !skipn_length, app_length, (r_lc _ _ R). cbn [length]. lia.
Qed.

Lemma rep_edited st d i : Rep st d -> i <= length (d_text d) ->
  is_edited st i = Some (match nth_error (d_cells d) i with Some (mkCell None true) => false | _ => true end).
Proof.
  intros R Hi. destruct (rep_place st d i R Hi) as [e [c [ch [He [Hc [_ Hec]]]]]]. unfold is_edited. rewrite He, Hc. cbn [bind].
  destruct (has_slot e) eqn:S1.
  - destruct (cell_of_slot _ _ _ Hec S1) as [s [_ ->]]. pose proof (has_slot_abs _ S1). destruct (Z.eqb_spec e 1); [lia|reflexivity].
  - destruct (cell_of_plain _ _ _ Hec S1) as [[-> ->]|[-> ->]]; reflexivity.
Qed.

Lemma rep_original st d i : Rep st d -> get_original st i = nth_error (d_text d) i.
Proof.
  intros R. unfold get_original, check. rewrite (r_n _ _ R), (r_buf _ _ R). destruct (Nat.ltb_spec i (length (d_text d))) as [H|H].
  - apply nth_error_app1. exact H.
  - symmetry. apply nth_error_None. exact H.
Qed.
