(** The arguments at the end, integers, complex numbers and choices. *)
From Coq Require Import String.
From Verif Require Import Common SrcbufModel WordsModel WordsProofs1 CmdargsModel DecimalModel InputModel InputSpec
  InputProofs1 InputProofs2 InputProofs3 InputProofs4 InputProofs5 InputProofs6.
Open Scope list_scope.
Open Scope nat_scope.

(** After the first key the arguments are in the reader. *)
Definition loaded (x : input) : Prop := i_first x = true -> i_args x = eff x.
Definition keeps {A : Type} (r : res (A * input)) : Prop := match r with Ok (_, y) => loaded y | _ => True end.
Lemma keeps_bind : forall A B (r : res (A * input)) (f : A * input -> res (B * input)),
  keeps r -> (forall a x, loaded x -> keeps (f (a, x))) -> keeps (bind r f).
Proof. intros A B [[a x]| | |] f H F; simpl in *; auto. Qed.
Lemma get_line_keeps : forall n x, loaded x -> keeps (get_line n x).
Proof.
  induction n as [|n IH]; intros x L; [exact I|]. cbn [get_line]. destruct (skip_space (i_file x)) as [|c f]; [exact L|].
  destruct (cut_line (c :: f)) as [[|d l] r]; [exact I|]. destruct (d =? 35)%Z; [apply IH; exact L|exact L].
Qed.
Lemma remove_keeps : forall x, loaded x -> keeps (remove_whitespace x).
Proof. intros x L. unfold remove_whitespace. destruct (_ =? _); [apply get_line_keeps; exact L|exact L]. Qed.
Lemma has_words_keeps : forall x key, loaded x -> keeps (has_words x key).
Proof.
  intros x key L. unfold has_words. destruct (_ <? _); [exact I|]. cbv zeta.
  destruct (word_loop _ _ _ _ _) as [[[[p q] la] sp]|]; [|exact I]. destruct (skip_space q); [|exact L].
  destruct (sp || _ || _ || _ || _); exact L.
Qed.
Lemma peek_keeps : forall x, loaded x -> keeps (peek_token x).
Proof.
  intros x L. unfold peek_token. apply keeps_bind; [apply remove_keeps, L|]. intros [|] y Ly; [|exact Ly].
  destruct (_ <? _); [exact I|]. cbv zeta. destruct (token_end _ _) as [k q]. destruct q; [exact I|exact Ly].
Qed.
Lemma get_token_keeps : forall x, loaded x -> keeps (get_token x).
Proof. intros x L. unfold get_token. apply keeps_bind; [apply peek_keeps, L|]. intros [t|] y Ly; exact Ly. Qed.
Lemma match_token_keeps : forall x t, loaded x -> keeps (match_token x t).
Proof.
  intros x t L. unfold match_token. apply keeps_bind; [apply peek_keeps, L|]. intros [s|] y Ly; [|exact Ly].
  destruct (same_text s t); exact Ly.
Qed.
Lemma override_nonempty : forall l key r a, override l key = Ok (r, a) -> a = [] -> l = [].
Proof.
  intros [|k [|v t]] key r a H ->; auto; simpl in H.
  - destruct (same_text k key); discriminate.
  - destruct (same_text k key); [discriminate|]. destruct (override t key) as [[? ?]| | |]; discriminate.
Qed.
Lemma scan_loads : forall x key y, scan_cmdline x key = Ok y -> loaded y.
Proof.
  intros x key y H. unfold scan_cmdline in H. destruct (i_first x) eqn:F; [|inversion H; subst; intros F'; congruence].
  cbv zeta in H. fold (eff x) in H. destruct (override (eff x) key) as [[r a]| | |] eqn:O; try discriminate. cbn [bind] in H.
  assert (G : i_args y = a /\ i_cmd y = i_cmd x) by (destruct r; inversion H; subst; auto). destruct G as [Ga Gc].
  intros _. unfold eff. rewrite Ga, Gc. destruct a; [|reflexivity].
  pose proof (override_nonempty _ _ _ _ O eq_refl) as E. unfold eff in E. destruct (i_args x); [|discriminate].
  destruct (i_cmd x); congruence.
Qed.
Lemma handle_loads : forall x key y, handle_key x key = Ok (true, y) -> loaded y.
Proof.
  intros x key y H. unfold handle_key in H. destruct (remove_whitespace x) as [[b x1]| | |]; try discriminate. cbn [bind] in H.
  destruct (if 0 <? length key then _ else _) as [[[|] x2]| | |]; try discriminate. cbn [bind] in H.
  destruct (scan_cmdline x2 key) eqn:S; try discriminate. cbn [bind] in H. inversion H; subst. eapply scan_loads; eauto.
Qed.
Lemma handle_keeps : forall x key, loaded x -> keeps (handle_key x key).
Proof.
  intros x key L. destruct (handle_key x key) as [[[|] y]| | |] eqn:H; try exact I; [simpl; eapply handle_loads; eauto|].
  simpl. unfold handle_key in H. pose proof (remove_keeps x L) as R. destruct (remove_whitespace x) as [[b x1]| | |]; try discriminate. cbn [bind] in H.
  assert (K : keeps (if 0 <? length key then has_words x1 key else Ok (true, x1))).
  { destruct (0 <? length key); [apply has_words_keeps, R|exact R]. }
  destruct (if 0 <? length key then _ else _) as [[[|] x2]| | |]; try discriminate; cbn [bind] in H.
  - destruct (scan_cmdline x2 key); discriminate.
  - inversion H; subst. exact K.
Qed.

Section Keeps.
Context {T : Type}.
Variable value : text -> option T.
Variable number : text -> bool.
Lemma get_value_keeps : forall x key, loaded x -> keeps (get_value value x key).
Proof.
  intros x key L. unfold get_value. apply keeps_bind; [apply handle_keeps, L|]. intros [|] y Ly; [|exact Ly].
  apply keeps_bind; [apply get_token_keeps, Ly|]. auto.
Qed.
Lemma get_rest_keeps : forall n x, loaded x -> keeps (get_rest value n x).
Proof.
  induction n as [|n IH]; intros x L; [exact L|]. cbn [get_rest]. apply keeps_bind; [apply get_value_keeps, L|].
  intros [a|] y Ly; [|exact Ly]. apply keeps_bind; [apply IH, Ly|]. auto.
Qed.
Lemma get_more_keeps : forall n x, loaded x -> keeps (get_more value n x).
Proof.
  induction n as [|n IH]; intros x L; [exact I|]. cbn [get_more]. apply keeps_bind; [apply match_token_keeps, L|].
  intros [|] y Ly; [|exact Ly]. apply keeps_bind; [apply get_value_keeps, Ly|].
  intros [a|] z Lz; [|exact Lz]. apply keeps_bind; [apply IH, Lz|]. auto.
Qed.
Lemma get_number_keeps : forall x, loaded x -> keeps (get_number value x).
Proof. intros x L. unfold get_number. apply keeps_bind; [apply get_token_keeps, L|]. auto. Qed.
Lemma get_complex_keeps : forall x key, loaded x -> keeps (get_complex value x key).
Proof.
  intros x key L. unfold get_complex. apply keeps_bind; [apply handle_keeps, L|]. intros [|] x0 L0; [|exact L0].
  apply keeps_bind; [apply match_token_keeps, L0|]. intros [|] x1 L1; [|exact L1].
  apply keeps_bind; [apply get_number_keeps, L1|]. intros [re|] x2 L2; [|exact L2].
  apply keeps_bind; [apply match_token_keeps, L2|]. intros [|] x3 L3; [|exact L3].
  apply keeps_bind; [apply get_number_keeps, L3|]. intros [im|] x4 L4; [|exact L4].
  apply keeps_bind; [apply match_token_keeps, L4|]. auto.
Qed.
Lemma find_item_keeps : forall tok items k x, loaded x -> keeps (find_item number x tok items k).
Proof.
  intros tok. induction items as [|i items IH]; intros k x L; [exact L|]. cbn [find_item]. destruct (_ || _ || _); [exact L|].
  apply keeps_bind; [apply has_words_keeps, L|]. intros [|] y Ly; [exact Ly|apply IH, Ly].
Qed.
Lemma perform_keeps : forall c x, loaded x -> keeps (perform value number c x).
Proof.
  intros [k|k|n k|k|k items] x L; cbn [perform]; (apply keeps_bind; [|auto]).
  - apply get_value_keeps, L.
  - unfold get_list. apply keeps_bind; [apply get_value_keeps, L|]. intros [a|] y Ly; [|exact Ly].
    apply keeps_bind; [apply get_more_keeps, Ly|]. auto.
  - unfold get_vector. apply keeps_bind; [apply get_value_keeps, L|]. intros [a|] y Ly; [|exact Ly].
    apply keeps_bind; [apply get_rest_keeps, Ly|]. auto.
  - apply get_complex_keeps, L.
  - unfold get_item. apply keeps_bind; [apply handle_keeps, L|]. intros [|] y Ly; [|exact Ly].
    apply keeps_bind; [apply peek_keeps, Ly|]. intros [t|] z Lz; [apply find_item_keeps, Lz|exact Lz].
Qed.
Lemma perform_all_keeps : forall cs x, loaded x -> keeps (perform_all value number cs x).
Proof.
  induction cs as [|c cs IH]; intros x L; [exact L|]. cbn [perform_all]. apply keeps_bind; [apply perform_keeps, L|].
  intros a y Ly. apply keeps_bind; [apply IH, Ly|]. auto.
Qed.

(** A call with an answer has found its key. *)
Lemma perform_loads : forall c x l y, perform value number c x = Ok (Values l, y) -> loaded y.
Proof.
  intros c x l y H.
  destruct (handle_key x (key_of c)) as [[[|] x1]| | |] eqn:E.
  - pose proof (handle_loads _ _ _ E) as L1.
    assert (K : keeps (perform value number c x)).
    { clear H. destruct c as [k|k|n k|k|k items]; cbn [key_of] in E; cbn [perform];
        unfold get_list, get_vector, get_complex, get_item, get_value; rewrite E; cbn [bind]; (apply keeps_bind; [|auto]).
      - apply keeps_bind; [apply get_token_keeps, L1|]. auto.
      - apply keeps_bind; [apply keeps_bind; [apply get_token_keeps, L1|auto]|]. intros [a|] z Lz; [|exact Lz].
        apply keeps_bind; [apply get_more_keeps, Lz|]. auto.
      - apply keeps_bind; [apply keeps_bind; [apply get_token_keeps, L1|auto]|]. intros [a|] z Lz; [|exact Lz].
        apply keeps_bind; [apply get_rest_keeps, Lz|]. auto.
      - clear x E. apply keeps_bind; [apply match_token_keeps, L1|]. intros [|] x2 L2; [|exact L2].
        apply keeps_bind; [apply get_number_keeps, L2|]. intros [re|] x3 L3; [|exact L3].
        apply keeps_bind; [apply match_token_keeps, L3|]. intros [|] x4 L4; [|exact L4].
        apply keeps_bind; [apply get_number_keeps, L4|]. intros [im|] x5 L5; [|exact L5].
        apply keeps_bind; [apply match_token_keeps, L5|]. auto.
      - apply keeps_bind; [apply peek_keeps, L1|]. intros [t|] z Lz; [apply find_item_keeps, Lz|exact Lz]. }
    rewrite H in K. exact K.
  - rewrite (perform_absent value number _ _ _ E) in H. discriminate.
  - exfalso. destruct c; cbn [key_of] in E; cbn [perform] in H; unfold get_list, get_vector, get_complex, get_item, get_value in H;
      rewrite E in H; discriminate.
  - exfalso. destruct c; cbn [key_of] in E; cbn [perform] in H; unfold get_list, get_vector, get_complex, get_item, get_value in H;
      rewrite E in H; discriminate.
  - exfalso. destruct c; cbn [key_of] in E; cbn [perform] in H; unfold get_list, get_vector, get_complex, get_item, get_value in H;
      rewrite E in H; discriminate.
Qed.
Lemma all_loads : forall cs x ans z, perform_all value number cs x = Ok (ans, z) -> (exists l, In (Values l) ans) -> loaded z.
Proof.
  induction cs as [|c cs IH]; intros x ans z H [l Hl]; cbn [perform_all] in H.
  - inversion H; subst. destruct Hl.
  - destruct (perform value number c x) as [[a y]| | |] eqn:E; try discriminate. cbn [bind] in H.
    destruct (perform_all value number cs y) as [[as' w]| | |] eqn:E2; try discriminate. cbn [bind] in H. inversion H; subst.
    destruct Hl as [->|Hl]; [|eapply IH; eauto].
    pose proof (perform_all_keeps cs y (perform_loads _ _ _ _ E)) as K. rewrite E2 in K. exact K.
Qed.
Lemma served_values : forall ps cs ls ans ps', served value ps cs ls ans ps' -> ls <> [] -> exists l, In (Values l) ans.
Proof.
  induction 1; intros N; [now elim N|exists l; now left|exists l; now left|].
  destruct (IHserved N) as [l Hl]. exists l. now right.
Qed.
End Keeps.

(** Integers. *)
Lemma take_digits_all : forall d e v k, Forall (fun c => isdigit c = true) d -> match e with [] => True | c :: _ => isdigit c = false end ->
  take_digits (d ++ e) v k = (fold_left (fun v c => (v * 10 + (c - 48))%Z) d v, k + length d, e).
Proof.
  induction d as [|c d IH]; intros e v k F E; simpl.
  - rewrite Nat.add_0_r. destruct e as [|b e]; auto. simpl. now rewrite E.
  - inversion F; subst. rewrite H1, IH by auto. f_equal. f_equal. lia.
Qed.
Lemma not_space : forall c, (33 <= c)%Z -> isspace c = false.
Proof.
  intros c H. unfold isspace.
  repeat match goal with |- context [(?a =? ?b)%Z] => replace (a =? b)%Z with false by (symmetry; apply Z.eqb_neq; lia) end;
  repeat match goal with |- context [(?a <=? ?b)%Z] => first [replace (a <=? b)%Z with false by (symmetry; apply Z.leb_gt; lia)|destruct (a <=? b)%Z] end;
  reflexivity.
Qed.
Lemma horner : forall d v, fold_left (fun v c => (v * 10 + (c - 48))%Z) d v = fold_left (fun v c => (10 * v + (c - 48))%Z) d v.
Proof. induction d as [|c d IH]; intros v; cbn [fold_left]; auto. rewrite IH. f_equal. lia. Qed.
Lemma int_valueP : forall lo hi t v e, decimal t v -> match e with [] => True | c :: _ => ~ (48 <= c <= 57)%Z end ->
  int_value lo hi (t ++ e) = if ((lo <=? v) && (v <=? hi))%Z then Some v else None.
Proof.
  intros lo hi t v e D E.
  assert (E' : match e with [] => True | c :: _ => isdigit c = false end).
  { destruct e as [|c e]; auto. unfold isdigit. destruct (48 <=? c)%Z eqn:E1; [|reflexivity]. destruct (c <=? 57)%Z eqn:E2; [|reflexivity]. exfalso. apply E. lia. }
  assert (G : forall d, digits d -> Forall (fun c => isdigit c = true) d).
  { intros d [_ F]. eapply Forall_impl; [|exact F]. intros c H. cbv beta in H. unfold isdigit. apply andb_true_iff. split; lia. }
  assert (P : forall d (neg : bool), digits d ->
    (let '(v, k, _) := take_digits (d ++ e) 0%Z 0 in
     let v := if neg then (- v)%Z else v in
     if k =? 0 then None else if ((lo <=? v) && (v <=? hi))%Z then Some v else None) =
    (let v := if neg then (- number_of d)%Z else number_of d in if ((lo <=? v) && (v <=? hi))%Z then Some v else None)).
  { intros d neg H. rewrite (take_digits_all d e _ _ (G d H) E'), horner. fold (number_of d).
    destruct H as [N _]. destruct d; [now elim N|reflexivity]. }
  unfold int_value. destruct D as [d H|d H|d H].
  - assert (T : take_sign (skip_space (d ++ e)) = (false, d ++ e)).
    { destruct H as [N F]. destruct d as [|c d]; [now elim N|]. apply Forall_cons_iff in F as [F _]. cbv beta in F. cbn [app skip_space].
      assert (isspace c = false) as -> by (apply not_space; lia). unfold take_sign.
      assert ((c =? 45)%Z = false) as -> by lia. assert ((c =? 43)%Z = false) as -> by lia. reflexivity. }
    rewrite T. exact (P d false H).
  - exact (P d false H).
  - exact (P d true H).
Qed.

(** A key in a file without arguments. *)
Lemma handle_key_file : forall x key ws l r t, wf x -> view x = l :: r -> plain l -> plain key -> spelled ws key -> ws <> [] ->
  has_key ws l t -> i_first x = false ->
  exists y, handle_key x key = Ok (true, y) /\ wf y /\ same_args y x /\ view y = norm t r.
Proof.
  intros x key ws l r t W V Pl Pk Sk N K F.
  destruct (handle_key_found x key ws l r t W V Pl Pk Sk N K (or_introl F)) as (y & E & Wy & _ & Vy).
  exists y. repeat split; auto; clear Vy Wy;
  unfold handle_key in E; pose proof (remove_whitespaceP x W) as P; rewrite V in P;
  destruct P as (x1 & E1 & (Aa & Af & Ac) & _ & W1 & _); rewrite E1 in E; cbn [bind] in E;
  rewrite (spelled_nonempty ws key Sk N), has_wordsE in E by auto;
  (destruct (key_skip (rest x1) key); [|discriminate]); cbn [bind] in E; unfold scan_cmdline in E;
  cbn [set_start set_line i_first] in E; rewrite Af, F in E; cbn [bind] in E; inversion E; subst; simpl; congruence.
Qed.

(** Complex numbers. *)
Lemma get_token_args : forall x t y, get_token x = Ok (t, y) -> wf x -> same_args y x.
Proof.
  intros x t y H W. unfold get_token in H. pose proof (peek_tokenP x W) as P. destruct (view x) as [|l r].
  - destruct P as (z & E & A & _). rewrite E in H. inversion H; subst. exact A.
  - destruct P as (_ & _ & P). destruct (token l).
    + destruct P as (z & E & A & _). rewrite E in H. inversion H; subst. exact A.
    + rewrite P in H. discriminate.
Qed.
Lemma match_token_args : forall x s t y, match_token x s = Ok (t, y) -> wf x -> same_args y x.
Proof.
  intros x s t y H W. unfold match_token in H. pose proof (peek_tokenP x W) as P. destruct (view x) as [|l r].
  - destruct P as (z & E & A & _). rewrite E in H. inversion H; subst. exact A.
  - destruct P as (_ & _ & P). destruct (token l).
    + destruct P as (z & E & A & _). rewrite E in H. cbn [bind] in H. destruct (same_text t0 s); inversion H; subst; exact A.
    + rewrite P in H. discriminate.
Qed.

Section Complex.
Context {T : Type}.
Variable value : text -> option T.
Lemma norm_item : forall g t v e r, blanks g -> item t v -> norm (g ++ t ++ e) r = (t ++ e) :: r.
Proof.
  intros g t v e r B I. destruct (item_trim t v e I) as [Ti Ni]. unfold norm. rewrite trim_blanks, Ti by auto.
  destruct (t ++ e); [now elim Ni|reflexivity].
Qed.
Lemma get_complexP : forall x y key g1 re b g im g2 e r u v, handle_key x key = Ok (true, y) -> wf y ->
  view y = (str "(" ++ g1 ++ re ++ b ++ [44%Z] ++ g ++ im ++ g2 ++ str ")" ++ e) :: r ->
  g1 <> [] -> blanks g1 -> blanks b -> blanks g -> g2 <> [] -> blanks g2 -> blanks e -> means value re u -> means value im v ->
  exists z, get_complex value x key = Ok (Some (u, v), z) /\ wf z /\ same_args z y /\ view z = r.
Proof.
  intros x y key g1 re b g im g2 e r u v H W V N1 B1 Bb Bg N2 B2 Be [[w1 I1] R1] [[w2 I2] R2].
  assert (St : forall a s, a <> [] -> blanks a -> stop (a ++ s)).
  { intros [|c a] s N B; [now elim N|]. simpl. inversion B; auto. }
  assert (Ip : item (str "(") (str "(")) by (constructor; repeat constructor; try discriminate).
  assert (Ic : item (str ")") (str ")")) by (constructor; repeat constructor; try discriminate).
  unfold get_complex. rewrite H. cbn [bind].
  destruct (match_token_found y _ r (str "(") W V (token_item _ _ _ Ip (St _ _ N1 B1))) as (x1 & E1 & W1 & _ & V1).
  pose proof (match_token_args _ _ _ _ E1 W) as A1. rewrite E1. cbn [bind].
  rewrite skipn_length_app, (norm_item _ _ _ _ _ B1 I1) in V1.
  unfold get_number at 1.
  destruct (get_token_found x1 _ r re W1 V1 (token_item _ _ _ I1 (stop_comma _ _ Bb))) as (x2 & E2 & W2 & _ & V2).
  pose proof (get_token_args _ _ _ E2 W1) as A2. rewrite E2. cbn [bind]. rewrite R1.
  rewrite skipn_length_app in V2. unfold norm in V2. rewrite trim_blanks in V2 by auto.
  change (view x2 = (44%Z :: g ++ im ++ g2 ++ str ")" ++ e) :: r) in V2.
  destruct (match_token_found x2 _ r (str ",") W2 V2 (token_comma _)) as (x3 & E3 & W3 & _ & V3).
  pose proof (match_token_args _ _ _ _ E3 W2) as A3. rewrite E3. cbn [bind].
  change (skipn (length (str ",")) (44%Z :: g ++ im ++ g2 ++ str ")" ++ e)) with (g ++ im ++ g2 ++ str ")" ++ e) in V3.
  rewrite (norm_item _ _ _ _ _ Bg I2) in V3. unfold get_number.
  destruct (get_token_found x3 _ r im W3 V3 (token_item _ _ _ I2 (St _ _ N2 B2))) as (x4 & E4 & W4 & _ & V4).
  pose proof (get_token_args _ _ _ E4 W3) as A4. rewrite E4. cbn [bind]. rewrite R2.
  rewrite skipn_length_app, (norm_item _ _ _ _ _ B2 Ic) in V4.
  destruct (match_token_found x4 _ r (str ")") W4 V4 (token_item _ _ _ Ic (stop_blanks _ Be))) as (x5 & E5 & W5 & _ & V5).
  pose proof (match_token_args _ _ _ _ E5 W4) as A5. rewrite E5. cbn [bind].
  exists x5. split; [reflexivity|]. split; auto. split.
  - unfold same_args in *. intuition congruence.
  - rewrite V5, skipn_length_app. now apply norm_blanks.
Qed.
End Complex.

(** Choices. *)
Definition special (number : text -> bool) (t i : text) : bool :=
  same_text i (str "%s") || (same_text i (str "%f") && number t) ||
  (same_text i (str "%i") && match int_value (- 2 ^ 63) (2 ^ 63 - 1) t with Some _ => true | None => false end).
Definition good_item (i : text) : Prop := plain i /\ exists ws, ws <> [] /\ spelled ws i.
Lemma spelled_det : forall ws i, spelled ws i -> forall vs, spelled vs i -> plain i -> ws <> [] -> forall l r, plain l -> trim l = l ->
  has_key ws l r -> vs <> [] -> exists r', has_key vs l r' /\ trim r' = trim r.
Proof.
  intros ws i S vs S' P N l r Pl T K N'. destruct (key_skip_has ws l i r S N Pl P T K) as (k & E & Ek & _).
  pose proof (key_skipP vs l i S' N' Pl P T) as Q. rewrite E in Q. destruct Q as (r' & H & E'). exists r'. split; auto. congruence.
Qed.
Lemma specialP : forall number t i, special number t i = true <-> stands number t i.
Proof.
  intros number t i. unfold special, stands. rewrite !orb_true_iff, !andb_true_iff, !same_text_iff.
  destruct (int_value _ _ t); intuition congruence.
Qed.
Lemma find_itemP : forall number tok l r, plain l -> trim l = l -> l <> [] -> forall items k x, Forall good_item items ->
  wf x -> rest x = l -> significant (i_file x) = r ->
  (exists before i rest after_ y, items = before ++ i :: rest /\ (forall j, In j before -> ~ fits number tok l j) /\
    after number tok l i after_ /\ fits number tok l i /\
    find_item number x tok items k = Ok (Some (k + length before), y) /\ wf y /\ same_args y x /\ view y = norm after_ r) \/
  ((forall j, In j items -> ~ fits number tok l j) /\
    exists y, find_item number x tok items k = Ok (None, y) /\ wf y /\ same_args y x /\ view y = l :: r).
Proof.
  intros number tok l r Pl Tl Nl. induction items as [|i items IH]; intros k x G W R S.
  - right. split; [intros j []|]. exists x. repeat split; auto. unfold view. rewrite R, S. now apply norm_line.
  - inversion G as [|? ? (Pi & ws & Nw & Sw) G']; subst. cbn [find_item]. fold (special number tok i).
    destruct (special number tok i) eqn:Sp.
    + left. exists [], i, items, (rest x), x. cbn [length]. rewrite Nat.add_0_r. repeat split; auto.
      * left. split; auto. now apply specialP.
      * left. now apply specialP.
    + rewrite has_wordsE by auto. pose proof (key_skipP ws (rest x) i Sw Nw Pl Pi Tl) as Q.
      destruct (key_skip (rest x) i) as [n|] eqn:E; cbn [bind].
      * destruct Q as (r' & K & En). left. exists [], i, items, r', (set_start x (i_start x + n)). cbn [length]. rewrite Nat.add_0_r.
        split; [reflexivity|]. split; [intros j []|]. split; [|split; [|split; [|split; [|split]]]]; auto.
        { right. split; [rewrite <- specialP; congruence|eauto]. }
        { right. eauto. }
        { apply wf_advance; auto. eapply key_skip_le; eauto. }
        { repeat split. }
        { unfold view. rewrite rest_advance, En. cbn [set_start set_line i_file]. unfold norm.
          now rewrite trim_idem. }
      * assert (NF : ~ fits number tok (rest x) i).
        { intros [F|(vs & r' & Sv & Kv)]; [apply specialP in F; congruence|].
          destruct vs as [|v0 vs]; [destruct Kv as [Kv _]; inversion Kv|].
          destruct (spelled_det _ _ Sv ws Sw Pi ltac:(discriminate) _ _ Pl Tl Kv Nw) as (r2 & K2 & _). eapply Q; eauto. }
        destruct (IH (Datatypes.S k) x G' W eq_refl eq_refl) as [(bf & j & rs & af & y & -> & Hb & Ha & Hf & Hy & O)|(Hn & y & Hy & O)].
        { left. exists (i :: bf), j, rs, af, y. split; [reflexivity|]. split; [intros q [<-|Hq]; auto|]. split; auto. split; auto.
          rewrite Hy. split; auto. cbn [length]. do 3 f_equal. lia. }
        { right. split; [intros q [<-|Hq]; auto|]. exists y. auto. }
Qed.

(** A reader without arguments is as a new one for what is left of the file. *)
Lemma same_args_trans : forall x y z, same_args x y -> same_args y z -> same_args x z.
Proof. unfold same_args. intuition congruence. Qed.
Lemma eqv_new : forall y f f2, same_args y (new_input f false None) -> wf y -> view y = significant f2 -> eqv y (new_input f2 false None).
Proof.
  intros y f f2 (A & F & C) W V. simpl in A, F, C. unfold eqv. split; [exact V|]. split; [repeat split; assumption|].
  split; [exact W|]. split; [apply Nat.le_refl|]. unfold paired, eff. rewrite A, C. reflexivity.
Qed.
