(** The lists of values: the loop ends. *)
From Coq Require Import String.
From Verif Require Import Common SrcbufModel WordsModel WordsProofs1 CmdargsModel DecimalModel InputModel InputSpec InputProofs1 InputProofs2.
Open Scope list_scope.
Open Scope nat_scope.

Fixpoint cnt (s : text) : nat := match s with [] => 0 | c :: t => (if (c =? 44)%Z then 1 else 0) + cnt t end.
Fixpoint cv (l : list text) : nat := match l with [] => 0 | s :: t => cnt s + cv t end.
Fixpoint pc (l : list text) : nat :=
  match l with
  | k :: r => match r with v :: t => (match k with [] => cnt v | _ => 0 end) + pc t | [] => 0 end
  | [] => 0
  end.
Definition meas (x : input) : nat := cv (view x) + pc (eff x).

Lemma cnt_app : forall a b, cnt (a ++ b) = cnt a + cnt b.
Proof. induction a; simpl; intros; auto. rewrite IHa. lia. Qed.
Lemma cnt_trim : forall s, cnt (trim s) = cnt s.
Proof.
  induction s; simpl; auto. destruct (isspace a) eqn:E; auto. rewrite IHs.
  replace (a =? 44)%Z with false by (unfold isspace in E; lia). reflexivity.
Qed.
Lemma cv_norm : forall l r, cv (norm l r) = cnt l + cv r.
Proof. intros. unfold norm. rewrite <- (cnt_trim l). destruct (trim l); reflexivity. Qed.
Lemma cnt_length : forall s, cnt s <= length s.
Proof. induction s; simpl; auto. destruct (a =? 44)%Z; lia. Qed.
Lemma cnt_uncommented : forall s, cnt (uncommented s) <= length s.
Proof. induction s; simpl; auto. destruct (a =? 35)%Z; simpl; [lia|]. destruct (a =? 44)%Z; lia. Qed.
Lemma cnt_skipn : forall k s, cnt (skipn k s) <= cnt s.
Proof. induction k; intros; simpl; auto. destruct s; simpl; auto. specialize (IHk s). lia. Qed.
Lemma cv_significant : forall f, cv (significant f) <= length f.
Proof.
  enough (H : forall n f, length f <= n -> cv (significant f) <= length f) by (intros; eapply H; eauto).
  induction n; intros f Hn.
  - destruct f; simpl in *; [lia|lia].
  - destruct f as [|c f]; [simpl; lia|]. destruct (cut_line (c :: f)) as [l r] eqn:E.
    rewrite (significant_cut _ _ _ E), cv_norm.
    pose proof (cut_length _ _ _ E) as L. pose proof (cnt_uncommented l).
    assert (Hr : length r <= n).
    { destruct (c =? 10)%Z eqn:E10; simpl in E; rewrite E10 in E.
      - inversion E; subst. simpl in Hn. lia.
      - destruct (cut_line f) as [l' r'] eqn:E'. inversion E; subst. simpl in *. lia. }
    specialize (IHn r Hr). lia.
Qed.
Lemma pc_concat : forall l, pc l <= length (concat l).
Proof.
  enough (H : forall n l, length l <= n -> pc l <= length (concat l)) by (intros; eapply H; eauto).
  induction n; intros l Hn; [destruct l; simpl in *; lia|].
  destruct l as [|k [|v t]]; simpl; try lia.
  simpl in Hn. rewrite !app_length. specialize (IHn t ltac:(lia)). pose proof (cnt_length v).
  destruct k; simpl; lia.
Qed.
Lemma meas_left_over : forall x, meas x <= left_over x.
Proof.
  intros x. unfold meas, left_over, view, eff. rewrite cv_norm.
  pose proof (cv_significant (i_file x)). pose proof (cnt_length (rest x)). rewrite rest_length in *.
  destruct (i_args x) as [|a t].
  - destruct (i_cmd x) as [l|]; simpl; [pose proof (pc_concat l); lia|lia].
  - pose proof (pc_concat (a :: t)). destruct (i_cmd x); lia.
Qed.
Lemma meas_eqv : forall x y, eqv x y -> meas x = meas y.
Proof. intros x y (V & (A & _ & C) & _ & _ & _). unfold meas, eff. now rewrite V, A, C. Qed.
Lemma meas_same : forall x y, same_args x y -> view x = view y -> meas x = meas y.
Proof. intros x y (A & _ & C) V. unfold meas, eff. now rewrite V, A, C. Qed.

Lemma eqv_refl : forall x, wf x -> paired x -> eqv x x.
Proof. intros. repeat split; auto. Qed.
Lemma rel_wf : forall A (r : res (A * input)) (P : input -> input -> Prop) a y,
  (forall u v, P u v -> eqv u v) -> rel P r r -> r = Ok (a, y) -> wf y /\ paired y.
Proof. intros A r P a y H R E. rewrite E in R. simpl in R. destruct R as [_ R]. apply H in R. split; apply R. Qed.

Lemma override_pc : forall l r l', override l [] = Ok (r, l') ->
  pc l' + match r with Some v => cnt v | None => 0 end = pc l.
Proof.
  enough (H : forall n l, length l <= n -> forall r l', override l [] = Ok (r, l') ->
    pc l' + match r with Some v => cnt v | None => 0 end = pc l) by (intros; eapply H; eauto).
  induction n; intros l Hn r l' H; [destruct l; simpl in *; inversion H; subst; simpl; lia|].
  destruct l as [|k [|v t]]; simpl in H.
  - inversion H; subst. auto.
  - destruct k; simpl in H; [discriminate|]. inversion H; subst. auto.
  - destruct k as [|c k]; simpl in H.
    + inversion H; subst. simpl. lia.
    + destruct (override t []) as [[r2 t2]| | |] eqn:E; simpl in H; try discriminate.
      inversion H; subst. apply IHn in E; [|simpl in Hn; lia]. simpl. lia.
Qed.

(** An argument list does not become empty. *)
Lemma override_nil : forall l key r, override l key = Ok (r, []) -> l = [].
Proof.
  intros l key r H. destruct l as [|k [|v t]]; simpl in H; auto.
  - destruct (same_text k key); discriminate.
  - destruct (same_text k key); [discriminate|].
    destruct (override t key) as [[r2 t2]| | |]; simpl in H; discriminate.
Qed.
Lemma scan_meas : forall x y, scan_cmdline x [] = Ok y -> meas y <= meas x.
Proof.
  intros x y H. unfold scan_cmdline in H. destruct (i_first x); [|inversion H; auto]. cbv zeta in H. fold (eff x) in H.
  destruct (override (eff x) []) as [[r a]| | |] eqn:E; simpl in H; try discriminate.
  pose proof (override_pc _ _ _ E) as P. unfold meas.
  assert (Ha : forall z, i_args z = a -> i_cmd z = i_cmd x -> pc (eff z) = pc a).
  { intros z Ez Ec. unfold eff. rewrite Ez, Ec. destruct a as [|k a]; auto.
    apply override_nil in E. unfold eff in E. destruct (i_args x); [|discriminate].
    destruct (i_cmd x) as [l|]; subst; auto. }
  destruct r as [v|]; inversion H; subst; clear H.
  - rewrite Ha by auto. unfold view, rest. simpl. rewrite !cv_norm. simpl. lia.
  - rewrite Ha by auto. unfold view, rest. simpl. lia.
Qed.

Lemma handle_nil_meas : forall x b y, wf x -> handle_key x [] = Ok (b, y) -> meas y <= meas x.
Proof.
  intros x b y W H. unfold handle_key in H. pose proof (remove_whitespaceP x W) as P.
  assert (G : exists c z, remove_whitespace x = Ok (c, z) /\ meas z = meas x).
  { destruct (view x) as [|l r] eqn:V.
    - destruct P as (z & E & A & R & W' & S). exists false, z. split; auto. apply meas_same; auto.
      unfold view at 1. rewrite R, S. auto.
    - destruct P as (z & E & A & R & W' & S & T & N). exists true, z. split; auto. apply meas_same; auto.
      rewrite V. unfold view, norm. rewrite R, S, T. destruct l; [now elim N|reflexivity]. }
  destruct G as (c & z & E & M). rewrite E in H. simpl in H.
  destruct (scan_cmdline z []) as [w| | |] eqn:Es; simpl in H; try discriminate.
  inversion H; subst. apply scan_meas in Es. lia.
Qed.
Lemma peek_meas : forall x t y, wf x -> peek_token x = Ok (t, y) -> meas y = meas x.
Proof.
  intros x t y W H. pose proof (peek_tokenP x W) as P. destruct (view x) as [|l r] eqn:V.
  - destruct P as (z & E & A & R & W' & S). rewrite E in H. inversion H; subst. apply meas_same; auto.
    rewrite V. unfold view. rewrite R, S. reflexivity.
  - destruct P as (T & N & P). destruct (token l); [|congruence]. destruct P as (z & E & A & R & W' & S).
    rewrite E in H. inversion H; subst. apply meas_same; auto.
    rewrite V. unfold view, norm. rewrite T. destruct (rest y); [now elim N|reflexivity].
Qed.
Lemma advance_meas : forall x k, meas (set_start x (i_start x + k)) + cnt (firstn k (rest x)) = meas x.
Proof.
  intros. unfold meas, view. rewrite rest_advance, !cv_norm. cbn [set_start set_line i_file].
  rewrite <- (firstn_skipn k (rest x)) at 3. rewrite cnt_app. unfold eff. simpl. lia.
Qed.
Lemma get_token_meas : forall x t y, wf x -> get_token x = Ok (t, y) -> meas y <= meas x.
Proof.
  intros x t y W H. unfold get_token in H. destruct (peek_token x) as [[[s|] z]| | |] eqn:E; simpl in H; try discriminate.
  - inversion H; subst. apply peek_meas in E; auto. pose proof (advance_meas z (length s)). lia.
  - inversion H; subst. apply peek_meas in E; auto. lia.
Qed.
Lemma match_comma_meas : forall x y, wf x -> match_token x (str ",") = Ok (true, y) -> meas y < meas x.
Proof.
  intros x y W H. unfold match_token in H. destruct (peek_token x) as [[[s|] z]| | |] eqn:E; simpl in H; try discriminate.
  destruct (same_text s [44%Z]) eqn:Es; [|discriminate].
  inversion H; subst. apply same_text_iff in Es. subst. pose proof (peek_prefix x _ z W E) as [P _].
  apply peek_meas in E; auto. apply token_prefix in P.
  pose proof (advance_meas z 1) as M. rewrite P in M. simpl in M. lia.
Qed.

Section Values.
Context {T : Type}.
Variable value : text -> option T.
Lemma get_value_wf : forall x key v y, wf x -> paired x -> get_value value x key = Ok (v, y) -> wf y /\ paired y.
Proof. intros. eapply rel_wf with (P := eqr); eauto. apply get_value_rel, eqv_refl; auto. Qed.
Lemma match_wf : forall x s b y, wf x -> paired x -> match_token x s = Ok (b, y) -> wf y /\ paired y.
Proof. intros. eapply rel_wf with (P := eqr); eauto. apply match_token_rel, eqv_refl; auto. Qed.
Lemma handle_wf : forall x s b y, wf x -> paired x -> handle_key x s = Ok (b, y) -> wf y /\ paired y.
Proof. intros. eapply rel_wf with (P := eqr); eauto. apply handle_rel, eqv_refl; auto. Qed.
Lemma get_value_meas : forall x v y, wf x -> paired x -> get_value value x [] = Ok (v, y) -> meas y <= meas x.
Proof.
  intros x v y W Pa H. unfold get_value in H. destruct (handle_key x []) as [[b z]| | |] eqn:E; simpl in H; try discriminate.
  pose proof (handle_wf _ _ _ _ W Pa E) as [W1 _]. apply handle_nil_meas in E; auto. destruct b.
  - destruct (get_token z) as [[t w]| | |] eqn:Et; simpl in H; try discriminate. inversion H; subst.
    apply get_token_meas in Et; auto. lia.
  - inversion H; subst. lia.
Qed.
Lemma get_more_rel : forall n m x y, eqv x y -> meas x < n -> meas x < m -> rel eqv (get_more value n x) (get_more value m y).
Proof.
  induction n; intros m x y H Hn Hm; [lia|]. destruct m as [|m]; [lia|]. cbn [get_more].
  assert (Wx : wf x) by apply H. assert (Px : paired x) by apply H.
  pose proof (match_token_rel x y (str ",") H) as R.
  destruct (match_token x (str ",")) as [[b x1]| | |] eqn:E, (match_token y (str ",")) as [[b' y1]| | |]; simpl in R; try contradiction; simpl; auto.
  destruct R as [<- R]. destruct b; [|simpl; auto].
  pose proof (match_comma_meas x x1 Wx E) as M1. pose proof (match_wf _ _ _ _ Wx Px E) as [W1 P1].
  pose proof (get_value_rel value x1 y1 [] (eqr_eqv _ _ R)) as R2.
  destruct (get_value value x1 []) as [[[v|] x2]| | |] eqn:E2, (get_value value y1 []) as [[v' y2]| | |]; simpl in R2; try contradiction; simpl; auto;
    destruct R2 as [<- R2]; simpl; auto.
  pose proof (get_value_meas _ _ _ W1 P1 E2) as M2.
  eapply rel_bind; [apply IHn; auto; lia|]. intros l x3 y3 H3. simpl. auto.
Qed.
Lemma get_list_rel : forall x y key, eqv x y -> rel eqv (get_list value x key) (get_list value y key).
Proof.
  intros x y key H. unfold get_list. eapply rel_bind; [apply get_value_rel, H|]. intros [v|] x1 y1 H1; [|simpl; auto].
  eapply rel_bind with (P := eqv).
  - apply get_more_rel; auto; [|rewrite (meas_eqv x1 y1) by auto]; pose proof (meas_left_over x1); pose proof (meas_left_over y1); lia.
  - intros l x2 y2 H2. simpl. auto.
Qed.
End Values.
