(** The lines seen by the reader are the significant lines of the file. *)
From Verif Require Import Common SrcbufModel WordsModel WordsProofs1 CmdargsModel DecimalModel InputModel InputSpec.
Open Scope nat_scope.

Definition norm (l : text) (r : list text) : list text := match trim l with [] => r | c :: t => (c :: t) :: r end.
Definition rest (x : input) : text := skipn (i_start x) (i_line x).
(** What is still to be read. *)
Definition view (x : input) : list text := norm (rest x) (significant (i_file x)).
Definition wf (x : input) : Prop := i_start x <= length (i_line x).

Definition eff (x : input) : list text := match i_args x, i_cmd x with [], Some l => l | a, _ => a end.
(** The arguments of -p come in pairs. *)
Definition paired (x : input) : Prop := Nat.even (length (eff x)) = true.

Lemma trimE : forall s, skip_space s = trim s.
Proof. reflexivity. Qed.
Lemma uncommentedE : forall s, no_comment s = uncommented s.
Proof. reflexivity. Qed.
Lemma trim_idem : forall s, trim (trim s) = trim s.
Proof. induction s; simpl; auto. destruct (isspace a) eqn:E; auto. simpl. now rewrite E. Qed.
Lemma trim_length : forall s, length (trim s) <= length s.
Proof. induction s; simpl; auto. destruct (isspace a); simpl; lia. Qed.
Lemma trim_spaces : forall s, skipn (spaces s) s = trim s.
Proof. induction s; simpl; auto. destruct (isspace a); auto. Qed.
Lemma spaces_le : forall s, spaces s <= length s.
Proof. induction s; simpl; auto. destruct (isspace a); simpl; lia. Qed.
Lemma trim_blanks : forall s t, blanks s -> trim (s ++ t) = trim t.
Proof. induction s; simpl; intros; auto. inversion H; subst. rewrite H2. auto. Qed.
Lemma trim_nil : forall s, blanks s -> trim s = [].
Proof. intros. rewrite <- (app_nil_r s), trim_blanks; auto. Qed.
Lemma trim_head : forall s c t, trim s = c :: t -> isspace c = false.
Proof. induction s; simpl; intros; [discriminate|]. destruct (isspace a) eqn:E; eauto. now inversion H; subst. Qed.
Lemma trim_visible : forall c t, isspace c = false -> trim (c :: t) = c :: t.
Proof. intros. simpl. now rewrite H. Qed.
Lemma norm_trim : forall l r, norm (trim l) r = norm l r.
Proof. intros. unfold norm. now rewrite trim_idem. Qed.
Lemma norm_blanks : forall l r, blanks l -> norm l r = r.
Proof. intros. unfold norm. now rewrite trim_nil. Qed.

Lemma lines_cut : forall f, lines f = fst (cut_line f) :: (if existsb (fun c => (c =? 10)%Z) f then lines (snd (cut_line f)) else []).
Proof.
  induction f; simpl; auto. destruct (a =? 10)%Z eqn:E; simpl; auto.
  rewrite IHf. destruct (cut_line f); simpl. auto.
Qed.
Lemma cut_none : forall f, existsb (fun c => (c =? 10)%Z) f = false -> cut_line f = (f, []).
Proof.
  induction f; simpl; intros; auto. destruct (a =? 10)%Z; simpl in H; [discriminate|].
  now rewrite IHf.
Qed.
Lemma sig_cons : forall l r,
  filter (fun l : text => match l with [] => false | _ => true end) (trim l :: r) =
  norm l (filter (fun l : text => match l with [] => false | _ => true end) r).
Proof. intros. unfold norm. simpl. destruct (trim l); auto. Qed.
Lemma significant_cut : forall f l r, cut_line f = (l, r) -> significant f = norm (uncommented l) (significant r).
Proof.
  intros f l r H. unfold significant at 1. rewrite lines_cut, H. cbn [fst snd map]. rewrite sig_cons. f_equal.
  destruct (existsb _ f) eqn:E; auto. rewrite cut_none in H by auto. inversion H; subst. reflexivity.
Qed.
Lemma significant_skip : forall f, significant (trim f) = significant f.
Proof.
  induction f; simpl; auto. destruct (isspace a) eqn:E; auto. rewrite IHf.
  unfold significant at 2. simpl. destruct (a =? 10)%Z eqn:E10; [reflexivity|].
  assert (H35 : (a =? 35)%Z = false) by (unfold isspace in E; lia).
  unfold significant. destruct (lines f) as [|l r] eqn:L; [rewrite lines_cut in L; discriminate|].
  simpl. rewrite H35. simpl. rewrite E. reflexivity.
Qed.
Lemma cut_length : forall f l r, cut_line f = (l, r) -> length l + length r <= length f.
Proof.
  induction f; simpl; intros l r H; [inversion H; simpl; auto|].
  destruct (a =? 10)%Z; [inversion H; subst; simpl; lia|].
  destruct (cut_line f) as [l' r'] eqn:E. inversion H; subst. specialize (IHf _ _ eq_refl). simpl. lia.
Qed.

Lemma get_lineP : forall n x, length (i_file x) < n ->
  match significant (i_file x) with
  | [] => get_line n x = Ok (false, set_line x [] [] 0)
  | l :: r => exists f, get_line n x = Ok (true, set_line x f l 0) /\ significant f = r /\ trim l = l /\ l <> []
  end.
Proof.
  induction n; intros x Hn; [lia|]. cbn [get_line]. rewrite trimE, <- significant_skip.
  pose proof (trim_length (i_file x)) as Hl.
  destruct (trim (i_file x)) as [|c f] eqn:E; [reflexivity|].
  destruct (cut_line (c :: f)) as [l r] eqn:Ec. rewrite (significant_cut _ _ _ Ec).
  pose proof (cut_length _ _ _ Ec) as Hc. pose proof (trim_head _ _ _ E) as Hv.
  simpl in Ec. assert (H10 : (c =? 10)%Z = false) by (unfold isspace in Hv; lia). rewrite H10 in Ec.
  destruct (cut_line f) as [l' r'] eqn:E2. inversion Ec; subst. clear Ec.
  cbn [uncommented]. destruct (c =? 35)%Z eqn:E35.
  - change (norm [] (significant r)) with (significant r).
    specialize (IHn (set_line x r (c :: l') (i_start x))). cbn [i_file set_line] in IHn.
    assert (Hr : length r < n) by (simpl in *; lia).
    specialize (IHn Hr). destruct (significant r); auto.
  - unfold norm. rewrite trim_visible by auto.
    exists r. cbn [no_comment]. rewrite E35, uncommentedE. repeat split; auto.
    + now apply trim_visible.
    + discriminate.
Qed.

(** The members other than the text. *)
Definition same_args (x y : input) : Prop := i_args x = i_args y /\ i_first x = i_first y /\ i_cmd x = i_cmd y.
Lemma same_args_refl : forall x, same_args x x.
Proof. now intros. Qed.
#[export] Hint Resolve same_args_refl : core.

Lemma skipn_skipn : forall (A : Type) a b (s : list A), skipn a (skipn b s) = skipn (b + a) s.
Proof. intros A a b. induction b; intros s; simpl; auto. destruct s; auto. now rewrite skipn_nil. Qed.

Lemma remove_whitespaceP : forall x, wf x ->
  match view x with
  | [] => exists y, remove_whitespace x = Ok (false, y) /\ same_args y x /\ rest y = [] /\ wf y /\ significant (i_file y) = []
  | l :: r => exists y, remove_whitespace x = Ok (true, y) /\ same_args y x /\ rest y = l /\ wf y /\ significant (i_file y) = r
                /\ trim l = l /\ l <> []
  end.
Proof.
  intros x W. unfold remove_whitespace, view. fold (rest x).
  pose proof (spaces_le (rest x)) as Hs. pose proof (trim_spaces (rest x)) as Ht.
  assert (Hlen : length (rest x) = length (i_line x) - i_start x) by (unfold rest; now rewrite skipn_length).
  unfold wf in W. unfold norm.
  destruct (i_start x + spaces (rest x) =? length (i_line x)) eqn:E.
  - apply Nat.eqb_eq in E. rewrite skipn_all2 in Ht by lia. rewrite <- Ht.
    pose proof (get_lineP (S (length (i_file x))) (set_start x (i_start x + spaces (rest x)))) as G.
    cbn [i_file set_start set_line] in G. specialize (G (Nat.lt_succ_diag_r _)).
    destruct (significant (i_file x)) as [|l r] eqn:Es.
    + eexists. split; [exact G|]. repeat split; auto. unfold wf; simpl; lia.
    + destruct G as (f & G & Hf & Hl & Hn). eexists. split; [exact G|].
      repeat split; auto. unfold wf; simpl; lia.
  - apply Nat.eqb_neq in E. destruct (trim (rest x)) as [|c t] eqn:Etr.
    + exfalso. assert (Hc : length (skipn (spaces (rest x)) (rest x)) = 0) by now rewrite Ht.
      rewrite skipn_length in Hc. lia.
    + exists (set_start x (i_start x + spaces (rest x))). split; [reflexivity|].
      assert (Hr : rest (set_start x (i_start x + spaces (rest x))) = c :: t).
      { unfold rest at 1. cbn [set_start set_line i_start i_line]. rewrite <- skipn_skipn. exact Ht. }
      repeat split; auto.
      * unfold wf. simpl. lia.
      * rewrite <- Etr. apply trim_idem.
      * discriminate.
Qed.
