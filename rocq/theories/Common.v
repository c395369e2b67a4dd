(** Shared list and integer lemmas (no code is modelled here). *)
From Coq Require Export ZArith List Bool Lia Permutation.
From Coq Require Export ZifyBool ZifyClasses.
Export ListNotations.
Open Scope Z_scope.

Ltac Zify.zify_post_hook ::= Z.div_mod_to_equations.

(** [zrange a n] is the list a, a+1, ..., a+n-1. *)
Fixpoint zrange (a : Z) (n : nat) : list Z :=
  match n with
  | O => []
  | S k => a :: zrange (a + 1) k
  end.

Lemma zrange_length : forall n a, length (zrange a n) = n.
Proof. induction n; simpl; intros; auto. Qed.

Lemma zrange_In : forall n a x, In x (zrange a n) <-> a <= x < a + Z.of_nat n.
Proof.
  induction n; intros a x.
  - simpl. split; [tauto|lia].
  - cbn [zrange In]. rewrite IHn. split.
    + intros [H|H]; lia.
    + intros H. destruct (Z.eq_dec a x); [left; lia|right; lia].
Qed.

Lemma zrange_NoDup : forall n a, NoDup (zrange a n).
Proof.
  induction n; intros; simpl; constructor.
  - rewrite zrange_In. lia.
  - apply IHn.
Qed.

Lemma zrange_app : forall n m a,
  zrange a (n + m) = zrange a n ++ zrange (a + Z.of_nat n) m.
Proof.
  induction n; intros.
  - simpl. f_equal. lia.
  - cbn [zrange Nat.add app]. f_equal. rewrite IHn. do 2 f_equal. lia.
Qed.

Lemma zrange_map_add : forall n a b, map (fun x => b + x) (zrange a n) = zrange (b + a) n.
Proof.
  induction n; intros; simpl; auto. f_equal. rewrite IHn. f_equal. lia.
Qed.

Lemma zrange_nth : forall n a k d, (k < n)%nat -> nth k (zrange a n) d = a + Z.of_nat k.
Proof.
  induction n; intros; [lia|]. destruct k; cbn [zrange nth]; [lia|].
  rewrite IHn by lia. lia.
Qed.

Lemma map_ext_In : forall A B (f g : A -> B) l,
  (forall x, In x l -> f x = g x) -> map f l = map g l.
Proof. exact map_ext_in. Qed.

Lemma filter_ext_In : forall A (f g : A -> bool) l,
  (forall x, In x l -> f x = g x) -> filter f l = filter g l.
Proof. exact filter_ext_in. Qed.

Lemma filter_map : forall A B (f : A -> B) p l,
  filter p (map f l) = map f (filter (fun x => p (f x)) l).
Proof.
  induction l; simpl; auto. destruct (p (f a)); simpl; rewrite IHl; auto.
Qed.

Lemma filter_filter : forall A (p q : A -> bool) l,
  filter p (filter q l) = filter (fun x => q x && p x) l.
Proof.
  induction l; simpl; auto.
  destruct (q a); simpl; [destruct (p a)|]; simpl; rewrite ?IHl; auto.
Qed.

Lemma filter_all : forall A (p : A -> bool) l,
  (forall x, In x l -> p x = true) -> filter p l = l.
Proof.
  induction l; simpl; intros; auto.
  rewrite (H a) by auto. f_equal. apply IHl. auto.
Qed.

Lemma filter_none : forall A (p : A -> bool) l,
  (forall x, In x l -> p x = false) -> filter p l = [].
Proof.
  induction l; simpl; intros; auto.
  rewrite (H a) by auto. apply IHl. auto.
Qed.

Lemma NoDup_map_inj : forall A B (f : A -> B) l,
  (forall x y, In x l -> In y l -> f x = f y -> x = y) -> NoDup l -> NoDup (map f l).
Proof.
  induction l; simpl; intros; constructor.
  - rewrite in_map_iff. intros (x & Hx & Hi). inversion H0; subst.
    apply H3. replace a with x; auto.
  - inversion H0; subst. apply IHl; auto.
Qed.

Lemma NoDup_map_eq : forall A B (f : A -> B) l x y,
  NoDup (map f l) -> In x l -> In y l -> f x = f y -> x = y.
Proof.
  induction l; simpl; intros; [tauto|]. inversion H; subst.
  destruct H0, H1; subst; auto.
  - exfalso. apply H5. rewrite H2. apply in_map; auto.
  - exfalso. apply H5. rewrite <- H2. apply in_map; auto.
Qed.

Definition zsum (l : list Z) : Z := fold_right Z.add 0 l.
Definition zprod (l : list Z) : Z := fold_right Z.mul 1 l.

Lemma zprod_pos : forall l, Forall (fun x => 0 < x) l -> 0 < zprod l.
Proof. induction 1; simpl; nia. Qed.

Lemma zprod_nonneg : forall l, Forall (fun x => 0 <= x) l -> 0 <= zprod l.
Proof. induction 1; simpl; nia. Qed.

Lemma zsum_app : forall a b, zsum (a ++ b) = zsum a + zsum b.
Proof. induction a; simpl; intros; auto. rewrite IHa. lia. Qed.

Lemma zprod_cons : forall x l, zprod (x :: l) = x * zprod l.
Proof. reflexivity. Qed.

Lemma zsum_cons : forall x l, zsum (x :: l) = x + zsum l.
Proof. reflexivity. Qed.

Lemma zprod_app : forall a b, zprod (a ++ b) = zprod a * zprod b.
Proof.
  induction a; intros.
  - change (zprod []) with 1. cbn [app]. ring.
  - cbn [app]. rewrite !zprod_cons, IHa. ring.
Qed.

(** Pointwise update of a function-represented array. *)
Definition zupd {V : Type} (f : Z -> V) (i : Z) (v : V) : Z -> V :=
  fun j => if Z.eqb j i then v else f j.

Lemma zupd_same : forall V (f : Z -> V) i v, zupd f i v i = v.
Proof. intros. unfold zupd. rewrite Z.eqb_refl. auto. Qed.

Lemma zupd_other : forall V (f : Z -> V) i v j, j <> i -> zupd f i v j = f j.
Proof. intros. unfold zupd. destruct (Z.eqb_spec j i); congruence. Qed.
