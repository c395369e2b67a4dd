(** Forces as gradients; they follow gauge transformations. *)
Set Warnings "-notation-overridden,-ambiguous-paths".
From Coq Require Import ZArith List.
From mathcomp Require Import all_ssreflect all_algebra.
From Verif Require Import LinalgSpec AlgebraModel AlgebraSpec AlgebraProofs2 AlgebraProofs4 AlgebraProps
  GaugeModel GaugeSpec GaugeMatrix GaugeProofs1 GaugeProofs2 MatrixSpec ForceModel ForceSpec
  ForceProofs1 ForceProofs2 ForceProofs3 ForceProofs4 ForceProofs5 ForceProofs7 ForceProofs10 ForceProps
  GaussModel GaussSpec GaussProofs1 GaussProofs7 FlowModel FlowSpec.
Set Implicit Arguments.
Unset Strict Implicit.
Unset Printing Implicit Defensive.
Import Order.TTheory GRing.Theory Num.Theory.
Local Open Scope ring_scope.

Section Gradient.
Variables (C : numClosedFieldType) (n : nat) (L : list Z).
Hypothesis n0 : (0 < n)%N.
Hypothesis HL : sizes L.
Notation CM := (complex_matrices C n).
Notation LM := (complex_linear C n).
Notation SU := (su_algebra C n).
Notation Ex := (@algebra_matrix C n).
Notation toalg := (@algebra_components C n).
Notation prod := (product n L).

(** K is c times the gradient of S at V. *)
Definition gradient (S : links C n -> C) (K : moments C) (V : links C n) (c : C) : Prop :=
  real_momenta n L K /\
  forall U E, real_momenta n L E -> links_move L U V E ->
  exists2 D, derivative (fun t => S (U t)) (S V) D & prod E K = c * D.

Lemma work0 (E K : moments C) : work n L E (fun _ _ _ => 0) K = prod E K.
Proof.
by apply: eq_bigr => d _; apply: eq_bigr => x _; apply: eq_bigr => k _; rewrite subr0.
Qed.

Lemma wplaq_gradient V stale K eps : (1 < length L)%N -> eps \is Num.real ->
  gradient (measure_s_wplaq CM L) (get_force_wplaq CM SU L V stale K eps) V (- (2%:R * n%:R * eps)).
Proof.
move=> h1 re; split=> [d x k hd hx hk|U E RE H].
  by rewrite force_at //; apply: components_real => //; rewrite rpredN.
have [D [HD W]] := C85_force n0 HL h1 RE H; exists D; first exact: HD.
by rewrite mulNr -(W stale K eps).2 work0.
Qed.

(** ** One component of a field *)

Definition unit_momenta (d : nat) (x : site) (k : nat) : moments C :=
  fun d' x' k' => if Nat.eqb d' d && (if list_eq_dec Z.eq_dec x' x then true else false) && Nat.eqb k' k then 1 else 0.

Lemma unit_real d x k : real_momenta n L (unit_momenta d x k).
Proof. by move=> d' x' k' _ _ _; rewrite /unit_momenta; case: ifP => _; rewrite ?real1 ?real0. Qed.

Lemma sum_pick (T : Type) (l : list T) (y : T) (f : T -> C) : NoDup l -> In y l ->
  (forall x, In x l -> x <> y -> f x = 0) -> \sum_(x <- l) f x = f y.
Proof.
elim: l => [|a l IH] N I Z; first by case: I.
have [na Nl] : ~ In a l /\ NoDup l by inversion N.
rewrite big_cons; case: I => [e|I].
  subst a; rewrite (big_In (g := fun _ => 0)) ?big1 ?addr0 // => x hx.
  by apply: Z; [right|move=> e; apply: na; rewrite -e].
rewrite IH // => [|x hx]; last by apply: Z; right.
by rewrite Z ?add0r //; [left|move=> e; apply: na; rewrite e].
Qed.

Lemma unit_product d x k K : (d < length L)%N -> on_lattice L x -> (k < n * n - 1)%N ->
  prod (unit_momenta d x k) K = K d x k.
Proof.
move=> hd hx hk; rewrite /product.
have E d' x' : \sum_(k' < n * n - 1) unit_momenta d x k d' x' k' * K d' x' k'
  = if Nat.eqb d' d && (if list_eq_dec Z.eq_dec x' x then true else false) then K d' x' k else 0.
  rewrite (bigD1 (Ordinal hk)) //= big1 => [|i /negP ni]; rewrite /unit_momenta.
    by rewrite Nat.eqb_refl andbT addr0; case: ifP; rewrite ?mul1r ?mul0r.
  have -> : Nat.eqb i k = false.
    by apply/negP => /Nat.eqb_eq e; apply: ni; apply/eqP; apply: val_inj.
  by rewrite andbF mul0r.
rewrite (sum_pick (y := d)) ?in_seq; [|exact: seq_NoDup| |].
- rewrite (sum_pick (y := x)); [|exact: (sites_NoDup L)|exact/sites_In|].
    by rewrite E Nat.eqb_refl; destruct (list_eq_dec Z.eq_dec x x).
  by move=> x' _ ne; rewrite E; destruct (list_eq_dec Z.eq_dec x' x); rewrite ?andbF.
- by split; [exact: Nat.le_0_l|apply/ssrnat.ltP].
move=> d' _ /Nat.eqb_neq ne; rewrite big1 // => x' _; by rewrite E ne.
Qed.

Lemma deriv_real (f : C -> C) (a b : C) : (forall t, f t \is Num.real) -> derivative f a b -> b \is Num.real.
Proof.
move=> R H; have H2 := deriv_conj H.
have H3 : derivative f a^* b^* by apply: deriv_ext H2 => t _; apply: conj_Creal.
by rewrite CrealE (deriv_unique H3 H).2.
Qed.

(** A field of momenta whose products are the derivatives of a real function is real. *)
Lemma gradient_real S K V c : (forall U, S U \is Num.real) -> c \is Num.real ->
  (forall U E, real_momenta n L E -> links_move L U V E ->
     exists2 D, derivative (fun t => S (U t)) (S V) D & prod E K = c * D) -> gradient S K V c.
Proof.
move=> RS rc H; split=> // d x k hd hx hk.
have [D HD] := H _ _ (unit_real d x k) (@curve_moves C n L V (unit_momenta d x k)).
by rewrite unit_product // => ->; apply: realM => //; apply: deriv_real HD => t; apply: RS.
Qed.

Lemma fold_real (T : Type) (l : list T) (h : C -> T -> C) s :
  (forall x s, s \is Num.real -> h s x \is Num.real) -> s \is Num.real -> fold_left h l s \is Num.real.
Proof. by move=> H; elim: l s => [//|x l IH] s rs; apply: IH; apply: H. Qed.

Lemma one_minus_real (a : C) : a \is Num.real -> one_minus_over_n CM a \is Num.real.
Proof. by move=> ra; rewrite /= realB ?real1 // realM ?realV ?realn. Qed.

Lemma impr_real c11 c12 (U : links C n) : c11 \is Num.real -> c12 \is Num.real ->
  measure_s_impr CM LM L U c11 c12 \is Num.real.
Proof.
move=> r1 r2; apply: fold_real; last exact: real0.
move=> [d1 d2] s rs; case: Nat.ltb => //.
apply: fold_real; last by
  apply: fold_real => // x s' rs'; apply: realD => //; apply: realM => //; apply: one_minus_real; exact: Creal_Re.
move=> x s' rs'; apply: realD; first apply: realD => //;
  apply: realM => //; apply: one_minus_real; exact: Creal_Re.
Qed.

Lemma impr_gradient V stale K eps c11 c12 : (1 < length L)%N -> unitary_links L V -> eps \is Num.real ->
  c11 \is Num.real -> c12 \is Num.real ->
  gradient (fun U => measure_s_impr CM LM L U c11 c12)
    (get_force_impr CM SU L V stale K (eps * c11) (eps * c12)) V (- (2%:R * n%:R * eps)).
Proof.
move=> h1 HV re r1 r2; apply: gradient_real => [U| |U E RE H]; first exact: impr_real.
  by rewrite rpredN !realM ?realn.
have [D [HD W]] := C87_force c11 c12 n0 HL h1 RE H HV; exists D; first exact: HD.
by rewrite mulNr -(W stale K eps).2 work0.
Qed.
End Gradient.
