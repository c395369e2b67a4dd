(** Powers, the exponential series and its derivative. *)
Set Warnings "-notation-overridden,-ambiguous-paths".
From mathcomp Require Import all_ssreflect all_algebra all_fingroup.
From Coq Require List ZArith NArith.
From Coq Require Import Lia.
From Verif Require Import LinalgModel LinalgSpec LinalgProofs1 LinalgProofs2 LinalgProofs3
  LinalgProofs4 MatrixModel MatrixSpec MatrixProofs1 FieldTac.
Set Implicit Arguments.
Unset Strict Implicit.
Unset Printing Implicit Defensive.
Import Order.TTheory GRing.Theory Num.Theory.
Local Open Scope ring_scope.

Notation N2 := (BinNums.Npos (BinNums.xO BinNums.xH)).
Notation Z2 := (BinNums.Zpos (BinNums.xO BinNums.xH)).
Notation Z32 := (BinNums.Zpos (BinNums.xO (BinNums.xO (BinNums.xO (BinNums.xO (BinNums.xO BinNums.xH)))))).

Section Pow.
Variables (F : numFieldType) (f : F -> F) (u : F) (n : nat).
Notation S := (field_scalars f u).
Notation mm := (mxr n.+1 n.+1).
Implicit Types (a b res : nat -> nat -> F) (A M H : 'M[F]_n.+1).

Lemma op_mulM : forall a b, mm (op_mul S n.+1 n.+1 n.+1 a b) = mm a * mm b.
Proof. by move=> a b; rewrite op_mul_mx. Qed.

Lemma to_nat_half : forall p : BinNums.N,
  BinNat.N.to_nat p = ((if BinNat.N.odd p then 1 else 0) + 2 * BinNat.N.to_nat (BinNat.N.div p N2))%N.
Proof.
move=> p; rewrite -BinNat.N.div2_div.
have E := BinNat.N.div2_odd p; rewrite {1}E Nnat.N2Nat.inj_add Nnat.N2Nat.inj_mul.
by rewrite addnC; congr addn; case: (BinNat.N.odd p).
Qed.

Lemma pow_loopE : forall k p res p2, (BinNat.N.lt p (BinNat.N.pow N2 (BinNat.N.of_nat k))) ->
  exists r, pow_loop S k.+1 n.+1 p res p2 = Some r
    /\ mm r = mm res * (mm p2 ^+ 2) ^+ BinNat.N.to_nat p.
Proof.
elim=> [|k IH] p res p2 lt.
  have -> : p = BinNums.N0 by move: lt => /=; lia.
  by exists res; split=> //=; rewrite expr0 mulr1.
rewrite /pow_loop -/(pow_loop S).
case: BinNat.N.eqb_spec => [->|p0]; first by exists res; split=> //=; rewrite expr0 mulr1.
set q2 := op_mul S _ _ _ p2 p2.
set r1 := if BinNat.N.odd p then _ else _.
have lt' : BinNat.N.lt (BinNat.N.div p N2) (BinNat.N.pow N2 (BinNat.N.of_nat k)).
  apply: BinNat.N.div_lt_upper_bound => //.
  by move: lt; rewrite Nnat.Nat2N.inj_succ BinNat.N.pow_succ_r'.
have [r [E R]] := IH (BinNat.N.div p N2) r1 q2 lt'.
exists r; split; first exact: E.
have Q2 : mm q2 = mm p2 ^+ 2 by rewrite op_mulM expr2.
rewrite R Q2 [in RHS]to_nat_half exprD exprM mulrA; congr (_ * _).
by rewrite /r1; case: (BinNat.N.odd p); rewrite ?op_mulM ?Q2 ?expr1 // expr0 mulr1.
Qed.

Lemma powE : forall a p, exists r, pow S n.+1 a p = Some r
  /\ mm r = mm a ^+ BinInt.Z.to_nat (BinInt.Z.modulo p (BinInt.Z.pow Z2 Z32)).
Proof.
move=> a p; rewrite /pow.
set q := BinInt.Z.to_N _.
have lt : BinNat.N.lt (BinNat.N.div q N2) (BinNat.N.pow N2 (BinNat.N.of_nat 32)).
  apply: BinNat.N.div_lt_upper_bound => //.
  have := BinInt.Z.mod_pos_bound p (BinInt.Z.pow Z2 Z32) Logic.eq_refl.
  rewrite /q; set z := BinInt.Z.modulo _ _ => H.
  have H1 : BinInt.Z.lt (BinInt.Z.of_N (BinInt.Z.to_N z)) (BinInt.Z.pow Z2 Z32).
    by rewrite Znat.Z2N.id; [case: H | case: H].
  by move: H1; rewrite -[BinInt.Z.pow Z2 Z32]/(BinInt.Z.of_N (BinNat.N.pow N2 (BinNat.N.of_nat 32))) => /Znat.N2Z.inj_lt; set w := BinNat.N.pow _ _; lia.
have [r [E R]] := pow_loopE (if BinNat.N.odd q then a else of_scalar S n.+1 (one S)) a lt.
exists r; split; first by move: E; generalize (pow_loop S) => g E; exact: E.
rewrite -Znat.Z_N_nat -/q R [in RHS]to_nat_half exprD exprM; congr (_ * _).
case: (BinNat.N.odd q); first by rewrite expr1.
by rewrite of_scalarE expr0.
Qed.

(** ** The series *)

Lemma of_natE : forall k, of_nat S k = k%:R.
Proof. by elim=> //= k ->; rewrite -addn1 natrD. Qed.

Lemma fact_step : forall K j, (0 < K)%N ->
  (1 / K%:R) * (K`!%:R / (K + j)`!%:R) = (K.-1)`!%:R / (K + j)`!%:R :> F.
Proof.
case=> // K j _ /=; rewrite factS natrM mul1r !mulrA mulVf ?mul1r //.
by rewrite pnatr_eq0.
Qed.

(** The coefficients left after the steps order, ..., K + 1. *)
Definition tail (A : 'M[F]_n.+1) (K c : nat) : 'M[F]_n.+1 :=
  \sum_(j < c.+1) (K`!%:R / (K + j)`!%:R) *: A ^+ j.+1.

(** The sum of A^i M A^j with i + j = k. *)
Definition split_sum (A M : 'M[F]_n.+1) (k : nat) : 'M[F]_n.+1 :=
  \sum_(i < k.+1) A ^+ i * M * A ^+ (k - i).

Definition dtail (A M : 'M[F]_n.+1) (K c : nat) : 'M[F]_n.+1 :=
  \sum_(j < c.+1) (K`!%:R / (K + j)`!%:R) *: split_sum A M j.

Lemma split_sumS : forall A M k, split_sum A M k.+1 = split_sum A M k * A + A ^+ k.+1 * M.
Proof.
move=> A M k; rewrite /split_sum big_ord_recr /= subnn expr0 mulr1; congr (_ + _).
rewrite mulr_suml; apply: eq_bigr => i _ /=.
by rewrite subSn ?leq_ord // exprSr mulrA.
Qed.

Lemma fact_unit : forall k, (k`!%:R : F) / k`!%:R = 1.
Proof. by move=> k; rewrite divff // pnatr_eq0 -lt0n fact_gt0. Qed.

(** 1 + tail / K: what multiplies A in the next step. *)
Lemma tail_one : forall A K c, (0 < K)%N ->
  (1 / K%:R) *: tail A K c + 1 = \sum_(j < c.+2) ((K.-1)`!%:R / (K.-1 + j)`!%:R) *: A ^+ j.
Proof.
move=> A [|K] c // _; rewrite [RHS]big_ord_recl /= addn0 fact_unit scale1r expr0 addrC; congr (_ + _).
rewrite /tail scaler_sumr; apply: eq_bigr => j _.
by rewrite scalerA fact_step //= /bump /= add1n addnS addSn.
Qed.

Lemma tail_step : forall A K c, (0 < K)%N ->
  ((1 / K%:R) *: tail A K c + 1) * A = tail A K.-1 c.+1.
Proof.
move=> A K c K0; rewrite tail_one // mulr_suml; apply: eq_bigr => j _.
by rewrite -scalerAl -exprSr.
Qed.

Lemma dtail_step : forall A M K c, (0 < K)%N ->
  (1 / K%:R) *: (dtail A M K c * A) + ((1 / K%:R) *: tail A K c + 1) * M = dtail A M K.-1 c.+1.
Proof.
move=> A M K c K0; rewrite tail_one // /dtail.
rewrite [\sum_(j < c.+2) _ *: A ^+ j]big_ord_recl [RHS]big_ord_recl /= addn0 fact_unit !scale1r.
rewrite /split_sum big_ord1 expr0 mul1r mulr1 mulrDl mul1r addrCA; congr (_ + _).
rewrite !mulr_suml scaler_sumr -big_split /=; apply: eq_bigr => j _.
rewrite -/(split_sum A M j) -/(split_sum A M (bump 0 j)) /bump /= add1n split_sumS.
rewrite -!scalerAl scalerA -[K%:R^-1]mul1r fact_step //.
by case: K K0 => // K _ /=; rewrite addnS addSn -scalerDr.
Qed.

Lemma seq_rev : forall K c,
  List.rev (List.seq K c.+1) = List.app (List.rev (List.seq K.+1 c)) (K :: nil).
Proof. by []. Qed.

Definition exp_body a := fun (r : mat S) (k : nat) =>
  mul_assign S n.+1 (fun _ => a) (add_scalar S n.+1 (fun _ => one S)
    (scale S n.+1 n.+1 (div S (one S) (of_nat S k)) r)).

Lemma exp_bodyE : forall a r k,
  mm (exp_body a r k) = ((1 / k%:R) *: mm r + 1) * mm a.
Proof.
by move=> a r k; rewrite /exp_body /mul_assign op_mulM add_scalarE scaleE /div /= of_natE.
Qed.

Lemma exp_fold : forall a c K, (0 < K)%N ->
  mm (List.fold_left (exp_body a) (List.rev (List.seq K.+1 c)) a) = tail (mm a) K c.
Proof.
move=> a; elim=> [|c IH] K K0.
  by rewrite /tail big_ord1 addn0 fact_unit scale1r expr1.
rewrite seq_rev List.fold_left_app /= exp_bodyE IH //.
by rewrite tail_step.
Qed.

Lemma tail_series : forall A c, tail A 1 c + 1 = exp_series A c.+1.
Proof.
move=> A c; rewrite /exp_series big_ord_recl /= invr1 scale1r expr0 addrC; congr (_ + _).
by apply: eq_bigr => j _; rewrite /bump /= add1n mul1r.
Qed.

Lemma expE : forall a order, mm (exp S n.+1 a order) = exp_series (mm a) order.
Proof.
move=> a [|c]; first by rewrite /exp /= of_scalarE /exp_series big_ord1 fact0 invr1 scale1r.
rewrite /exp /= add_scalarE PeanoNat.Nat.sub_0_r.
by rewrite -[List.fold_left _ _ _]/(List.fold_left (exp_body a) (List.rev (List.seq 2 c)) a)
  exp_fold // tail_series.
Qed.

(** ** The series until the norm does not change *)

Lemma series_step : forall A k, exp_series A k.+1 = exp_series A k + (k.+1`!%:R)^-1 *: A ^+ k.+1.
Proof. by move=> A k; rewrite /exp_series big_ord_recr. Qed.

Lemma altexp_loopE : forall same a count k r mpow x,
  mm r = exp_series (mm a) k.+1 -> mm mpow = (k.+1`!%:R)^-1 *: mm a ^+ k.+1 ->
  let '(r, niter) := altexp_loop S same n.+1 a count k.+2 r mpow x in
  (mm r = exp_series (mm a) niter /\ (k.+2 <= niter < k.+2 + count)%N)
  \/ (niter = 1%N /\ mm r = exp_series (mm a) (k.+1 + count)).
Proof.
move=> same a; elim=> [|count IH] k r mpow x R P; first by right; rewrite addn0.
rewrite /altexp_loop -/(altexp_loop S).
set mp := scale _ _ _ _ _; set r' := add_assign _ _ _ _ _.
have P' : mm mp = (k.+2`!%:R)^-1 *: mm a ^+ k.+2.
  rewrite /mp scaleE /mul_assign op_mulM P (of_natE k.+2) -scalerAl scalerA -exprSr; congr (_ *: _).
  by rewrite [in RHS]factS natrM invfM /= -[RHS]mul1r mulrA.
have R' : mm r' = exp_series (mm a) k.+2 by rewrite /r' add_assignE R P' [RHS]series_step.
case: (same _ _); first by left; rewrite leqnn addnS ltnS leq_addr.
case: (altexp_loop _ _ _ _ _ _ _ _ _) (IH k.+1 r' mp (mat_squarenorm S n.+1 n.+1 r') R' P') => r2 ni.
case=> [[H1 H2]|[H1 H2]]; [left|right]; split=> //.
  by case/andP: H2 => H2 H3; rewrite (ltnW H2) addnS -addSn.
by rewrite addnS -addSn.
Qed.

Lemma altexpE : forall same a,
  let '(r, niter) := altexp S same n.+1 a in
  (mm r = exp_series (mm a) niter /\ (2 <= niter < 15 * n.+1)%N)
  \/ (niter = 1%N /\ mm r = exp_series (mm a) (15 * n.+1 - 1)).
Proof.
move=> same a; rewrite /altexp.
set count := PeanoNat.Nat.sub _ _.
have C : (count + 2 = 15 * n.+1)%N.
  by rewrite /count -[PeanoNat.Nat.mul _ _]/(n.+1 * 15)%N -[PeanoNat.Nat.sub _ _]/(n.+1 * 15 - 2)%N mulnC addnC subnKC // mulnS.
have := @altexp_loopE same a count 0 (add_scalar S n.+1 (fun _ => one S) a) a
  (mat_squarenorm S n.+1 n.+1 (add_scalar S n.+1 (fun _ => one S) a)).
case: (altexp_loop _ _ _ _ _ _ _ _ _) => r ni H.
have [||[H1 H2]|[H1 H2]] := H.
- by rewrite add_scalarE series_step /exp_series big_ord1 fact0 !invr1 !scale1r expr0 expr1 addrC.
- by rewrite invr1 scale1r expr1.
- by left; split=> //; rewrite -C [(count + 2)%N]addnC.
by right; split=> //; rewrite -C H2 addn2 subn1 add1n.
Qed.

(** ** Its derivative *)

Definition dexp_body a b := fun (st : mat S * mat S) (k : nat) =>
  let '(r, dr) := st in
  let r := add_scalar S n.+1 (fun _ => one S) (scale S n.+1 n.+1 (div S (one S) (of_nat S k)) r) in
  let dr := mul_assign S n.+1 (fun _ => a) dr in
  let dr := scale S n.+1 n.+1 (div S (one S) (of_nat S k)) dr in
  let dr := add_assign S n.+1 n.+1 (op_mul S n.+1 n.+1 n.+1 r b) dr in
  let r := mul_assign S n.+1 (fun _ => a) r in
  (r, dr).

Lemma dexp_fold : forall a b c K, (0 < K)%N ->
  let st := List.fold_left (dexp_body a b) (List.rev (List.seq K.+1 c)) (a, b) in
  mm st.1 = tail (mm a) K c /\ mm st.2 = dtail (mm a) (mm b) K c.
Proof.
move=> a b; elim=> [|c IH] K K0.
  rewrite /tail /dtail /split_sum !big_ord1 addn0 fact_unit !scale1r expr1 subnn !expr0.
  by rewrite mul1r mulr1.
rewrite seq_rev List.fold_left_app /=.
case: (List.fold_left _ _ _) (IH K.+1 isT) => r dr /= [R D].
rewrite /mul_assign op_mulM add_assignE !scaleE !op_mulM add_scalarE scaleE of_natE R D.
have -> : K%:R + 1 = K.+1%:R :> F by rewrite -addn1 natrD.
have -> : 1%:M = 1 :> 'M[F]_n.+1 by [].
by rewrite tail_step // dtail_step.
Qed.

Lemma mult_expE : forall a b order,
  let st := mult_exp S n.+1 a b order in
  mm st.1 = mm b * exp_series (mm a) order
  /\ mm st.2 = \sum_(k < order) (k.+1`!%:R)^-1 *: split_sum (mm a) (mm b) k.
Proof.
move=> a b [|c] /=.
  split; first by rewrite /exp_series big_ord1 fact0 invr1 scale1r expr0 mulr1.
  by rewrite of_scalarE big_ord0 raddf0.
rewrite /mult_exp /= PeanoNat.Nat.sub_0_r.
have := dexp_fold a b c (ltn0Sn 0); rewrite /dexp_body /=.
case: (List.fold_left _ _ _) => r dr /= [R D].
rewrite op_mulM add_scalarE R tail_series; split=> //.
by rewrite D; apply: eq_bigr => k _; rewrite mul1r add1n.
Qed.

(** (A + tH)^k to first order in t. *)
Lemma power_expand : forall (A H : 'M[F]_n.+1) k, exists Q : nat -> 'M[F]_n.+1, forall t,
  (A + t *: H) ^+ k
  = A ^+ k + t *: (\sum_(i < k) A ^+ i * H * A ^+ (k.-1 - i))
    + t ^+ 2 *: \sum_(i < k) t ^+ i *: Q i.
Proof.
move=> A H; elim=> [|k [Q IH]].
  by exists (fun _ => 0) => t; rewrite !big_ord0 !scaler0 !addr0 !expr0.
set D := fun k => \sum_(i < k) A ^+ i * H * A ^+ (k.-1 - i).
pose Q' (i : nat) := (if (i < k)%N then Q i * A else 0)
              + (if i is j.+1 then Q j * H else D k * H).
exists Q' => t.
rewrite exprSr IH -/(D k) -/(D k.+1).
have DS : D k.+1 = D k * A + A ^+ k * H.
  rewrite /D big_ord_recr /= subnn expr0 mulr1; congr (_ + _).
  rewrite mulr_suml; apply: eq_bigr => i _.
  case: k i {IH D Q'} => [[]//|k] i /=.
  by rewrite subSn ?leq_ord // exprSr mulrA.
have QS : \sum_(i < k.+1) t ^+ i *: Q' i
    = (\sum_(i < k) t ^+ i *: Q i) * A + D k * H + t *: ((\sum_(i < k) t ^+ i *: Q i) * H).
  under eq_bigr => i _ do rewrite /Q' scalerDr.
  rewrite big_split /= -addrA; congr (_ + _).
    rewrite big_ord_recr /= ltnn scaler0 addr0 mulr_suml.
    by apply: eq_bigr => i _; rewrite ltn_ord scalerAl.
  rewrite big_ord_recl expr0 scale1r; congr (_ + _).
  rewrite [(\sum_(i < k) t ^+ i *: Q i) * H]mulr_suml scaler_sumr; apply: eq_bigr => i _.
  by rewrite /= /bump /= add1n exprS -scalerAl scalerA.
rewrite QS DS [A ^+ k.+1]exprSr; set Z := \sum_(i < k) _; set X := A ^+ k; set E := D k.
rewrite mulrDr !mulrDl -!scalerAr !scalerDr -!scalerAl !scalerA -expr2.
rewrite [t * t ^+ 2]mulrC -!addrA; congr (_ + _); congr (_ + _).
rewrite addrCA; congr (_ + _); congr (_ + _).
Qed.

Lemma trace_split : forall A M H k,
  \tr (M * \sum_(i < k.+1) A ^+ i * H * A ^+ (k - i)) = \tr (split_sum A M k * H).
Proof.
move=> A M H k; rewrite /split_sum mulr_sumr mulr_suml !raddf_sum /=.
rewrite (reindex_inj rev_ord_inj) /=; apply: eq_bigr => i _.
rewrite subSS subKn ?leq_ord // !mulrA [LHS]mxtrace_mulC !mulmxE.
by rewrite !mulrA.
Qed.

Lemma derivative : forall A M H order, exists q : {poly F}, forall t,
  \tr (M * exp_series (A + t *: H) order)
  = \tr (M * exp_series A order)
    + t * \tr ((\sum_(k < order) (k.+1`!%:R)^-1 *: split_sum A M k) * H) + t ^+ 2 * q.[t].
Proof.
move=> A M H; elim=> [|k [q IH]].
  exists 0 => t; rewrite /exp_series !big_ord1 !expr0 big_ord0 mul0r raddf0 horner0.
  by rewrite !mulr0 !addr0.
have [Q E] := power_expand A H k.+1.
pose c : F := (k.+1`!%:R)^-1.
exists (q + \poly_(i < k.+1) (c * \tr (M * Q i))) => t.
have S1 : forall B : 'M[F]_n.+1, exp_series B k.+1 = exp_series B k + c *: B ^+ k.+1.
  by move=> B; rewrite /exp_series big_ord_recr.
rewrite !S1 big_ord_recr /= !mulrDr mulrDl !raddfD /= IH E -/c.
rewrite -!scalerAr -scalerAl !linearZ /= !mulrDr !raddfD /= -!scalerAr !linearZ /= trace_split.
rewrite hornerD horner_poly.
have -> : \sum_(i < k.+1) c * \tr (M * Q i) * t ^+ i = c * \tr (M * \sum_(i < k.+1) t ^+ i *: Q i).
  rewrite [M * \sum_(i < k.+1) _]mulr_sumr raddf_sum /= mulr_sumr; apply: eq_bigr => i _.
  by rewrite -scalerAr linearZ /= -mulrA [t ^+ i * _]mulrC.
set a0 := \tr (M * exp_series _ _); set a1 := \tr (_ * H); set a2 := \tr (M * A ^+ _).
set a3 := \tr (_ * H); set a4 := \tr (M * _).
rewrite !mulrDr [c * (t * _)]mulrCA [c * (t ^+ 2 * _)]mulrCA.
rewrite addrACA; congr (_ + _); rewrite -!addrA; congr (_ + _).
by rewrite addrCA.
Qed.

End Pow.

Section PureField.
Variables (K : Type) (zero one : K) (add mul sub div : K -> K -> K) (opp inv : K -> K).
Hypothesis FT : field_theory zero one add mul sub opp div inv eq.
Add Field K_field : FT.

Lemma last_steps_field : forall x, add one one <> zero -> add one (add one one) <> zero ->
  let two := add one one in let three := add one two in let four := add one three in
  let step k x := mul (add (div x k) one) (opp two) in
  add (step two (step three (step four x))) one = div (opp (add x one)) three.
Proof.
move=> x n2 n3 two three four step; rewrite /step /four /three /two.
field; split; first by move=> E; apply: n3; rewrite -E; ring.
split=> // E; apply: (n2).
have -> : add one one = div (mul (add one one) (add one one)) (add one one) by field.
by rewrite E; field.
Qed.
End PureField.

(** The series for exp(-2). *)
Section MinusTwo.
Variables (F : realFieldType) (f : F -> F) (u : F).
Notation S := (field_scalars f u).
Let a : nat -> nat -> F := fun _ _ => - 2%:R.
Let step (k : nat) (x : F) : F := (x / k%:R + 1) * - 2%:R.

Lemma step_cell : forall r k, mxr 1 1 (exp_body (f := f) (u := u) 0 a r k) 0 0 = step k (mxr 1 1 r 0 0).
Proof.
move=> r k; rewrite exp_bodyE mxE big_ord1 !mxE eqxx /step; congr (_ * _); congr (_ + _).
by rewrite mul1r mulrC.
Qed.

Lemma step_bound : forall k x, (2 <= k)%N -> - 2%:R <= x <= 0 -> - 2%:R <= step k x <= 0.
Proof.
move=> k x k2 /andP [x1 x2].
have k0 : 0 < k%:R :> F by rewrite ltr0n; apply: leq_trans k2.
have l : 0 <= x / k%:R + 1.
  rewrite -ler_subl_addr sub0r ler_pdivl_mulr // mulN1r; apply: le_trans x1.
  by rewrite ler_opp2 ler_nat.
have h : x / k%:R + 1 <= 1 by rewrite -ler_subr_addr subrr; apply: mulr_le0_ge0 => //; rewrite invr_ge0 ltW.
rewrite /step mulrN oppr_le0 mulr_ge0 // ?ler0n // andbT ler_opp2.
by rewrite -[leRHS]mul1r ler_wpmul2r // ler0n.
Qed.

Lemma steps_bound : forall l r, (forall k, List.In k l -> (2 <= k)%N) -> - 2%:R <= mxr 1 1 r 0 0 <= 0 ->
  - 2%:R <= mxr 1 1 (List.fold_left (exp_body (f := f) (u := u) 0 a) l r) 0 0 <= 0.
Proof.
elim=> //= k l IH r K R; apply: IH => [j J|]; first by apply: K; right.
by rewrite step_cell; apply: step_bound => //; apply: K; left.
Qed.

Lemma last_steps : forall x, step 2 (step 3 (step 4 x)) + 1 = - (x + 1) / 3%:R.
Proof.
move=> x; rewrite /step.
have n2 : 1 + 1 <> 0 :> F by apply/eqP; rewrite -[1 + 1]/(2%:R) pnatr_eq0.
have n3 : 1 + (1 + 1) <> 0 :> F by apply/eqP; rewrite -[1 + (1 + 1)]/(3%:R) pnatr_eq0.
exact: (last_steps_field (mc_field F)).
Qed.

Lemma exp_minus_two : forall c,
  `|exp_series (mxr 1 1 a) (4 + c) 0 0| <= 3%:R^-1.
Proof.
move=> c; rewrite -(expE f u) /exp.
have -> : Nat.ltb 0 (4 + c) = true by [].
have -> : ((4 + c) - 1)%coq_nat = (3 + c)%N by [].
rewrite add_scalarE -[List.fold_left _ _ _]/(List.fold_left (exp_body (f := f) (u := u) 0 a) (List.rev (List.seq 2 (3 + c))) a).
have M1 : ((one S)%:M : 'M[F]_1) 0 0 = 1 by rewrite mxE eqxx.
rewrite 3!seq_rev !List.fold_left_app /= mxE !step_cell M1.
set x := mxr 1 1 _ 0 0.
have /andP [x1 x2] : - 2%:R <= x <= 0.
  apply: steps_bound; last by rewrite mxE lexx oppr_le0 ler0n.
  move=> k K; apply/ssrnat.leP; move: K; rewrite -List.in_rev => K.
  by case: (proj1 (List.in_seq c 5 k) K) => k5 _; lia.
rewrite last_steps ler_norml mulNr ler_opp2 -[X in _ && (_ <= X)]mul1r -[X in (_ <= X) && _]mul1r -mulNr.
rewrite !ler_pmul2r ?invr_gt0 ?ltr0n //.
by rewrite -ler_subr_addr subrr x2 ler_oppl -ler_subl_addr -opprD.
Qed.

End MinusTwo.
