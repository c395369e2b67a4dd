(** C65 and C66: matrix arithmetic, powers and the exponential. *)
Set Warnings "-notation-overridden,-ambiguous-paths".
From mathcomp Require Import all_ssreflect all_algebra all_fingroup.
From Coq Require ZArith.
From Verif Require Import LinalgModel LinalgSpec MatrixModel MatrixSpec MatrixProofs1 MatrixProofs2.
Set Implicit Arguments.
Unset Strict Implicit.
Unset Printing Implicit Defensive.
Import Order.TTheory GRing.Theory Num.Theory.
Local Open Scope ring_scope.

(** ** C65 *)

(** operator* for matrices and vectors of fitting sizes is the matrix product. *)
Theorem C65_product : forall (F : numFieldType) (f : F -> F) (u : F) n p m
    (a b : nat -> nat -> F) (v w : nat -> F), (0 < p)%N ->
  let S := field_scalars f u in
  [/\ mxr n m (op_mul S n p m a b) = mxr n p a *m mxr p m b,
      cv n (mat_vec S n p a v) = mxr n p a *m cv p v,
      rv m (vec_mat S p m w b) = rv p w *m mxr p m b &
      (vec_vec S p w v)%:M = rv p w *m cv p v :> 'M_1].
Proof.
move=> F f u n p m a b v w p0 S; split.
- exact: op_mul_mx.
- exact: mat_vecE.
- exact: vec_matE.
exact: vec_vecE.
Qed.
Print Assumptions C65_product.

(** mult, mult_aa, mult_add and mult_sub write, add or subtract the product,
    whatever the result contained, when it is not one of the factors. *)
Theorem C65_product_to : forall (F : numFieldType) (f : F -> F) (u : F) (cj : {rmorphism F -> F})
    n m l (a b res : nat -> nat -> F), (0 < l)%N ->
  let S := field_scalars f u in
  let ab := mxr n l a *m mxr l m b in
  [/\ mxr n m (mult S n m l (fun _ => a) (fun _ => b) res) = ab,
      mxr m n (mult_aa S cj n m l (fun _ => a) (fun _ => b) res) = adjoint cj ab,
      mxr n m (mult_add S n m l (fun _ => a) (fun _ => b) res) = mxr n m res + ab &
      mxr n m (mult_sub S n m l (fun _ => a) (fun _ => b) res) = mxr n m res - ab].
Proof.
move=> F f u cj n m l a b res l0 S ab; split.
- exact: multE.
- exact: mult_aaE.
- exact: mult_addE.
exact: mult_subE.
Qed.
Print Assumptions C65_product_to.

(** Numbers: products, sums with and assignment to a square matrix.  A product
    with a number can be written to the matrix itself. *)
Theorem C65_numbers : forall (F : numFieldType) (f : F -> F) (u : F) n m x (a res : nat -> nat -> F),
  let S := field_scalars f u in
  [/\ mxr n m (mult_scalar S n m (fun _ => a) (fun _ => x) res) = x *: mxr n m a,
      mxr n m (mult_scalar S n m id (fun _ => x) res) = x *: mxr n m res &
      mxr n m (mult_add_scalar S n m (fun _ => a) (fun _ => x) res)
        = mxr n m res + x *: mxr n m a]
  /\ [/\ mxr n m (scale S n m x a) = x *: mxr n m a,
      mxr n m (add_assign S n m a res) = mxr n m res + mxr n m a,
      mxr n n (add_scalar S n (fun _ => x) a) = mxr n n a + x%:M,
      mxr n n (sub_scalar S n x a) = mxr n n a - x%:M &
      mxr n n (of_scalar S n x) = x%:M].
Proof.
move=> F f u n m x a res S; split; split.
- exact: mult_scalarE.
- exact: mult_scalar_in_place.
- exact: mult_add_scalarE.
- exact: scaleE.
- exact: add_assignE.
- exact: add_scalarE.
- exact: sub_scalarE.
exact: of_scalarE.
Qed.
Print Assumptions C65_numbers.

(** M *= M squares M: operator*= does not write while it reads. *)
Theorem C65_assign_product : forall (F : numFieldType) (f : F -> F) (u : F) n (a b : nat -> nat -> F),
  (0 < n)%N -> let S := field_scalars f u in
  mxr n n (mul_assign S n (fun _ => b) a) = mxr n n a *m mxr n n b
  /\ mxr n n (mul_assign S n id a) = mxr n n a *m mxr n n a.
Proof. by move=> F f u n a b n0 S; split; exact: op_mul_mx. Qed.
Print Assumptions C65_assign_product.

(** The conjugate transpose; that of a product is the product in the opposite
    order. *)
Theorem C65_dagger : forall (F : numFieldType) (f : F -> F) (u : F) (cj : {rmorphism F -> F})
    n p m (a b : nat -> nat -> F), (0 < p)%N ->
  let S := field_scalars f u in
  [/\ mxr m n (transpose S n m a) = (mxr n m a)^T,
      mxr m n (dagger S cj n m a) = adjoint cj (mxr n m a),
      mxr m n (dagger S cj n m (op_mul S n p m a b))
        = mxr m n (op_mul S m p n (dagger S cj p m b) (dagger S cj n p a)) &
      (forall x, cj (cj x) = x) ->
      mxr n m (dagger S cj m n (dagger S cj n m a)) = mxr n m a].
Proof.
move=> F f u cj n p m a b p0 S; split.
- exact: transposeE.
- exact: daggerE.
- rewrite daggerE !op_mul_mx // !daggerE; apply/matrixP=> i j.
  rewrite !mxE rmorph_sum; apply: eq_bigr => k _.
  by rewrite !mxE rmorphM mulrC.
by move=> cjK; rewrite !daggerE; apply/matrixP=> i j; rewrite !mxE cjK.
Qed.
Print Assumptions C65_dagger.

(** Traces and the products of vectors; mul_trace does not depend on the order
    of the factors. *)
Theorem C65_trace : forall (F : numFieldType) (f : F -> F) (u : F) (cj : {rmorphism F -> F})
    n m (a b : nat -> nat -> F) (v w : nat -> F),
  let S := field_scalars f u in
  [/\ trace S n a = \tr (mxr n n a),
      mul_trace S n m a b = \tr (mxr n m a *m mxr m n b),
      mul_trace S n m a b = mul_trace S m n b a,
      (dot S cj n v w)%:M = adjoint cj (cv n v) *m cv n w :> 'M_1 &
      mxr n m (outer_product S cj n m v w) = cv n v *m adjoint cj (cv m w)].
Proof.
move=> F f u cj n m a b v w S; split.
- exact: traceE.
- exact: mul_traceE.
- by rewrite !mul_traceE mxtrace_mulC.
- exact: dotE.
exact: outerE.
Qed.
Print Assumptions C65_trace.

(** mult_by_2x2_left and right are the products with the unit matrix into which
    the 2 by 2 matrix has been put. *)
Theorem C65_block : forall (F : numFieldType) (f : F -> F) (u : F) n m p q (M B : nat -> nat -> F),
  p != q -> let S := field_scalars f u in
  ((p < n)%N -> (q < n)%N ->
     mxr n m (mult_by_2x2_left S m p q M B) = embed2 n p q M *m mxr n m B)
  /\ ((p < m)%N -> (q < m)%N ->
     mxr n m (mult_by_2x2_right S n p q M B) = mxr n m B *m embed2 m p q M).
Proof. by move=> F f u n m p q M B pq S; split=> pn qn; [exact: leftE | exact: rightE]. Qed.
Print Assumptions C65_block.

Theorem C65_permute : forall (F : numFieldType) (f : F -> F) (u : F) n m (s : 'S_n) (t : 'S_m)
    (rows columns : nat -> nat) (a : nat -> nat -> F),
  (forall i : 'I_n, rows i = s i) -> (forall i : 'I_m, columns i = t i) ->
  let S := field_scalars f u in
  mxr n m (permute_rows S n m rows a) = row_perm s (mxr n m a)
  /\ mxr n m (permute_columns S n m columns a) = col_perm t (mxr n m a).
Proof.
by move=> F f u n m s t pr pc a Er Ec S; split; [exact: permute_rowsE | exact: permute_columnsE].
Qed.
Print Assumptions C65_permute.

(** Rational matrices. *)
Definition rows (l : seq (seq int)) : nat -> nat -> rat :=
  fun i j => (nth 0 (nth [::] l i) j)%:Q.
Definition ra := rows [:: [:: 1; 2]; [:: 3; 4]].
Definition rb := rows [:: [:: 0; 1; 5]; [:: 1; 1; 2]].
Definition rat_scalars := field_scalars (fun x : rat => x) 7%:Q.

Example C65_example :
  let r := op_mul rat_scalars 2 2 3 ra rb in
  [&& r 0 0 == 2%:Q, r 0 1 == 3%:Q, r 0 2 == 9%:Q, r 1 0 == 4%:Q, r 1 1 == 7%:Q & r 1 2 == 23%:Q]%N.
Proof. by vm_compute. Qed.

Example C65_example_permute : exists s : 'S_2, forall i : 'I_2, (1 - i)%N = s i.
Proof. by exists (perm rev_ord_inj) => i; rewrite permE /= subSS. Qed.

(** Where the result is one of the factors, mult and mult_add read what they
    have already written. *)
Lemma cell : forall (A B : nat -> nat -> rat) n m i j, (i < n)%N -> (j < m)%N ->
  A i j != B i j -> mxr n m A <> mxr n m B.
Proof.
move=> A B n m i j ni mj /eqP ne /matrixP /(_ (Ordinal ni) (Ordinal mj)).
by rewrite !mxE.
Qed.

Theorem C65_product_to_first_factor_refuted :
  ~ (forall (F : numFieldType) (f : F -> F) (u : F) n (a b : nat -> nat -> F), (0 < n)%N ->
     mxr n n (mult (field_scalars f u) n n n id (fun _ => b) a) = mxr n n a *m mxr n n b).
Proof.
move=> H; have := H _ (fun x : rat => x) 7%:Q 2%N ra ra isT.
rewrite -(@op_mul_mx _ (fun x => x) 7%:Q) //.
by apply: (@cell _ _ 2 2 0 1); vm_compute.
Qed.
Print Assumptions C65_product_to_first_factor_refuted.

Theorem C65_product_to_second_factor_refuted :
  ~ (forall (F : numFieldType) (f : F -> F) (u : F) n (a b : nat -> nat -> F), (0 < n)%N ->
     mxr n n (mult (field_scalars f u) n n n (fun _ => a) id b) = mxr n n a *m mxr n n b).
Proof.
move=> H; have := H _ (fun x : rat => x) 7%:Q 2%N ra ra isT.
rewrite -(@op_mul_mx _ (fun x => x) 7%:Q) //.
by apply: (@cell _ _ 2 2 1 0); vm_compute.
Qed.
Print Assumptions C65_product_to_second_factor_refuted.

Theorem C65_add_product_to_factor_refuted :
  ~ (forall (F : numFieldType) (f : F -> F) (u : F) n (a b : nat -> nat -> F), (0 < n)%N ->
     mxr n n (mult_add (field_scalars f u) n n n id (fun _ => b) a)
     = mxr n n a + mxr n n a *m mxr n n b).
Proof.
move=> H; have := H _ (fun x : rat => x) 7%:Q 2%N ra ra isT.
rewrite -(@op_mul_mx _ (fun x => x) 7%:Q) // -(@add_assignE _ (fun x => x) 7%:Q).
by apply: (@cell _ _ 2 2 0 1); vm_compute.
Qed.
Print Assumptions C65_add_product_to_factor_refuted.

(** M += M.e(0,0): the number is a reference to an element that the loop
    changes first. *)
Theorem C65_add_own_element_refuted :
  ~ (forall (F : numFieldType) (f : F -> F) (u : F) n (a : nat -> nat -> F), (0 < n)%N ->
     mxr n n (add_scalar (field_scalars f u) n (fun M => M 0 0)%N a)
     = mxr n n a + (a 0 0)%N%:M).
Proof.
move=> H; have := H _ (fun x : rat => x) 7%:Q 2%N ra isT.
rewrite -(@add_scalarE _ (fun x => x) 7%:Q).
by apply: (@cell _ _ 2 2 1 1); vm_compute.
Qed.
Print Assumptions C65_add_own_element_refuted.

(** mult(M, M.e(0,0), M), likewise. *)
Theorem C65_product_with_own_element_refuted :
  ~ (forall (F : numFieldType) (f : F -> F) (u : F) n m (a : nat -> nat -> F), (0 < n)%N ->
     mxr n m (mult_scalar (field_scalars f u) n m id (fun M => M 0 0)%N a)
     = (a 0 0)%N *: mxr n m a).
Proof.
pose a := rows [:: [:: 2; 2]; [:: 3; 4]].
move=> H; have := H _ (fun x : rat => x) 7%:Q 2%N 2%N a isT.
rewrite -(@scaleE _ (fun x => x) 7%:Q).
by apply: (@cell _ _ 2 2 0 1); vm_compute.
Qed.
Print Assumptions C65_product_with_own_element_refuted.

(** ** C66 *)

(** pow always ends; the result is the power with the exponent modulo 2^32. *)
Theorem C66_pow : forall (F : numFieldType) (f : F -> F) (u : F) n (a : nat -> nat -> F) (p : BinNums.Z),
  exists r, pow (field_scalars f u) n.+1 a p = Some r
    /\ mxr n.+1 n.+1 r
       = mxr n.+1 n.+1 a ^+ BinInt.Z.to_nat (BinInt.Z.modulo p (BinInt.Z.pow (BinInt.Z.of_nat 2) (BinInt.Z.of_nat 32))).
Proof. exact: powE. Qed.
Print Assumptions C66_pow.

Theorem C66_pow_in_range : forall (F : numFieldType) (f : F -> F) (u : F) n (a : nat -> nat -> F)
    (p : BinNums.Z),
  BinInt.Z.le (BinInt.Z.of_nat 0) p -> BinInt.Z.lt p (BinInt.Z.pow (BinInt.Z.of_nat 2) (BinInt.Z.of_nat 32)) ->
  exists r, pow (field_scalars f u) n.+1 a p = Some r
    /\ mxr n.+1 n.+1 r = mxr n.+1 n.+1 a ^+ BinInt.Z.to_nat p.
Proof.
move=> F f u n a p p0 pm; have [r [E R]] := powE f u n a p.
by exists r; split=> //; rewrite R BinInt.Z.mod_small.
Qed.
Print Assumptions C66_pow_in_range.

Example C66_example_pow :
  if pow rat_scalars 2 ra (BinInt.Z.of_nat 5) is Some r
  then [&& r 0 0 == 1069%:Q, r 0 1 == 1558%:Q, r 1 0 == 2337%:Q & r 1 1 == 3406%:Q]%N else false.
Proof. by vm_compute. Qed.

(** Not so for all non-negative exponents that the argument type may have. *)
Theorem C66_pow_large_refuted :
  ~ (forall (F : numFieldType) (f : F -> F) (u : F) n (a : nat -> nat -> F) (p : BinNums.Z),
     BinInt.Z.le (BinInt.Z.of_nat 0) p ->
     exists r, pow (field_scalars f u) n.+1 a p = Some r
       /\ mxr n.+1 n.+1 r = mxr n.+1 n.+1 a ^+ BinInt.Z.to_nat p).
Proof.
move=> H.
have [p [p0 pm]] : exists p : BinNums.Z, BinInt.Z.lt (BinInt.Z.of_nat 0) p
    /\ p = BinInt.Z.pow (BinInt.Z.of_nat 2) (BinInt.Z.of_nat 32) by eexists; split; last reflexivity.
have [r [E R]] := H _ (fun x : rat => x) 7%:Q 0%N (fun _ _ => 2%:Q) p (BinInt.Z.lt_le_incl _ _ p0).
have [r' [E' R']] := powE (fun x : rat => x) 7%:Q 0 (fun _ _ => 2%:Q) p.
have P0 : (0 < BinInt.Z.to_nat p)%N.
  rewrite lt0n; apply/eqP => Q; have := Znat.Z2Nat.id p (BinInt.Z.lt_le_incl _ _ p0).
  by rewrite Q => Q'; rewrite -Q' in p0.
have X : mxr 1 1 (fun _ _ => 2%:Q) = (2%:Q)%:M.
  by apply/matrixP=> i j; rewrite !ord1 !mxE eqxx mulr1n.
have Z0 : BinInt.Z.to_nat (BinInt.Z.modulo p (BinInt.Z.pow (BinInt.Z.of_nat 2) (BinInt.Z.of_nat 32))) = 0%N.
  by rewrite -pm BinInt.Z.mod_same //; move=> Q; rewrite Q in p0.
have RR : r' = r by move: E; rewrite E'; case.
rewrite -RR R' Z0 X expr0 -rmorphX in R; move/matrixP: R => /(_ 0 0).
rewrite !mxE eqxx !mulr1n => C.
suff : 1 < 2%:Q ^+ BinInt.Z.to_nat p by rewrite -C ltxx.
by rewrite exprn_egt1 // -lt0n.
Qed.
Print Assumptions C66_pow_large_refuted.

(** exp is the exponential series up to the given order. *)
Theorem C66_exp : forall (F : numFieldType) (f : F -> F) (u : F) n (a : nat -> nat -> F) order,
  mxr n.+1 n.+1 (exp (field_scalars f u) n.+1 a order) = exp_series (mxr n.+1 n.+1 a) order.
Proof. exact: expE. Qed.
Print Assumptions C66_exp.

Example C66_example_exp :
  let r := exp rat_scalars 2 ra 3 in
  [&& r 0 0 == (35%:Q / 3%:Q), r 0 1 == 16%:Q, r 1 0 == 24%:Q & r 1 1 == (107%:Q / 3%:Q)]%N.
Proof. by vm_compute. Qed.

(** altexp, too, is the series up to some order, whatever the comparison of the
    norms says: up to niter if it is at least 2; niter = 1 is the report of the
    largest possible order, 15 n - 1. *)
Theorem C66_altexp : forall (F : numFieldType) (f : F -> F) (u : F) same n (a : nat -> nat -> F),
  let '(r, niter) := altexp (field_scalars f u) same n.+1 a in
  (mxr n.+1 n.+1 r = exp_series (mxr n.+1 n.+1 a) niter /\ (2 <= niter < 15 * n.+1)%N)
  \/ (niter = 1%N /\ mxr n.+1 n.+1 r = exp_series (mxr n.+1 n.+1 a) (15 * n.+1 - 1)).
Proof. by move=> F f u same n a; exact: (altexpE n same a). Qed.
Print Assumptions C66_altexp.

Example C66_example_altexp :
  (altexp rat_scalars (fun x y : rat => x == y) 2 (rows [:: [:: 0; 3]; [:: 0; 0]])).2 = 2%N.
Proof. by vm_compute. Qed.

(** That the squared norm of the sum does not change does not mean that the
    series has converged: for minus two times the unit matrix, altexp stops at
    the second power with the unit matrix, although exp(-2) < 0.14. *)
Theorem C66_altexp_close_refuted :
  ~ (forall (F : numFieldType) (f : F -> F) (u : F) n (a : nat -> nat -> F) (i j : 'I_n.+1),
     `|mxr n.+1 n.+1 (altexp (field_scalars f u) (fun x y => x == y) n.+1 a).1 i j
       - exp_series (mxr n.+1 n.+1 a) (15 * n.+1 - 1) i j| < 2%:R^-1).
Proof.
move=> H; have := H _ (fun x : rat => x) 7%:Q 0%N (fun _ _ => - 2%:R) ord0 ord0.
have E := exp_minus_two (fun x : rat => x) 7%:Q 10.
have -> : mxr 1 1 (altexp rat_scalars (fun x y : rat => x == y) 1 (fun _ _ => - 2%:R)).1 0 0 = 1.
  by rewrite mxE; apply/eqP; vm_compute.
rewrite -[(15 * 1 - 1)%N]/(4 + 10)%N => L.
have : 1 < 2%:R^-1 + 3%:R^-1 :> rat.
  apply: le_lt_trans (ltr_le_add L E).
  by rewrite -{1}[1]normr1 -{1}[1](subrK (exp_series (mxr 1 1 (fun _ _ => - 2%:R)) 14 0 0)) ler_norm_add.
by [].
Qed.
Print Assumptions C66_altexp_close_refuted.

(** mult_exp gives M exp(A), and in dr the derivative of tr(M exp(A)): when A
    changes by t H, the trace changes by t tr(dr H) and terms of second order. *)
Theorem C66_mult_exp : forall (F : numFieldType) (f : F -> F) (u : F) n (a M : nat -> nat -> F) order,
  let A := mxr n.+1 n.+1 a in
  let '(r, dr) := mult_exp (field_scalars f u) n.+1 a M order in
  mxr n.+1 n.+1 r = mxr n.+1 n.+1 M * exp_series A order
  /\ forall H : 'M[F]_n.+1, exists q : {poly F}, forall t,
     \tr (mxr n.+1 n.+1 M * exp_series (A + t *: H) order)
     = \tr (mxr n.+1 n.+1 r) + t * \tr (mxr n.+1 n.+1 dr * H) + t ^+ 2 * q.[t].
Proof.
move=> F f u n a M order A.
case E : (mult_exp _ _ _ _ _) (mult_expE f u n a M order) => [r dr] /= [R D].
split=> // H; have [q Q] := derivative A (mxr n.+1 n.+1 M) H order.
by exists q => t; rewrite Q R D.
Qed.
Print Assumptions C66_mult_exp.

Example C66_example_mult_exp :
  let '(r, dr) := mult_exp rat_scalars 2 ra ra 2 in
  [&& r 0%N 0%N == 8%:Q + 37%:Q / 2%:Q, dr 0%N 0%N == 8%:Q & dr 0%N 1%N == 12%:Q].
Proof. by vm_compute. Qed.
