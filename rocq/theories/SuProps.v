(** SU(N) matrices. *)
Set Warnings "-notation-overridden,-ambiguous-paths".
From mathcomp Require Import all_ssreflect all_algebra all_fingroup.
From Verif Require Import LinalgModel LinalgSpec MatrixModel MatrixSpec MatrixProps EigenSpec EigenProps
  SuModel SuSpec SuProofs1 SuProofs2.
Set Implicit Arguments.
Unset Strict Implicit.
Unset Printing Implicit Defensive.
Import Order.TTheory GRing.Theory Num.Theory.
Local Open Scope ring_scope.

(** C72: make_unitary of an invertible matrix gives a unitary matrix, whose rows
    are obtained from those of the matrix in the order of the rows: row r is a
    positive multiple of row r of the matrix plus multiples of the rows before.
    (This determines the result.)  A unitary matrix is not changed. *)
Theorem C72_make_unitary : forall (F : numFieldType) (f : F -> F) (u : F) (cj : {rmorphism F -> F})
    (re root : F -> F), complex_numbers cj re root ->
  forall n (M : nat -> nat -> F), mxr n n M \in unitmx ->
  let R := mxr n n (make_unitary (field_scalars f u) cj root n M) in
  unitary cj R /\ exists L : 'M[F]_n, lower_positive L /\ R = L *m mxr n n M.
Proof. by move=> F f u cj re root C n M; apply: (make_unitaryE f u C). Qed.
Print Assumptions C72_make_unitary.

Theorem C72_unique : forall (F : numFieldType) (cj : {rmorphism F -> F})
    (re root : F -> F), complex_numbers cj re root ->
  forall n (A L L' : 'M[F]_n), lower_positive L -> lower_positive L' ->
  unitary cj (L *m A) -> unitary cj (L' *m A) -> L *m A = L' *m A.
Proof. by move=> F cj re root C n A L L' *; apply: (lower_unique C). Qed.
Print Assumptions C72_unique.

Theorem C72_unitary_unchanged : forall (F : numFieldType) (f : F -> F) (u : F) (cj : {rmorphism F -> F})
    (re root : F -> F), complex_numbers cj re root ->
  forall n (M : nat -> nat -> F), unitary cj (mxr n n M) ->
  mxr n n (make_unitary (field_scalars f u) cj root n M) = mxr n n M.
Proof. by move=> F f u cj re root C n M; apply: (make_unitary_fix f u C). Qed.
Print Assumptions C72_unitary_unchanged.

(** fix_det multiplies a unitary matrix with a phase; the determinant is then 1. *)
Theorem C72_fix_det : forall (F : numFieldType) (f : F -> F) (u : F) (cj : {rmorphism F -> F})
    (re root : F -> F) (turn : nat -> F -> F), complex_numbers cj re root -> positive_scale f -> phases turn ->
  forall n (M : nat -> nat -> F), (0 < n)%N -> unitary cj (mxr n n M) ->
  let R := mxr n n (fix_det (field_scalars f u) turn n M) in
  special_unitary cj R /\ exists w, `|w| = 1 /\ R = w *: mxr n n M.
Proof.
move=> F f u cj re root turn C fp T n M n0 UM.
by have [] := fix_det_ok u C fp T n0 UM.
Qed.
Print Assumptions C72_fix_det.

(** reunitarize of an invertible matrix gives a matrix of SU(N), and does not
    change a matrix of SU(N). *)
Theorem C72_reunitarize : forall (F : numFieldType) (f : F -> F) (u : F) (cj : {rmorphism F -> F})
    (re root : F -> F) (turn : nat -> F -> F), complex_numbers cj re root -> positive_scale f -> phases turn ->
  forall n (M : nat -> nat -> F), (0 < n)%N -> mxr n n M \in unitmx ->
  let R := mxr n n (reunitarize (field_scalars f u) cj root turn n M) in
  [/\ special_unitary cj R,
      exists w L, [/\ `|w| = 1, lower_positive L & R = w *: (L *m mxr n n M)] &
      special_unitary cj (mxr n n M) -> R = mxr n n M].
Proof.
move=> F f u cj re root turn C fp T n M n0 UM.
have [SU E] := reunitarize_ok u C fp T n0 UM.
by split=> // H; apply: (reunitarize_fix u C fp T n0 H).
Qed.
Print Assumptions C72_reunitarize.

(** random gives a matrix of SU(N), whatever the random numbers, provided that
    the four numbers drawn together are never all zero. *)
Theorem C72_random : forall (F : numFieldType) (f : F -> F) (u : F) (cj : {rmorphism F -> F})
    (re root : F -> F) (I : F) (turn : nat -> F -> F), complex_numbers cj re root -> imaginary_unit cj I ->
    positive_scale f -> phases turn ->
  forall draw : nat -> nat -> F,
  (forall k, (forall i, (i < 4)%N -> draw k i \is Num.real) /\ exists2 i, (i < 4)%N & draw k i != 0) ->
  (forall k, special_unitary cj (mxr 2 2 (random2 (field_scalars f u) root I (draw k)))) /\
  forall n nhits, (0 < n)%N ->
    special_unitary cj (mxr n n (random (field_scalars f u) cj root I turn n nhits draw)).
Proof.
move=> F f u cj re root I turn C HI fp T draw G; split=> [k|n nhits n0].
  have [O D] := random2_ok f u C HI (G k); split.
    apply/matrixP => i j; rewrite !mxE !big_ord_recr big_ord0 /= !mxE add0r.
    by rewrite O // ltn_ord.
  rewrite (expand_det_row _ ord0) !big_ord_recr big_ord0 /= /cofactor !det_mx11 !mxE /= add0r.
  by rewrite /bump /= expr0 mul1r expr1 mulN1r mulrN.
exact: (random_ok u C fp T HI nhits n0 G).
Qed.
Print Assumptions C72_random.

(** Complex numbers meet the hypotheses. *)
Example C72_hypotheses : forall C : numClosedFieldType,
  imaginary_unit (conjC : C -> C) 'i /\ positive_scale (fun x : C => (sqrtC x)^-1) /\
  phases (fun n (d : C) => (n.-root (d / `|d|))^-1).
Proof.
move=> C; split; first by rewrite /imaginary_unit -expr2 sqrCi conjCi.
split=> [x x0|n d n0 d0]; first by rewrite invr_gt0 sqrtC_gt0.
have nd0 : `|d| != 0 by rewrite normr_eq0.
have q0 : d / `|d| != 0 by rewrite mulf_neq0 ?invr_eq0.
split.
- have nr : `|n.-root (d / `|d|)| = 1.
    apply/eqP; rewrite -(@pexpr_eq1 _ _ n) ?normr_ge0 // -normrX rootCK //.
    by rewrite normf_div normr_id divff.
  by rewrite normfV nr invr1.
- by rewrite exprVn rootCK // invf_div divfK.
by move=> dp; rewrite gtr0_norm // divff // rootC1 // invr1.
Qed.

Definition roots_5_3 (x : rat) : rat := if x == 25%:R then 5%:R else if x == 9%:R then 3%:R else 0.

Example C72_example :
  let R := make_unitary rat_scalars id roots_5_3 2 (rows [:: [:: 3%:Z; 4%:Z]; [:: 0%:Z; 5%:Z]]) in
  [&& R 0 0 == 3%:Q / 5%:Q, R 0 1 == 4%:Q / 5%:Q, R 1 0 == - (4%:Q / 5%:Q) & R 1 1 == 3%:Q / 5%:Q]%N.
Proof. by vm_compute. Qed.

Example C72_example_invertible : mxr 2 2 (rows [:: [:: 3%:Z; 4%:Z]; [:: 0%:Z; 5%:Z]]) \in unitmx.
Proof.
rewrite unitmxE (expand_det_row _ ord0) !big_ord_recl big_ord0 /cofactor !det_mx11 !mxE.
by vm_compute.
Qed.
