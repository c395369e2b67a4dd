(** C59 and C60: determinants, LU decomposition, linear equations and the
    inverse. *)
Set Warnings "-notation-overridden,-ambiguous-paths".
From mathcomp Require Import all_ssreflect all_algebra all_fingroup.
From Verif Require Import LinalgModel LinalgSpec LinalgProofs1 LinalgProofs2 LinalgProofs3
  LinalgProofs4 LinalgProofs5 LinalgProofs6.
Set Implicit Arguments.
Unset Strict Implicit.
Unset Printing Implicit Defensive.
Import Order.TTheory GRing.Theory Num.Theory.
Local Open Scope ring_scope.

(** ** C59 *)

(** The Laplace expansion is the determinant. *)
Theorem C59_laplace : forall (F : numFieldType) (f : F -> F) (u : F) n (A : nat -> nat -> F),
  (0 < n)%N -> det_laplace (field_scalars f u) n A = \det (mx n A).
Proof. by move=> *; apply: laplace. Qed.
Print Assumptions C59_laplace.

(** So is the result by LU decomposition, whatever the scale factors, for
    singular matrices too. *)
Theorem C59_lu : forall (F : numFieldType) (f : F -> F) (u : F) n (A : nat -> nat -> F),
  positive_scale f -> det_lu (field_scalars f u) n A = \det (mx n A).
Proof. by move=> *; apply: crout. Qed.
Print Assumptions C59_lu.

Theorem C59_det : forall (F : numFieldType) (f : F -> F) (u : F) n (A : nat -> nat -> F),
  positive_scale f -> (0 < n)%N -> det (field_scalars f u) n A = \det (mx n A).
Proof.
move=> F f u n A fp n0; rewrite /det; case: (Nat.ltb n 5); first exact: laplace.
exact: crout.
Qed.
Print Assumptions C59_det.

(** Rational numbers; the matrices need row exchanges. *)
Definition rows (l : seq (seq int)) : nat -> nat -> rat :=
  fun i j => (nth 0 (nth [::] l i) j)%:Q.

Definition m3 := rows [:: [:: 0; 2; 1]; [:: 1; 1; 0]; [:: 3; 0; 1]].
Definition m5 := rows [:: [:: 0; 2; 0; 0; 0]; [:: 1; 0; 0; 0; 1]; [:: 0; 0; 0; 1; 0];
                          [:: 1; 0; 0; 0; 2]; [:: 0; 0; 3; 0; 0]].
Definition rat_scalars := field_scalars (fun x : rat => x) 7%:Q.

Lemma id_positive : positive_scale (fun x : rat => x).
Proof. by []. Qed.

Example C59_example3 : \det (mx 3 m3) = (- 5)%:Q.
Proof. by rewrite -(@C59_laplace _ (fun x => x) 7%:Q) //; apply/eqP; vm_compute. Qed.

Example C59_example5 : \det (mx 5 m5) = (- 6)%:Q.
Proof.
by rewrite -(@C59_det _ _ 7%:Q _ _ id_positive) //; apply/eqP; vm_compute.
Qed.

(** ** C60 *)

(** Every matrix with an inverse is decomposed: P A = L U. *)
Theorem C60_factors : forall (F : numFieldType) (f : F -> F) (u : F) n (A : nat -> nat -> F),
  \det (mx n A) != 0 ->
  exists LU P (s : 'S_n), LU_decompose (field_scalars f u) n A = Some (LU, P) /\
    (forall r : 'I_n, P r = s r) /\
    row_perm s (mx n A) = lower n LU *m upper n LU.
Proof.
move=> F f u n A nz; have [LU [P [s [E [HP [HA Hd]]]]]] := doolittle f u nz.
by exists LU, P, s; split=> //; split=> //; rewrite product; apply: permuted.
Qed.
Print Assumptions C60_factors.

(** The solution of A x = b for every b. *)
Theorem C60_solve : forall (F : numFieldType) (f : F -> F) (u : F) n (A : nat -> nat -> F),
  \det (mx n A) != 0 ->
  exists LU P, LU_decompose (field_scalars f u) n A = Some (LU, P) /\
  forall b, exists x, solve (field_scalars f u) n LU P b = Some x /\
    mx n A *m cv n x = cv n b /\
    forall y, mx n A *m y = cv n b -> y = cv n x.
Proof.
move=> F f u n A nz; have [LU [P [s [E [HP [HA Hd]]]]]] := doolittle f u nz.
exists LU, P; split=> // b; have [x [Ex Hx]] := solve_factors (f := f) (u := u) b HP HA Hd.
exists x; split=> //; split=> // y Hy.
have un : mx n A \in unitmx by rewrite unitmxE unitfE.
by apply: (can_inj (mulKmx un)); rewrite Hy Hx.
Qed.
Print Assumptions C60_solve.

(** The inverse. *)
Theorem C60_invert : forall (F : numFieldType) (f : F -> F) (u : F) n (A : nat -> nat -> F),
  \det (mx n A) != 0 ->
  exists LU P X, LU_decompose (field_scalars f u) n A = Some (LU, P) /\
    invert (field_scalars f u) n LU P = Some X /\
    mx n A *m mx n X = 1%:M /\ mx n X *m mx n A = 1%:M.
Proof.
move=> F f u n A nz; have [LU [P [s [E [HP [HA Hd]]]]]] := doolittle f u nz.
have [X [Ex Hx]] := invert_factors (f := f) (u := u) HP HA Hd.
by exists LU, P, X; split=> //; split=> //; split=> //; apply: mulmx1C.
Qed.
Print Assumptions C60_invert.

(** A matrix without an inverse may be decomposed without a division by zero,
    but wrongly: when a column has no element to divide by, its row is
    exchanged with row 0. *)
Theorem C60_singular_refuted : ~ (forall (F : numFieldType) (f : F -> F) (u : F) n
    (A : nat -> nat -> F) LU P (s : 'S_n),
  LU_decompose (field_scalars f u) n A = Some (LU, P) ->
  (forall r : 'I_n, P r = s r) ->
  row_perm s (mx n A) = lower n LU *m upper n LU).
Proof.
move=> H.
pose A := rows [:: [:: 1; 0]; [:: 0; 0]].
have : match LU_decompose rat_scalars 2 A with
  | Some (LU, P) => [&& P 0%N == 1%N, P 1%N == 0%N & LU 0%N 0%N == 0 :> rat]
  | None => false
  end by vm_compute.
case E : (LU_decompose rat_scalars 2 A) => [[LU P]|] // /and3P [/eqP P0 /eqP P1 /eqP L0].
have : row_perm (tperm 0 1) (mx 2 A) = lower 2 LU *m upper 2 LU.
  apply: (H _ _ _ _ _ _ _ _ E) => r.
  case: tpermP => [->|->|/eqP r0 /eqP r1] //.
  by case: r r0 r1 => -[|[|r]].
move/matrixP => /(_ 1 0); rewrite !mxE tpermR !big_ord_recl big_ord0 !mxE /= L0 mulr0 mulr0 !addr0.
by move/eqP; vm_compute.
Qed.
Print Assumptions C60_singular_refuted.

Example C60_example : \det (mx 3 m3) != 0.
Proof. by rewrite C59_example3. Qed.

(** The solution of m3 x = (1, 2, 3) is x = (6/5, 4/5, -3/5). *)
Example C60_solution :
  match LU_decompose rat_scalars 3 m3 with
  | Some (LU, P) =>
      match solve rat_scalars 3 LU P (fun i => i.+1%:Q) with
      | Some x => [&& x 0%N == 6%:Q / 5%:Q, x 1%N == 4%:Q / 5%:Q & x 2%N == - (3%:Q / 5%:Q) :> rat]
      | None => false
      end
  | None => false
  end.
Proof. by vm_compute. Qed.
