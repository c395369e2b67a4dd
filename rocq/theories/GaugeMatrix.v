(** Complex n by n matrices satisfy the laws of [matrix_laws]. *)
Set Warnings "-notation-overridden,-ambiguous-paths".
From mathcomp Require Import all_ssreflect all_algebra.
From Coq Require Import ZArith.
From Verif Require Import GaugeModel GaugeSpec.
Set Implicit Arguments.
Unset Strict Implicit.
Unset Printing Implicit Defensive.
Import GRing.Theory Num.Theory.
Local Open Scope ring_scope.

Section Complex.
Variables (C : numClosedFieldType) (n : nat).

Definition int_of_Z (z : Z) : int :=
  match z with
  | Z0 => 0
  | Zpos p => Posz (Pos.to_nat p)
  | Zneg p => - Posz (Pos.to_nat p)
  end.

(** Square matrices over a numerically closed field (the complex numbers):
    product, sum, conjugate transpose, trace, real part. *)
Definition complex_matrices : matrices :=
  {| mat := 'M[C]_n; cx := C; re := C;
     mone := 1%:M; mzero := 0;
     mul := fun A B => A *m B;
     madd := fun A B => A + B;
     dagger := fun A => (map_mx conjC A)^T;
     trace := fun A => \tr A;
     czero := 0; cadd := fun a b => a + b;
     real := fun z => 'Re z;
     rzero := 0; radd := fun a b => a + b;
     one_minus_over_n := fun t => 1 - t / n%:R;
     cover := fun z k => z / (int_of_Z k)%:~R;
     rover_n := fun t k => t / (n%:R * (int_of_Z k)%:~R) |}.

Lemma complex_matrix_laws : matrix_laws complex_matrices.
Proof.
constructor => /=.
- exact: mulmxA.
- exact: mul1mx.
- exact: mulmx1.
- exact: mulmxDr.
- exact: mulmxDl.
- exact: add0r.
- exact: mulmx0.
- exact: mul0mx.
- exact: addrA.
- by move=> a b; rewrite map_mxM trmx_mul.
- by move=> a b; rewrite map_mxD linearD.
- move=> a; apply/matrixP => i j; by rewrite !mxE conjCK.
- exact: mxtrace_mulC.
- exact: mxtraceD.
- exact: mxtrace0.
- move=> a; rewrite mxtrace_tr.
  have -> : \tr (map_mx conjC a) = conjC (\tr a).
    by rewrite /mxtrace rmorph_sum; apply: eq_bigr => i _; rewrite !mxE.
  by rewrite Re_conj.
- exact: addrA.
- exact: add0r.
Qed.
End Complex.
