(** The Laplace expansion is the determinant. *)
Set Warnings "-notation-overridden,-ambiguous-paths".
From mathcomp Require Import all_ssreflect all_algebra.
From Verif Require Import LinalgModel LinalgSpec LinalgProofs1.
Set Implicit Arguments.
Unset Strict Implicit.
Unset Printing Implicit Defensive.
Import GRing.Theory Num.Theory.
Local Open Scope ring_scope.

Section Laplace.
Variables (F : numFieldType) (f : F -> F) (u : F).
Notation S := (field_scalars f u).

Lemma mx_ext : forall n (A B : nat -> nat -> F),
  (forall i j, (i < n)%N -> (j < n)%N -> A i j = B i j) -> mx n A = mx n B.
Proof. by move=> n A B H; apply/matrixP => i j; rewrite !mxE; apply: H. Qed.

Lemma mx_minor : forall n (A : nat -> nat -> F) (j : 'I_n.+1),
  row' 0 (col' j (mx n.+1 A)) = mx n (Minor S n.+1 n.+1 A 0 j).
Proof.
move=> n A j; apply/matrixP => r c; rewrite !mxE minor_elements //=.
Qed.

Lemma expand : forall n (A : nat -> nat -> F),
  \det (mx n.+1 A) =
  \sum_(j < n.+1) (-1) ^+ j * \det (mx n (Minor S n.+1 n.+1 A 0 j)) * A 0%N j.
Proof.
move=> n A; rewrite (expand_det_row _ 0); apply: eq_bigr => j _.
by rewrite /cofactor mx_minor mxE /= add0n mulrC.
Qed.

Lemma det1 : forall A, \det (mx 1 A) = A 0%N 0%N :> F.
Proof. by move=> A; rewrite [mx 1 A]mx11_scalar det_scalar1 mxE. Qed.

Lemma det2 : forall A,
  \det (mx 2 A) = A 0%N 0%N * A 1%N 1%N - A 1%N 0%N * A 0%N 1%N :> F.
Proof.
move=> A; rewrite expand !big_ord_recl big_ord0 /= !det1 !minor_elements //= /bump /=.
by rewrite expr0 expr1 !mul1r addr0 mulN1r mulNr mulrC.
Qed.

Lemma det3 : forall A : nat -> nat -> F, \det (mx 3 A) = det_laplace S 3 A.
Proof.
move=> A; rewrite expand !big_ord_recl big_ord0 /= !det2 !minor_elements //= /bump /=.
rewrite !addn0 !add0n ?addn1 expr0 expr1 sqrrN expr1n !mul1r addr0 mulN1r mulNr -addrA.
congr (_ + _); first by rewrite mulrC.
congr (- _ + _); first by rewrite mulrC [A 2%N 0%N * _]mulrC.
by rewrite mulrC [A 2%N 0%N * _]mulrC.
Qed.

Lemma laplace : forall n A, (0 < n)%N -> det_laplace S n A = \det (mx n A).
Proof.
elim=> [//|n IH] A _.
case: n IH => [|n] IH; first by rewrite det1.
case: n IH => [|n] IH; first by rewrite det2.
case: n IH => [|n] IH; first by rewrite det3.
rewrite [det_laplace _ _ _]/=; set body := (fun i st => _).
pose P (i : nat) (st : F * F) := st.2 = (-1) ^+ i /\
  st.1 = \sum_(0 <= j < i) (-1) ^+ j * \det (mx n.+3 (Minor S n.+4 n.+4 A 0 j)) * A 0%N j.
have : P n.+4 (loop 0 n.+4 body (0, 1)).
  apply: (loopP (P := P)) => //; first by split; rewrite ?big_geq ?expr0.
  move=> k [res par] kn [/= -> ->]; rewrite /body /P; split=> /=.
    by rewrite exprSr mulrN1.
  rewrite big_nat_recr //= -IH //.
by case=> _ /= ->; rewrite big_mkord expand.
Qed.
End Laplace.
