(** Complex colour vectors satisfy the laws of [dot_laws]. *)
Set Warnings "-notation-overridden,-ambiguous-paths".
From mathcomp Require Import all_ssreflect all_algebra.
From Coq Require Import ZArith Lia.
From Verif Require Import GaugeModel GaugeSpec GaugeMatrix DiracModel DiracSpec.
Set Implicit Arguments.
Unset Strict Implicit.
Unset Printing Implicit Defensive.
Import GRing.Theory Num.Theory.
Local Open Scope ring_scope.

Section Complex.
Variables (C : numClosedFieldType) (n : nat).

(** Column vectors over a numerically closed field.  A real number is given
    by the real part of an element of the field. *)
Definition complex_vectors : vectors (complex_matrices C n) :=
  @mkVectors (complex_matrices C n) ('cV[C]_n)
     (* vzero *) 0
     (* vadd *) (fun a b => a + b)
     (* vsub *) (fun a b => a - b)
     (* vneg *) (fun a => - a)
     (* vscale *) (fun r a => 'Re (r : C) *: a)
     (* act *) (fun u a => (u : 'M[C]_n) *m a)
     (* half *) (fun k => ((int_of_Z k)%:~R / 2%:R : C))
     (* rinv *) (fun r => (r : C)^-1).

(** The scalar product, conjugate on the left. *)
Definition complex_dot (a b : 'cV[C]_n) : C := \sum_i conjC (a i 0) * b i 0.

Definition complex_neg (a : C) : C := - a.
Definition complex_scale (r a : C) : C := 'Re r * a.

Lemma int_of_Z_opp : forall k, int_of_Z (- k)%Z = - int_of_Z k.
Proof. by case => [|p|p] /=; rewrite ?oppr0 ?opprK. Qed.

Lemma ReK : forall r : C, conjC ('Re r) = 'Re r.
Proof. move=> r; apply/CrealP; exact: Creal_Re. Qed.

Lemma complex_dot_laws :
  dot_laws (complex_matrices C n) complex_vectors complex_dot complex_neg complex_scale.
Proof.
constructor => /=; rewrite /complex_dot /complex_neg /complex_scale.
- exact: addrA.
- exact: addrC.
- exact: add0r.
- exact: addrN.
- move=> k a; rewrite int_of_Z_opp rmorphN mulNr raddfN /= mulNr; by [].
- move=> r a b; exact: mulrDr.
- move=> r q a; exact: mulrCA.
- move=> a; apply: big1 => i _; by rewrite mxE conjC0 mul0r.
- move=> a; apply: big1 => i _; by rewrite mxE mulr0.
- move=> a b c; rewrite -big_split /=; apply: eq_bigr => i _.
  by rewrite mxE rmorphD mulrDl.
- move=> a b c; rewrite -big_split /=; apply: eq_bigr => i _.
  by rewrite mxE mulrDr.
- move=> a b c; rewrite -sumrN -big_split /=; apply: eq_bigr => i _.
  by rewrite !mxE rmorphB mulrBl.
- move=> a b c; rewrite -sumrN -big_split /=; apply: eq_bigr => i _.
  by rewrite !mxE mulrBr.
- move=> a b; rewrite -sumrN; apply: eq_bigr => i _; by rewrite mxE rmorphN mulNr.
- move=> a b; rewrite -sumrN; apply: eq_bigr => i _; by rewrite mxE mulrN.
- move=> r a b; rewrite mulr_sumr; apply: eq_bigr => i _.
  by rewrite mxE rmorphM ReK mulrA.
- move=> r a b; rewrite mulr_sumr; apply: eq_bigr => i _.
  by rewrite mxE mulrCA.
- move=> u a b.
  transitivity (\sum_i \sum_j conjC (u i j) * conjC (a j 0) * b i 0).
    apply: eq_bigr => i _; rewrite mxE rmorph_sum mulr_suml; apply: eq_bigr => j _.
    by rewrite rmorphM.
  rewrite exchange_big /=; apply: eq_bigr => j _.
  rewrite mxE mulr_sumr; apply: eq_bigr => i _.
  by rewrite !mxE mulrA; congr (_ * _); rewrite mulrC.
Qed.
End Complex.
