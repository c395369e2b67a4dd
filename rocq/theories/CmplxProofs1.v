(** Identities of the parts of complex numbers. *)
Set Warnings "-notation-overridden,-ambiguous-paths".
From mathcomp Require Import all_ssreflect all_algebra.
From Verif Require Import FieldTac LinalgModel LinalgSpec CmplxModel CmplxSpec.
Set Implicit Arguments.
Unset Strict Implicit.
Unset Printing Implicit Defensive.

Section Pure.
Variables (K : Type) (zero one : K) (add mul sub : K -> K -> K) (opp : K -> K).
Hypothesis RT : ring_theory zero one add mul sub opp eq.
Add Ring K_ring : RT.
Variable I : K.
Notation "a + b" := (add a b).
Notation "a * b" := (mul a b).
Notation "a - b" := (sub a b).
Notation "- a" := (opp a).
Hypothesis II : I * I = - one.
Implicit Types a b c d m n : K.

Lemma p_mul a b c d : a * c - b * d + I * (a * d + b * c) = (a + I * b) * (c + I * d).
Proof. ring [II]. Qed.
Lemma p_mul2 a b c d : a * c - b * d + I * (b * c + a * d) = (a + I * b) * (c + I * d).
Proof. ring [II]. Qed.
Lemma p_conj_mul a b c d : a * c + b * d + I * (a * d - b * c) = (a - I * b) * (c + I * d).
Proof. ring [II]. Qed.
Lemma p_mul_conj a b c d : a * c + b * d + I * (b * c - a * d) = (a + I * b) * (c - I * d).
Proof. ring [II]. Qed.
Lemma p_norm c d : (c + I * d) * (c - I * d) = c * c + d * d.
Proof. ring [II]. Qed.
Lemma p_div a b c d n : ((a * c + b * d) * n + I * ((b * c - a * d) * n)) * (c + I * d) = (a + I * b) * ((c * c + d * d) * n).
Proof. ring [II]. Qed.
Lemma p_div2 a b c d m n :
  ((a * (c * m) + b * (d * m)) * n + I * ((b * (c * m) - a * (d * m)) * n)) * (c + I * d) = (a + I * b) * ((c * c + d * d) * (m * n)).
Proof. ring [II]. Qed.
Lemma p_rdiv a c d n : ((a * c) * n + I * (- (a * d) * n)) * (c + I * d) = a * ((c * c + d * d) * n).
Proof. ring [II]. Qed.
Lemma p_imag i a b : - b * i + I * (a * i) = (I * i) * (a + I * b).
Proof. ring [II]. Qed.
Lemma p_scaled c d m : (c * m) * (c * m) + (d * m) * (d * m) = (c * c + d * d) * (m * m).
Proof. ring. Qed.
Lemma p_add a b c d : (a + c) + I * (b + d) = (a + I * b) + (c + I * d). Proof. ring. Qed.
Lemma p_sub a b c d : (a - c) + I * (b - d) = (a + I * b) - (c + I * d). Proof. ring. Qed.
Lemma p_addr a b c : (a + c) + I * b = (a + I * b) + c. Proof. ring. Qed.
Lemma p_subr a b c : (a - c) + I * b = (a + I * b) - c. Proof. ring. Qed.
Lemma p_rsub a c d : (a - c) + I * (- d) = a - (c + I * d). Proof. ring. Qed.
Lemma p_opp c d : - c + I * (- d) = - (c + I * d). Proof. ring. Qed.
Lemma p_scale a b c : a * c + I * (b * c) = (a + I * b) * c. Proof. ring. Qed.
End Pure.
