(** The field and ring tactics of Coq for fields and commutative rings of the
    mathematical components library. *)
Set Warnings "-notation-overridden,-ambiguous-paths".
From mathcomp Require Import all_ssreflect all_algebra.
From Coq Require Export Field Ring.
Set Implicit Arguments.
Unset Strict Implicit.
Unset Printing Implicit Defensive.
Import GRing.Theory.
Local Open Scope ring_scope.

Lemma mc_ring (R : comRingType) :
  ring_theory (0 : R) 1 (fun a b => a + b) (fun a b => a * b) (fun a b => a - b) (fun a => - a) eq.
Proof.
split=> //.
- exact: add0r.
- exact: addrC.
- exact: addrA.
- exact: mul1r.
- exact: mulrC.
- exact: mulrA.
- exact: mulrDl.
- exact: subrr.
Qed.

Lemma mc_field (F : fieldType) :
  field_theory (0 : F) 1 (fun a b => a + b) (fun a b => a * b) (fun a b => a - b) (fun a => - a)
    (fun a b => a / b) (fun a => a^-1) eq.
Proof.
split=> //; first exact: mc_ring.
- by move/eqP; rewrite oner_eq0.
- by move=> p /eqP p0; rewrite mulVf.
Qed.
