(** What is said of the gradient flow. *)
Set Warnings "-notation-overridden,-ambiguous-paths".
From Coq Require Import ZArith List.
From mathcomp Require Import all_ssreflect all_algebra.
From Verif Require Import GaugeModel GaugeSpec GaugeMatrix LinalgModel LinalgSpec AlgebraModel AlgebraSpec MatrixSpec
  ForceModel ForceSpec GaussModel GaussSpec FlowModel.
Set Implicit Arguments.
Unset Strict Implicit.
Unset Printing Implicit Defensive.
Import GRing.Theory Num.Theory.
Local Open Scope ring_scope.

Section Spec.
Variables (C : numClosedFieldType) (n : nat).
Notation CM := (complex_matrices C n).
Notation SU := (su_algebra C n).
Notation FS := (field_scalars (fun x : C => x) 0).

(** The operations for SU(n).  The functions pow(a, -1/3) and reunitarize() and
    the number 4 pi^2 are arguments. *)
Definition su_flow (power : C -> C) (fourpi2 : C) (reu : 'M[C]_n -> 'M[C]_n) : flow_ops CM SU :=
  mkFlowOps CM SU
    (fun p q => ((int_of_Z p)%:~R / (int_of_Z q)%:~R : C))
    (fun a b : C => a - b) (fun a b : C => a / b) (fun a : C => sqrtC a)
    (fun a b : C => b <= a) power (fun a : C => a / fourpi2)
    (fun a b => algebra_dot FS n a b) reu.

(** The squared length of a force. *)
Definition length2 (L : list Z) (K : moments C) : C := product n L K K.

(** The actions with a force that is modelled: all but two. *)
Definition modelled (a : flow_action) : Prop := a <> Bulk_Prevention /\ a <> Log_Plaq.

(** An element of SU(n). *)
Definition special (h : 'M[C]_n) : Prop := GaugeSpec.unitary CM h /\ \det h = 1.

(** The energy of the field strength F = (antihermitean traceless part of the
    clover), the sum of |F|^2 over sites and pairs of directions. *)
Definition strength (L : list Z) (U : links C n) (d1 d2 : nat) (x : site) : 'M[C]_n :=
  ForceSpec.algebra_part (clover_sum L U d1 d2 x).
Definition clover_energy (L : list Z) (U : links C n) : C :=
  \sum_(x <- sites L) \sum_(p <- pairs L) \sum_i \sum_j `|strength L U p.1 p.2 x i j| ^+ 2.

(** The sign of (i,j,k,l) as a permutation of (0,1,2,3); 0 if it is none. *)
Definition sign_of (i j : nat) : ssrint.int := if (i < j)%N then 1 else if (j < i)%N then (-1) else 0.
Definition epsilon (q : nat * nat * nat * nat) : ssrint.int :=
  let '(i, j, k, l) := q in
  sign_of i j * sign_of i k * sign_of i l * sign_of j k * sign_of j l * sign_of k l.
Definition quadruples : list (nat * nat * nat * nat) :=
  let r := iota 0 4 in list_prod (list_prod (list_prod r r) r) r.

(** (1 / 32 pi^2) sum of epsilon(i,j,k,l) Re Tr F_ij F_kl. *)
Definition topological_charge (fourpi2 : C) (L : list Z) (U : links C n) : C :=
  (\sum_(x <- sites L) \sum_(q <- quadruples)
     (epsilon q)%:~R * 'Re (\tr (strength L U q.1.1.1 q.1.1.2 x *m strength L U q.1.2 q.2 x))) / (8%:R * fourpi2).
End Spec.
