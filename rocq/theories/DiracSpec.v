(** Scalar products and adjoints of lattice operators. *)
From Coq Require Import ZArith List Bool.
From Verif Require Import Common GaugeModel GaugeSpec DiracModel.
Import ListNotations.
Open Scope Z_scope.

(** A scalar product [dot] on colour vectors with values in the traces [cx M]:
    biadditive, real scalars come out of both sides, matrices move to the
    other side as their conjugate. *)
Record dot_laws (M : matrices) (V : vectors M) (dot : vec V -> vec V -> cx M)
    (cneg : cx M -> cx M) (cscale : re M -> cx M -> cx M) : Prop := {
  c_assoc : forall a b c, cadd M a (cadd M b c) = cadd M (cadd M a b) c;
  c_comm : forall a b, cadd M a b = cadd M b a;
  c_zero : forall a, cadd M (czero M) a = a;
  c_neg : forall a, cadd M a (cneg a) = czero M;
  c_scale_half : forall k a, cscale (half V (- k)) a = cneg (cscale (half V k) a);
  c_scale_add : forall r a b, cscale r (cadd M a b) = cadd M (cscale r a) (cscale r b);
  c_scale_comm : forall r q a, cscale r (cscale q a) = cscale q (cscale r a);
  d_zero_l : forall a, dot (vzero V) a = czero M;
  d_zero_r : forall a, dot a (vzero V) = czero M;
  d_add_l : forall a b c, dot (vadd V a b) c = cadd M (dot a c) (dot b c);
  d_add_r : forall a b c, dot c (vadd V a b) = cadd M (dot c a) (dot c b);
  d_sub_l : forall a b c, dot (vsub V a b) c = cadd M (dot a c) (cneg (dot b c));
  d_sub_r : forall a b c, dot c (vsub V a b) = cadd M (dot c a) (cneg (dot c b));
  d_neg_l : forall a b, dot (vneg V a) b = cneg (dot a b);
  d_neg_r : forall a b, dot a (vneg V b) = cneg (dot a b);
  d_scale_l : forall r a b, dot (vscale V r a) b = cscale r (dot a b);
  d_scale_r : forall r a b, dot a (vscale V r b) = cscale r (dot a b);
  d_act : forall u a b, dot (act V u a) b = dot a (act V (dagger M u) b)
}.

(** The scalar product of two fields over the sites of a parity. *)
Definition field_dot {M} {V : vectors M} (dot : vec V -> vec V -> cx M) (L : list Z)
    (par : parity) (a b : site -> vec V) : cx M :=
  fold_right (cadd M) (czero M)
    (map (fun x => dot (a x) (b x)) (filter (has_parity par) (sites L))).

(** [B] is the adjoint of [A] for the scalar product over the parity. *)
Definition adjoint_of {M} {V : vectors M} (dot : vec V -> vec V -> cx M) (L : list Z)
    (par : parity) (A B : (site -> vec V) -> (site -> vec V)) : Prop :=
  forall a b, field_dot dot L par (B a) b = field_dot dot L par a (A b).

(** The documented phase: (-1) to the sum of the coordinates before d. *)
Definition eta (d : nat) (x : site) : Z :=
  if Z.even (zsum (firstn d x)) then 1 else -1.

(** The hopping term of the staggered operator added to z, as the code has it:
    with the phases -eta. *)
Definition add_hopping {M} (V : vectors M) (L : list Z) (anti : nat -> bool)
    (gauge : nat -> site -> mat M) (v : site -> vec V) (z : vec V) (x : site) : vec V :=
  fold_left (fun o d => vadd V o (vscale V (half V (- eta d x))
      (vsub V (act V (gauge d x) (next V L anti v d x))
              (prev V L anti (fun y => act V (dagger M (gauge d y)) (v y)) d x))))
    (directions L) z.
