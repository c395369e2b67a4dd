(** What binning in momentum space should give. *)
From Coq Require Import ZArith QArith List.
From Verif Require Import BinningModel.
Import ListNotations.
Open Scope Q_scope.

(** A momentum of modulus [kr] belongs to bin [b] if (k/k_max)^p * n_bins is
    at least b and less than b+1 (comment in the header, lines 39-41). *)
Definition in_k_bin (powf : Q -> Q -> Q) (p : params) (b : nat) (kr : Q) : Prop :=
  inject_Z (Z.of_nat b) <= powf (kr / max p) (power p) * inject_Z (Z.of_nat (bins p))
    < inject_Z (Z.of_nat b) + 1.

(** [total P l n s]: [n] of the entries of [l] have a momentum that satisfies
    [P], and the sum of the values of these is [s]. *)
Inductive total (P : Q -> Prop) : list (Q * Q) -> Z -> Q -> Prop :=
  | total_nil : forall s, s == 0 -> total P [] 0 s
  | total_in : forall k v l n s s',
      P k -> total P l n s -> s' == s + v -> total P ((k, v) :: l) (n + 1) s'
  | total_out : forall k v l n s,
      ~ P k -> total P l n s -> total P ((k, v) :: l) n s.

(** The answer of k(b): the average of the moduli in bin b. *)
Definition right_k powf sites p (b : nat) (r : real) : Prop :=
  exists n s, total (in_k_bin powf p b) (map (fun k => (k, k)) sites) n s /\
    match r with
    | Num q => (0 < n)%Z /\ q * inject_Z n == s
    | NaN => n = 0%Z
    end.

(** The answer of count(b). *)
Definition right_count powf sites p (b : nat) (c : Z) : Prop :=
  exists s, total (in_k_bin powf p b) (map (fun k => (k, k)) sites) c s.

(** The binning of a field. *)
Definition right_sums powf sites f p (s : list Q) : Prop :=
  length s = bins p /\
  forall b, (b < bins p)%nat ->
    exists n, total (in_k_bin powf p b) (combine sites f) n (nth b s 0).

(** All sites have a bin number that is an [int]. *)
Definition fits (powf : Q -> Q -> Q) (sites : list Q) (p : params) : Prop :=
  forall k, In k sites ->
    0 <= powf (k / max p) (power p) * inject_Z (Z.of_nat (bins p)) < inject_Z 2147483648.

(** What is needed of the power function for one exponent. *)
Record power_like (powf : Q -> Q -> Q) (p : Q) : Prop := {
  pl_mono : forall x y, 0 <= x -> x <= y -> powf x p <= powf y p;
  pl_root_mono : forall x y, 0 <= x -> x <= y -> powf x (1 / p) <= powf y (1 / p);
  pl_pos : forall x, 0 <= x -> 0 <= powf x p;
  pl_root_pos : forall x, 0 <= x -> 0 <= powf x (1 / p);
  pl_root : forall x, 0 <= x -> powf (powf x p) (1 / p) == x;
  pl_power : forall x, 0 <= x -> powf (powf x (1 / p)) p == x
}.
