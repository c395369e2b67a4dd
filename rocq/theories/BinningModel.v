(** Model of the binning of momentum space
    (libraries/plumbing/spectraldensity.h, class hila::k_binning).

    Numbers are rationals and arithmetic is exact.  The modulus of the momentum
    of a site (convert_to_k().norm(), line 28) is an arbitrary non-negative
    number given for each site; the power function (line 31) is a parameter
    [powf].  Sums over the sites (onsites with a ReductionVector) are taken in
    the order of the list: C20 says that the layout does not matter.  [None] is
    undefined behaviour: conversion of a number that is not an [int], or an
    index outside a vector.  A quotient 0/0 (NaN) is [NaN]. *)
From Coq Require Import ZArith QArith Qround List Bool.
From Verif Require Import SrcbufModel RandomModel.
Import ListNotations.
Open Scope Q_scope.

(** spectraldensity.h 11-21; [exact] is not used anywhere and left out. *)
Record params := mkParams {
  max : Q;
  power : Q;
  width : Q;
  bins : nat;
  bins_set : bool
}.

Inductive real := Num (q : Q) | NaN.

(** spectraldensity.h 72-76. *)
Record binning := mkBinning {
  par : params;
  k_avg : list real;
  bin_count : list Z
}.

(** double to int: toward zero, undefined if the result does not fit. *)
Definition to_int (v : Q) : option Z :=
  let b := Z.quot (Qnum v) (Zpos (Qden v)) in
  if ((-2147483648 <=? b) && (b <=? 2147483647))%Z then Some b else None.

(** spectraldensity.h 26-33 sd_get_k_bin. *)
Definition get_k_bin (powf : Q -> Q -> Q) (p : params) (kr : Q) : option Z :=
  to_int (powf (kr / max p) (power p) * inject_Z (Z.of_nat (bins p))).

(** spectraldensity.h 102-108 bins(n); the assertion n > 0 is taken for granted. *)
Definition set_bins (n : nat) (p : params) : params :=
  mkParams (max p) (power p) (max p / inject_Z (Z.of_nat n)) n true.

(** spectraldensity.h 115-123 k_max(km). *)
Definition set_max (km : Q) (p : params) : params :=
  if bins_set p then mkParams km (power p) (width p) (bins p) true
  else
    let n := Z.to_nat (Qceiling (km / width p)) in
    mkParams (width p * inject_Z (Z.of_nat n)) (power p) (width p) n false.

(** spectraldensity.h 129-136 binwidth(w). *)
Definition set_width (w : Q) (p : params) : params :=
  let n := Z.to_nat (Qceiling (max p / w)) in
  mkParams (w * inject_Z (Z.of_nat n)) (power p) w n false.

(** spectraldensity.h 143-147 power(p). *)
Definition set_power (q : Q) (p : params) : params :=
  mkParams (max p) q (width p) (bins p) (bins_set p).

(** The loops over the sites: 178-184, 208-219, 288-297.  Each site comes with
    the value that is added in its bin. *)
Fixpoint collect {A} (powf : Q -> Q -> Q) (p : params) (add : A -> A -> A)
    (sites : list (Q * A)) (s : list A) : option (list A) :=
  match sites with
  | [] => Some s
  | (kr, v) :: rest =>
    do b <- get_k_bin powf p kr;
    if ((0 <=? b) && (b <? Z.of_nat (bins p)))%Z then
      do x <- nth_error s (Z.to_nat b);
      collect powf p add rest (put (Z.to_nat b) (add x v) s)
    else collect powf p add rest s
  end.

(** spectraldensity.h 301 s[i] / count[i]. *)
Definition quotient (s : Q) (n : Z) : real :=
  if (n =? 0)%Z then NaN else Num (s / inject_Z n).

(** spectraldensity.h 278-303 sd_calculate_bin_info.  An empty bin has the sum
    0, so its average is 0/0. *)
Definition calculate (powf : Q -> Q -> Q) (sites : list Q) (st : binning) : option binning :=
  let p := par st in
  do s <- collect powf p Qplus (map (fun k => (k, k)) sites) (repeat 0 (bins p));
  do c <- collect powf p Z.add (map (fun k => (k, 1%Z)) sites) (repeat 0%Z (bins p));
  Some (mkBinning p (map (fun x => quotient (fst x) (snd x)) (combine s c)) c).

(** spectraldensity.h 307-317 k(i). *)
Definition query_k (powf : Q -> Q -> Q) (sites : list Q) (i : Z) (st : binning) :
    option (binning * real) :=
  do st <- (if Nat.eqb (length (k_avg st)) 0 then calculate powf sites st else Some st);
  if ((0 <=? i) && (i <? Z.of_nat (bins (par st))))%Z then
    do r <- nth_error (k_avg st) (Z.to_nat i); Some (st, r)
  else Some (st, Num 0).

(** spectraldensity.h 321-331 count(i). *)
Definition query_count (powf : Q -> Q -> Q) (sites : list Q) (i : Z) (st : binning) :
    option (binning * Z) :=
  do st <- (if Nat.eqb (length (bin_count st)) 0 then calculate powf sites st else Some st);
  if ((0 <=? i) && (i <? Z.of_nat (bins (par st))))%Z then
    do r <- nth_error (bin_count st) (Z.to_nat i); Some (st, r)
  else Some (st, 0%Z).

(** spectraldensity.h 166-187 bin_k_field, and 193-223 with the square norms of
    the elements as values.  [f] has one value for each site. *)
Definition bin_field (powf : Q -> Q -> Q) (sites : list Q) (f : list Q) (st : binning) :
    option (binning * list Q) :=
  do st <- (if Nat.eqb (length (k_avg st)) (bins (par st)) then Some st
            else calculate powf sites st);
  do s <- collect powf (par st) Qplus (combine sites f) (repeat 0 (bins (par st)));
  Some (st, s).

(** spectraldensity.h 337-343 bin_min, bin_max. *)
Definition bin_min (powf : Q -> Q -> Q) (p : params) (i : Z) : Q :=
  powf (inject_Z i / inject_Z (Z.of_nat (bins p))) (1 / power p) * max p.

Definition bin_max (powf : Q -> Q -> Q) (p : params) (i : Z) : Q := bin_min powf p (i + 1).

(** spectraldensity.h 79-99 the constructors; [pi] is M_PI. *)
Definition default_bins (size : list nat) : nat :=
  fold_left (fun b l => if Nat.ltb (2 * b) l then Nat.div l 2 else b) size 1%nat.

Definition make (pi : Q) (size : list nat) : binning :=
  let b := default_bins size in
  mkBinning (mkParams pi 1 (pi / inject_Z (Z.of_nat b)) b false) [] [].

Definition make_with (pi : Q) (b : nat) : binning :=
  mkBinning (mkParams pi 1 (pi / inject_Z (Z.of_nat b)) b true) [] [].

(** What a program can do with one of these objects. *)
Inductive change :=
  | SetBins (n : nat)
  | SetMax (km : Q)
  | SetWidth (w : Q)
  | SetPower (q : Q).

Definition apply_change (c : change) (p : params) : params :=
  match c with
  | SetBins n => set_bins n p
  | SetMax km => set_max km p
  | SetWidth w => set_width w p
  | SetPower q => set_power q p
  end.

Inductive use :=
  | Change (c : change)
  | AskK (i : Z)
  | AskCount (i : Z)
  | Bin (f : list Q).

Definition step (powf : Q -> Q -> Q) (sites : list Q) (u : use) (st : binning) : option binning :=
  match u with
  | Change c => Some (mkBinning (apply_change c (par st)) (k_avg st) (bin_count st))
  | AskK i => do r <- query_k powf sites i st; Some (fst r)
  | AskCount i => do r <- query_count powf sites i st; Some (fst r)
  | Bin f => do r <- bin_field powf sites f st; Some (fst r)
  end.

Fixpoint uses (powf : Q -> Q -> Q) (sites : list Q) (l : list use) (st : binning) :
    option binning :=
  match l with
  | [] => Some st
  | u :: l' => do st <- step powf sites u st; uses powf sites l' st
  end.
