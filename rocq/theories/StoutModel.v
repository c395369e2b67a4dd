(** Model of stout smearing: libraries/gauge/stout_smear.h (20-175).

    Sites, neighbours, matrices and site loops are those of [GaugeModel] and
    [ForceModel].  Numbers are exact.  A field that is assigned on all sites is a
    function of the site.  start_gather changes no value (C05-C07).  An element
    outside of a vector: None. *)
From Coq Require Import ZArith List Bool.
From Verif Require Import Common GaugeModel ForceModel GaussModel.
Import ListNotations.

Section Stout.
Context (M : matrices) (G : algebras M) (P : gauss_ops M G) (L : list Z).
Notation "a * b" := (mul M a b).
Notation "a + b" := (madd M a b).
Notation dag := (dagger M).
Notation "x +/ d" := (up L d x) (at level 45, left associativity).
Notation "x -/ d" := (down L d x) (at level 45, left associativity).
Notation mfield := (mfield M).
Notation gauge := (gauge M).

(** onsites(ALL) V[d][X] = f(X). *)
Definition set_links (V : gauge) (d : nat) (f : mfield) : gauge :=
  fun d' x => if (d' =? d)%nat then f x else V d' x.

(** 22-51 staplesums. *)
Definition staplesums_pair (U staples : gauge) (d1 d2 : nat) : gauge :=
  if (d2 =? d1)%nat then staples else
  let tF1 : mfield := fun x => dag (U d1 x * U d2 (x +/ d1)) in
  let lw1 : mfield := fun x => tF1 x * U d2 x in
  let staples := set_links staples d2 (fun x => staples d2 x + U d1 (x +/ d2) * tF1 x) in
  set_links staples d1 (fun x => staples d1 x + lw1 (x -/ d2)).
Definition staplesums (U staples : gauge) : gauge :=
  let staples := fold_left (fun staples d1 => set_links staples d1 (fun _ => mzero M)) (directions L) staples in
  fold_left (fun staples d1 =>
      fold_left (fun staples d2 => staplesums_pair U staples d1 d2) (directions L) staples)
    (directions L) staples.

(** 53-62 stout_smear1: the staples are in the field for the result. *)
Definition stout_smear1 (U stout : gauge) (coeff : re M) : gauge :=
  let stout := staplesums U stout in
  fold_left (fun stout d => set_links stout d (fun x =>
      aexp M G P (project M G (ropp M G coeff) (U d x * stout d x)) * U d x))
    (directions L) stout.

(** 64-73 stout_smear1 with a field for the staples: (stout, stap). *)
Definition stout_smear1_stap (U stout stap : gauge) (coeff : re M) : gauge * gauge :=
  let stap := staplesums U stap in
  (fold_left (fun stout d => set_links stout d (fun x =>
      aexp M G P (project M G (ropp M G coeff) (U d x * stap d x)) * U d x))
    (directions L) stout, stap).

(** 85-102 stout_smear.  tmp0: the initial contents of tmp. *)
Fixpoint smear_turns (turns : nat) (coeff : re M) (a b : gauge) : gauge * gauge :=
  match turns with
  | O => (a, b)
  | S turns =>
      let b := stout_smear1 a b coeff in
      let a := stout_smear1 b a coeff in
      smear_turns turns coeff a b
  end.
Definition stout_smear (U stout tmp0 : gauge) (coeff : re M) (iter : Z) : gauge :=
  let turns := Z.to_nat (Z.quot iter 2) in
  if (Z.rem iter 2 =? 0)%Z then
    fst (smear_turns turns coeff U tmp0)
  else
    let '(tmp, stout) := smear_turns turns coeff U stout in
    stout_smear1 tmp stout coeff.

(** 117-162 get_stout_staples: the staples and their sums.  nstap = 2 (NDIM - 1).
    The first index of S is an integer (C++ int). *)
Definition staple_list := Z -> gauge.
Definition set_staple (SS : staple_list) (k : Z) (d : nat) (f : mfield) : staple_list :=
  fun k' => if (k' =? k)%Z then set_links (SS k) d f else SS k'.
Definition stout_staples_pair (U : gauge) (nstap l : Z) (d1 : nat) (st : staple_list * Z) (d2 : nat) : staple_list * Z :=
  let '(SS, k) := st in
  if (d2 =? d1)%nat then st else
  let tF1 : mfield := fun x => dag (U d1 x * U d2 (x +/ d1)) in
  let lw1 : mfield := fun x => tF1 x * U d2 x in
  let rl := (if (d1 <? d2)%nat then l else l - 1)%Z in
  let SS := set_staple SS rl d2 (fun x => U d1 (x +/ d2) * tF1 x) in
  let rk := (nstap - 1 - k)%Z in
  let SS := set_staple SS rk d1 (fun x => lw1 (x -/ d2)) in
  (SS, (k + 1)%Z).
Definition get_stout_staples (U : gauge) (SS : staple_list) (Ssum : gauge) : staple_list * gauge :=
  let nstap := (2 * (Z.of_nat (length L) - 1))%Z in
  let '(SS, _) :=
    fold_left (fun st d1 =>
        let '(SS, l) := st in
        let '(SS, _) := fold_left (stout_staples_pair U nstap l d1) (directions L) (SS, 0%Z) in
        (SS, (l + 1)%Z))
      (directions L) (SS, 0%Z) in
  let Ssum :=
    fold_left (fun Ssum d1 =>
        let Ssum := set_links Ssum d1 (fun x => SS 0%Z d1 x) in
        fold_left (fun Ssum k => set_links Ssum d1 (fun x => Ssum d1 x + SS (Z.of_nat k) d1 x))
          (seq 1 (Z.to_nat (nstap - 1))) Ssum)
      (directions L) Ssum in
  (SS, Ssum).

(** 164-175 stout_smear that keeps the fields of all steps. *)
Fixpoint smear_list (U : gauge) (stoutlist staplist : list gauge) (coeff : re M) : option (list gauge * list gauge) :=
  match stoutlist, staplist with
  | [], _ => Some ([], staplist)
  | stout :: stoutlist, stap :: staplist =>
      let '(stout, stap) := stout_smear1_stap U stout stap coeff in
      match smear_list stout stoutlist staplist coeff with
      | Some (sl, pl) => Some (stout :: sl, stap :: pl)
      | None => None
      end
  | _ :: _, [] => None
  end.
Definition stout_smear_list (U : gauge) (stoutlist staplist : list gauge) (coeff : re M) : option (list gauge * list gauge) :=
  match stoutlist with
  | [] => None
  | _ :: stoutlist =>
      match smear_list U stoutlist staplist coeff with
      | Some (sl, pl) => Some (U :: sl, pl)
      | None => None
      end
  end.
End Stout.
