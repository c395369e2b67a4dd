(** Model of Field::min and Field::max (libraries/plumbing/reduction.h 321-389,
    called rd below), the CPU version with OpenMP threads.

    Values are integers: for int and long the number itself, for the floating point
    types the multiple of the smallest positive number of the type (every finite
    value is such a multiple and the order is the same).  Infinities and NaN are
    not modelled. *)
From Verif Require Import Common LayoutModel ReduceModel.

(** rd 324-328: the element types with min and max. *)
Inductive numtype : Type := TInt | TLong | TFloat | TDouble | TLongDouble.

Definition is_integer (ty : numtype) : bool := match ty with TInt | TLong => true | _ => false end.

(** std::numeric_limits<T>::max() and ::min(); for a floating point type the latter
    is the smallest positive normal number (long double: the 80 bit format of x86). *)
Definition limit_max (ty : numtype) : Z :=
  match ty with
  | TInt => 2 ^ 31 - 1
  | TLong => 2 ^ 63 - 1
  | TFloat => (2 ^ 24 - 1) * 2 ^ 253
  | TDouble => (2 ^ 53 - 1) * 2 ^ 2045
  | TLongDouble => (2 ^ 64 - 1) * 2 ^ 32765
  end.
Definition limit_min (ty : numtype) : Z :=
  match ty with
  | TInt => - 2 ^ 31
  | TLong => - 2 ^ 63
  | TFloat => 2 ^ 23
  | TDouble => 2 ^ 52
  | TLongDouble => 2 ^ 63
  end.

(** rd 334, 341: the initial value. *)
Definition initial_value (is_min : bool) (ty : numtype) : Z := if is_min then limit_max ty else limit_min ty.

(** rd 347, 353: the comparison, [(is_min && a < b) || (!is_min && a > b)]. *)
Definition better (is_min : bool) (a b : Z) : bool := (is_min && (a <? b)) || (negb is_min && (b <? a)).

(** rd 340-351: the loop of one thread over its share [chunk] of the local sites,
    starting from the initial value and location 0. *)
Definition thread_loop (is_min : bool) (init : Z) (ndim : nat) (g : Z -> Z) (loc : Z -> list Z) (chunk : list Z) : Z * list Z :=
  fold_left (fun s i => if better is_min (g i) (fst s) then (g i, loc i) else s) chunk (init, repeat 0 ndim).

(** rd 352-356: the critical section of a thread. *)
Definition critical (is_min : bool) (s th : Z * list Z) : Z * list Z :=
  if better is_min (fst th) (fst s) then th else s.

(** rd 334-357: the result of one rank; [chunks] are the shares of the threads in the
    order in which they enter the critical section, [loc0] what the caller passed. *)
Definition rank_minmax (is_min : bool) (init : Z) (ndim : nat) (g : Z -> Z) (loc : Z -> list Z) (loc0 : list Z)
    (chunks : list (list Z)) : Z * list Z :=
  fold_left (critical is_min) (map (thread_loop is_min init ndim g loc) chunks) (init, loc0).

(** MPI_MINLOC and MPI_MAXLOC: the better value; of equal values the lower rank. *)
Definition mpi_loc (is_min : bool) (a b : Z * Z) : Z * Z :=
  if better is_min (fst a) (fst b) then a
  else if better is_min (fst b) (fst a) then b
  else (fst a, Z.min (snd a) (snd b)).

(** rd 321-389: the value returned and the location set on rank [r].  [mem] is the
    field on the ranks, [loc0] and [chunks] the caller's location and the shares of
    the threads on each rank, [t] the order in which MPI combines the ranks. *)
Definition minmax (lat : lattice) (is_min : bool) (ty : numtype) (mem : Z -> Z -> Z) (loc0 : Z -> list Z)
    (chunks : Z -> list (list Z)) (t : rtree) (r : Z) : Z * list Z :=
  let local k := rank_minmax is_min (initial_value is_min ty) (length (l_size lat)) (mem k) (coordinates (nodeinfo lat k)) (loc0 k) (chunks k) in
  if 1 <? number_of_nodes lat then
    let rdata := combine_ranks (mpi_loc is_min) t (fun k => (fst (local k), k)) in
    (fst rdata, snd (local (snd rdata)))
  else local r.
