(** Model of the shuffles, the seeds of the ranks and the partitions.
    /repo/libraries/plumbing/shuffle.h, random.cpp, initialize.cpp 405-460,
    com_mpi.cpp 330-345. *)
From Verif Require Import Common.
Open Scope Z_scope.

(** ** Random numbers: a double in [0,1) is [mant] / 2^[expo] with an integer below
    2^53 (random.cpp 22: uniform_real_distribution on [0,1)). *)
Record double01 : Type := mkDouble { mant : Z; expo : Z }.

(** Rounding of a positive integer to 53 bits, to nearest, ties to even: the rounding
    of a double product n * mant, as a multiple of 2^-[expo].  (No underflow: the
    product is a multiple of the last bit of the factor.) *)
Definition round53 (N : Z) : Z :=
  if N <? 2 ^ 53 then N
  else
    let s := Z.log2 N - 52 in
    let q := N / 2 ^ s in
    let r := N mod 2 ^ s in
    let up := if 2 * r =? 2 ^ s then Z.odd q else 2 ^ s <? 2 * r in
    (if up then q + 1 else q) * 2 ^ s.

(** shuffle.h 26: int i = (j + 1) * hila::random(), the conversion cuts off. *)
Definition random_index (j : Z) (u : double01) : Z := round53 ((j + 1) * mant u) / 2 ^ expo u.

(** arr[k] = x, for k inside of the array. *)
Fixpoint put {A : Type} (k : nat) (x : A) (arr : list A) : list A :=
  match k, arr with
  | _, [] => []
  | O, _ :: t => x :: t
  | S k', a :: t => a :: put k' x t
  end.

(** std::swap(arr[i], arr[j]); [None]: an index outside of the array. *)
Definition swap {A : Type} (i : Z) (j : nat) (arr : list A) : option (list A) :=
  if i <? 0 then None
  else match nth_error arr (Z.to_nat i), nth_error arr j with
       | Some a, Some b => Some (put j a (put (Z.to_nat i) b arr))
       | _, _ => None
       end.

(** shuffle.h 23-30: the loop from j down to 1; [k] counts the random numbers used. *)
Fixpoint shuffle_from {A : Type} (j : nat) (rnd : nat -> double01) (k : nat) (arr : list A) : option (list A) :=
  match j with
  | O => Some arr
  | S j' =>
      let i := random_index (Z.of_nat j) (rnd k) in
      match (if i =? Z.of_nat j then Some arr else swap i j arr) with
      | None => None
      | Some arr' => shuffle_from j' rnd (S k) arr'
      end
  end.

Definition shuffle {A : Type} (rnd : nat -> double01) (arr : list A) : option (list A) :=
  shuffle_from (length arr - 1) rnd 0 arr.

(** shuffle.h 47-61, 82-94, 96-105: filled in order, shuffled on every rank with its own
    random numbers, then broadcast from rank 0. *)
Inductive par : Type := EVEN | ODD.
Definition directions (ndim : nat) : list Z := zrange 0 ndim.
Definition directions_and_parities (ndim : nat) : list (Z * par) :=
  flat_map (fun d => [(d, EVEN); (d, ODD)]) (directions ndim).

Definition broadcast {A : Type} (on_rank : Z -> A) (rank : Z) : A := on_rank 0.

Definition shuffle_directions_and_parities (ndim : nat) (rnd : Z -> nat -> double01) (rank : Z) : option (list (Z * par)) :=
  broadcast (fun r => shuffle (rnd r) (directions_and_parities ndim)) rank.
Definition shuffle_directions (ndim : nat) (rnd : Z -> nat -> double01) (rank : Z) : option (list Z) :=
  broadcast (fun r => shuffle (rnd r) (directions ndim)) rank.
Definition shuffle_parities (rnd : Z -> nat -> double01) (rank : Z) : option (list par) :=
  broadcast (fun r => shuffle (rnd r) [EVEN; ODD]) rank.

(** ** Seeds.  uint64_t arithmetic. *)
Definition u64 (x : Z) : Z := x mod 2 ^ 64.

(** random.cpp 46-53: shuffle_rng_seed; [P] partitions of [nodes] ranks, this is rank
    [r] of partition [p]. *)
Definition shuffle_rng_seed (P p nodes r : Z) (seed : Z) : Z :=
  let n := if 1 <? P then u64 (r + p * nodes) else r in
  Z.lxor (u64 (seed + n)) (u64 (Z.shiftl n 31)).

(** random.cpp 85-151, 60-71: the seed handed to the generator; [clock] is the value
    rank 0 of the partition reads from the clock (seed 0), already combined. *)
Definition seed_random (P p nodes r : Z) (clock : Z) (seed : Z) : Z :=
  let s := if seed =? 0 then clock else seed in
  let s' := if 1 <? P then Z.lxor s (u64 (Z.shiftl p 28)) else s in
  shuffle_rng_seed P p nodes r s'.

(** random.cpp 101-106: seconds and nanoseconds. *)
Definition clock_seed (sec nsec : Z) : Z := Z.lxor (u64 (Z.shiftl sec 30)) nsec.

(** ** Partitions. *)
Definition int_max : Z := 2147483647.

(** initialize.cpp 440-456: [None] for an overflow of the int product, [Some None] for
    the diagnosed case, else the number of the partition of the rank. *)
Definition mylattice (N P rank : Z) : option (option Z) :=
  if P =? 1 then Some (Some 0)
  else if negb (N mod P =? 0) then Some None
  else if int_max <? rank * P then None
  else Some (Some (rank * P / N)).

(** com_mpi.cpp 337-344: MPI_Comm_split with equal keys: the ranks with the same number
    in the order of their old ranks. *)
Definition members (N : nat) (colour : Z -> Z) (p : Z) : list Z :=
  filter (fun r => colour r =? p) (zrange 0 N).

Fixpoint position (x : Z) (l : list Z) : option Z :=
  match l with
  | [] => None
  | y :: t => if y =? x then Some 0 else match position x t with Some k => Some (k + 1) | None => None end
  end.

Definition split_rank (N : nat) (colour : Z -> Z) (rank : Z) : option Z := position rank (members N colour (colour rank)).
Definition split_size (N : nat) (colour : Z -> Z) (rank : Z) : Z := Z.of_nat (length (members N colour (colour rank))).
