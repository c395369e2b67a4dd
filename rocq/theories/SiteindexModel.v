(** Model of libraries/plumbing/site_index.h (17-57) SiteIndex: the constructor from
    a CoordinateVector and coordinates().

    sizes: lattice.size(d) for each direction d, an int.  A CoordinateVector is the list
    of its elements, one for each direction.  size_t is modelled with 64 bits and int
    with 32 bits. *)
From Coq Require Import ZArith List.
Import ListNotations.
Local Open Scope Z_scope.

Definition to_size_t (z : Z) : Z := z mod 2 ^ 64.
(** Conversion of a size_t to int, modulo 2^32. *)
Definition to_int (z : Z) : Z := (z + 2 ^ 31) mod 2 ^ 32 - 2 ^ 31.

(** 37-44: value += m * cv[d]; m *= lattice.size(d). *)
Definition from_step (st : Z * Z) (p : Z * Z) : Z * Z :=
  let '(value, m) := st in
  let '(size, c) := p in
  (to_size_t (value + to_size_t (m * to_size_t c)), to_size_t (m * to_size_t size)).
Definition from_coordinates (sizes cv : list Z) : Z :=
  fst (fold_left from_step (combine sizes cv) (0, 1)).

(** 49-57 coordinates().  Division by a size of 0: None. *)
Fixpoint coordinates_loop (sizes : list Z) (v : Z) : option (list Z) :=
  match sizes with
  | [] => Some []
  | size :: sizes =>
      let s := to_size_t size in
      if s =? 0 then None else
      match coordinates_loop sizes (v / s) with
      | Some res => Some (to_int (v mod s) :: res)
      | None => None
      end
  end.
Definition coordinates (sizes : list Z) (value : Z) : option (list Z) := coordinates_loop sizes value.
