(** Model of the memory pool (libraries/plumbing/memory_pool.cpp and memory_pool.h,
    mp below).  Sizes and addresses are integers; size_t does not overflow. *)
From Verif Require Import Common.

(** memory_pool.h 26-30. *)
Record block : Type := mkBlock { b_ptr : Z; b_size : Z; b_used : bool }.

(** memory_pool.h 34-36: the block list, first_free_block and total_size (the other
    counters are only reported). *)
Record pool : Type := mkPool { pl_blocks : list block; pl_hint : nat; pl_total : Z }.
Definition pool_new : pool := mkPool [] 0 0.

Inductive pool_op : Type := PAlloc (req : Z) | PFree (ptr : Z) | PPurge.

(** What happens: a pointer is returned, with the size requested from the system if
    memory was taken from there; a block was freed; blocks were given back to the
    system. *)
Inductive pool_result : Type := Returned (ptr : Z) (sys : option Z) | Freed | Purged (released : list Z).

Inductive pool_outcome : Type :=
| POk (p : pool) (r : pool_result)
| Terminated                        (* hila::terminate(1) *)
| OutOfRange.                       (* iterator beyond the end of the list *)

(** mp 36. *)
Definition min_alloc_size : Z := 128.

(** mp 51-71: the search from the hint; [i] is the index of the head of [l], [found]
    the best match so far with its size, [ff] the first free block seen. *)
Fixpoint pool_search (req : Z) (l : list block) (i : nat) (found : option (nat * Z)) (ff : option nat)
    : option (nat * Z) * option nat :=
  match l with
  | [] => (found, ff)
  | b :: l' =>
      if b_used b then pool_search req l' (S i) found ff
      else
        let ff' := match ff with None => Some i | Some _ => ff end in
        if b_size b =? req then (Some (i, b_size b), ff')
        else if (req <? b_size b) && (b_size b <? 2 * req) then
          let found' := match found with
                        | None => Some (i, b_size b)
                        | Some (_, s) => if b_size b <? s then Some (i, b_size b) else found
                        end in
          pool_search req l' (S i) found' ff'
        else pool_search req l' (S i) found ff'
  end.

Fixpoint set_used (l : list block) (i : nat) (v : bool) : list block :=
  match l, i with
  | [], _ => []
  | b :: l', O => mkBlock (b_ptr b) (b_size b) v :: l'
  | b :: l', S i' => b :: set_used l' i' v
  end.

(** mp 39-129: alloc; [addr] is what the system allocator would return. *)
Definition pool_alloc (addr req0 : Z) (p : pool) : pool_outcome :=
  let req := if req0 <? min_alloc_size then min_alloc_size else req0 in
  let n := length (pl_blocks p) in
  if (n <? pl_hint p)%nat then OutOfRange
  else
    let '(found, ff) := pool_search req (skipn (pl_hint p) (pl_blocks p)) (pl_hint p) None None in
    let ff1 := match ff with                                                   (* mp 75-80 *)
               | Some i => i
               | None => match found with Some (i, _) => i | None => n end
               end in
    let hint := if (pl_hint p <? ff1)%nat then ff1 else pl_hint p in           (* mp 82-83 *)
    match found with
    | Some (i, _) =>
        POk (mkPool (set_used (pl_blocks p) i true) hint (pl_total p))
            (Returned (b_ptr (nth i (pl_blocks p) (mkBlock 0 0 false))) None)
    | None =>
        POk (mkPool (pl_blocks p ++ [mkBlock addr req true]) hint (pl_total p + req)) (Returned addr (Some req))
    end.

(** mp 135-136: the search for a pointer, from the end of the list; [l] is reversed and
    [i] the number of blocks in it. *)
Fixpoint find_back (ptr : Z) (l : list block) (i : nat) : option (nat * bool) :=
  match l with
  | [] => None
  | b :: l' => if b_ptr b =? ptr then Some (Nat.pred i, b_used b) else find_back ptr l' (Nat.pred i)
  end.

(** mp 131-156: free. *)
Definition pool_free (ptr : Z) (p : pool) : pool_outcome :=
  match find_back ptr (rev (pl_blocks p)) (length (pl_blocks p)) with
  | None => Terminated
  | Some (_, false) => Terminated
  | Some (i, true) =>
      POk (mkPool (set_used (pl_blocks p) i false) (if (i <? pl_hint p)%nat then i else pl_hint p) (pl_total p)) Freed
  end.

(** mp 160-195: purge.  [gpu]: compiled for CUDA or HIP.  Otherwise [free(it->ptr)] is
    the member function itself, called with a block that is free, which stops the
    program. *)
Definition pool_purge (gpu : bool) (p : pool) : pool_outcome :=
  let unused := filter (fun b => negb (b_used b)) (pl_blocks p) in
  match gpu, unused with
  | false, _ :: _ => Terminated
  | _, _ => POk (mkPool (filter b_used (pl_blocks p)) (pl_hint p) (pl_total p - zsum (map b_size unused)))
                (Purged (map b_ptr unused))
  end.

Definition pool_step (gpu : bool) (addr : Z) (o : pool_op) (p : pool) : pool_outcome :=
  match o with
  | PAlloc req => pool_alloc addr req p
  | PFree ptr => pool_free ptr p
  | PPurge => pool_purge gpu p
  end.

(** A sequence of calls; each comes with the address the system allocator would return. *)
Inductive pool_end : Type := Running (p : pool) | EndTerminated | EndOutOfRange.

Fixpoint pool_run (gpu : bool) (ops : list (pool_op * Z)) (p : pool) : list pool_result * pool_end :=
  match ops with
  | [] => ([], Running p)
  | (o, addr) :: ops' =>
      match pool_step gpu addr o p with
      | POk p' r => let '(rs, e) := pool_run gpu ops' p' in (r :: rs, e)
      | Terminated => ([], EndTerminated)
      | OutOfRange => ([], EndOutOfRange)
      end
  end.
