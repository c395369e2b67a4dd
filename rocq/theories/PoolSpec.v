(** Specification of the memory pool: what its user and the system see. *)
From Verif Require Import Common PoolModel.

(** The user's live allocations (pointer, size asked for) and the memory currently
    taken from the system (address, size). *)
Record view : Type := mkView { v_live : list (Z * Z); v_held : list (Z * Z) }.
Definition view_new : view := mkView [] [].

(** Memory regions [a, a + s). *)
Definition disjoint (x y : Z * Z) : Prop := fst x + snd x <= fst y \/ fst y + snd y <= fst x.

(** In use: some live allocation starts at its address. *)
Definition used_region (v : view) (x : Z * Z) : bool := existsb (fun l => fst l =? fst x) (v_live v).

(** How a call and its result change the view. *)
Definition after (v : view) (o : pool_op) (r : pool_result) : view :=
  match o, r with
  | PAlloc req, Returned ptr None => mkView (v_live v ++ [(ptr, req)]) (v_held v)
  | PAlloc req, Returned ptr (Some n) => mkView (v_live v ++ [(ptr, req)]) (v_held v ++ [(ptr, n)])
  | PFree ptr, _ => mkView (filter (fun l => negb (fst l =? ptr)) (v_live v)) (v_held v)
  | PPurge, Purged rel => mkView (v_live v) (filter (fun x => negb (existsb (Z.eqb (fst x)) rel)) (v_held v))
  | _, _ => v
  end.

(** A free region that may serve a request: the smallest request is 128 bytes, and a
    block is used if its size is right or less than twice the request. *)
Definition suitable (v : view) (req : Z) (x : Z * Z) : Prop :=
  In x (v_held v) /\ used_region v x = false /\
  let n := Z.max req 128 in snd x = n \/ n < snd x < 2 * n.

(** What the result of a call must be. *)
Definition right (v : view) (o : pool_op) (r : pool_result) : Prop :=
  match o, r with
  | PAlloc req, Returned ptr sys =>
      (* disjoint from every live allocation *)
      (forall l, In l (v_live v) -> disjoint l (ptr, req) /\ fst l <> ptr) /\
      (* inside of memory taken from the system *)
      (exists n, req <= n /\ In (ptr, n) (v_held (after v o r))) /\
      match sys with
      | None => (* a free region, none of the suitable ones is a better fit *)
          exists n, suitable v req (ptr, n) /\ forall x, suitable v req x -> n <= snd x
      | Some n => (* nothing suitable was free *)
          n = Z.max req 128 /\ forall x, ~ suitable v req x
      end
  | PFree ptr, Freed => In ptr (map fst (v_live v))
  | PPurge, Purged rel => (* exactly the unused regions go back *)
      forall x, In x (v_held v) -> (In (fst x) rel <-> used_region v x = false)
  | _, _ => False
  end.

(** The results are right one after the other. *)
Fixpoint all_right (v : view) (ops : list (pool_op * Z)) (rs : list pool_result) : Prop :=
  match ops, rs with
  | (o, addr) :: ops', r :: rs' =>
      right v o r /\ all_right (after v o r) ops' rs'
  | _, [] => True
  | [], _ :: _ => False
  end.

(** The view after a number of calls. *)
Fixpoint view_after (v : view) (ops : list (pool_op * Z)) (rs : list pool_result) : view :=
  match ops, rs with
  | (o, _) :: ops', r :: rs' => view_after (after v o r) ops' rs'
  | _, _ => v
  end.

(** The system allocator does its job during a run: what it returns is disjoint from all
    it has given out and not got back. *)
Fixpoint system_ok (v : view) (ops : list (pool_op * Z)) (rs : list pool_result) : Prop :=
  match ops, rs with
  | (o, _) :: ops', r :: rs' =>
      (forall ptr n, r = Returned ptr (Some n) -> Forall (fun x => disjoint x (ptr, n)) (v_held v)) /\
      system_ok (after v o r) ops' rs'
  | _, _ => True
  end.
