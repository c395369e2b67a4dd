(** Specification vocabulary for lattice blocking, independent of the code. *)
From Verif Require Import Common LayoutModel LayoutSpec BlockModel.

(** [bf] is a blocking factor for sizes [ls]: one positive factor per direction,
    dividing the size. *)
Definition blocking (ls bf : list Z) : Prop := Forall2 (fun L b => 0 < b /\ (b | L)) ls bf.

(** [b * X'], component by component: the parent site of blocked site [X']. *)
Fixpoint times (bf x : list Z) : list Z :=
  match bf, x with
  | b :: bf', y :: x' => b * y :: times bf' x'
  | _, _ => []
  end.

(** The blocked lattice: sizes [ls] with [l_size lat = bf * ls], on the same ranks
    in the same grid. *)
Definition blocked (lat : lattice) (bf : list Z) : lattice :=
  setup_blocked_lattice (element_div (l_size lat) bf) lat.

(** ** Nested blocking

    What the user expects: a lattice is identified by the chain of sizes from it
    up to the base lattice. Blocking pushes a size, unblocking pops one.  The
    second component lists the lattices made so far, in order of creation, so
    that a handle returned earlier can be switched to. *)
Definition chain : Type := list (list Z).
Record nest : Type := mkNest { known : list chain; cur : chain }.

Definition chain_eq_dec : forall a b : chain, {a = b} + {a <> b} :=
  list_eq_dec (list_eq_dec Z.eq_dec).

Definition push (s : nest) (siz : list Z) : nest :=
  let c := siz :: cur s in
  mkNest (if in_dec chain_eq_dec c (known s) then known s else known s ++ [c]) c.

Inductive nest_step : nest -> lat_op -> nest -> Prop :=
| N_block : forall s bf siz, blocking (hd [] (cur s)) bf -> times bf siz = hd [] (cur s) ->
    length siz = length bf -> nest_step s (Block bf) (push s siz)
| N_block_by : forall s k siz, k <> 0 -> k <> 1 ->
    blocking (hd [] (cur s)) (repeat k (length (hd [] (cur s)))) ->
    times (repeat k (length siz)) siz = hd [] (cur s) ->
    nest_step s (BlockBy k) (push s siz)
| N_block_none : forall s k, k = 0 \/ k = 1 -> nest_step s (BlockBy k) s
| N_unblock : forall s x c, cur s = x :: c -> c <> [] -> nest_step s Unblock (mkNest (known s) c)
| N_base : forall s c, nth_error (known s) 0 = Some c -> nest_step s SwitchBase (mkNest (known s) c)
| N_switch : forall s i c, nth_error (known s) i = Some c ->
    nest_step s (Switch i) (mkNest (known s) c).

(** The restriction: at the end no two different lattices made so far have the
    same size. *)
Definition sizes_differ (s : nest) : Prop :=
  forall a b, In a (known s) -> In b (known s) -> hd [] a = hd [] b -> a = b.

(** A sequence of operations in which that holds at every point. *)
Inductive nest_run : nest -> list lat_op -> nest -> Prop :=
| NR_nil : forall s, nest_run s [] s
| NR_cons : forall s op s' ops s'', nest_step s op s' -> sizes_differ s' ->
    nest_run s' ops s'' -> nest_run s (op :: ops) s''.

Definition nest_init (ls : list Z) : nest := mkNest [[ls]] [ls].

(** The chain of sizes from lattice [i] to the base, as the program sees it by
    calling [unblock] repeatedly ([n] bounds the number of calls). *)
Fixpoint chain_of (n : nat) (l : list lat_entry) (i : nat) : option chain :=
  match n, nth_error l i with
  | _, None => None
  | O, _ => None
  | S k, Some e =>
      match e_parent e with
      | None => Some [l_size (e_lat e)]
      | Some p => match chain_of k l p with
                  | None => None
                  | Some c => Some (l_size (e_lat e) :: c)
                  end
      end
  end.
