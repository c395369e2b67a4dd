(** Model of the classes Reduction and ReductionVector.

    References: libraries/plumbing/reduction.h (rh), reductionvector.h (vh).
    Arithmetic is exact.  All ranks execute the same calls; the state of all ranks
    is kept in one record.  A non-blocking MPI operation computes its result from
    the buffers at its start; until MPI_Wait the buffers hold undefined values
    (any [junk]); touching them is the outcome [None] (undefined behaviour). *)
From Verif Require Import Common LayoutModel ReduceModel.

Section Reduction.
  Variable V : Type.
  Variables (add mul : V -> V -> V) (zero one : V).
  Variable lat : lattice.
  (** The order in which MPI combines the ranks. *)
  Variable tree : rtree.
  (** Contents of buffers during non-blocking communication. *)
  Variable junk : Z -> V.

  (** rh 18-31. *)
  Record red : Type := mkRed {
    val : Z -> V; comm : option (Z -> V); (* Some result: comm_is_on *)
    is_allreduce : bool; is_nonblocking : bool; is_delayed : bool; delay_is_on : bool }.

  (** rh 99-102 default constructor. *)
  Definition red_new : red := mkRed (fun _ => zero) None true false false false.

  (** rh 83-91 wait. *)
  Definition wait (s : red) : red :=
    match comm s with
    | None => s
    | Some res => mkRed res None (is_allreduce s) (is_nonblocking s) (is_delayed s) (delay_is_on s)
    end.

  (** Result of MPI_(All)reduce on the buffers [x]: all ranks, or rank 0 only. *)
  Definition mpi_result (op : V -> V -> V) (all : bool) (x : Z -> V) : Z -> V :=
    fun r => if all || (r =? 0) then combine_ranks op tree x else x r.

  (** rh 35-78 do_reduce_operation(MPI_SUM). *)
  Definition do_reduce (s : red) : red :=
    let s := wait s in
    let res := mpi_result add (is_allreduce s) (val s) in
    if is_nonblocking s then mkRed junk (Some res) (is_allreduce s) (is_nonblocking s) (is_delayed s) (delay_is_on s)
    else mkRed res None (is_allreduce s) (is_nonblocking s) (is_delayed s) (delay_is_on s).

  (** rh 164-178 operator= (and 106-113 the constructor with a value). *)
  Definition red_assign (v : V) (s : red) : red :=
    let s := wait s in
    mkRed (fun r => if r =? 0 then v else zero) None (is_allreduce s) (is_nonblocking s) (is_delayed s) (delay_is_on s).

  (** rh 184-188 operator+= outside of site loops. *)
  Definition red_plus (v : V) (s : red) : option red :=
    match comm s with
    | Some _ => None
    | None => Some (mkRed (fun r => add (val s r) v) None (is_allreduce s) (is_nonblocking s) (is_delayed s) (delay_is_on s))
    end.

  (** rh 205-224 reduce_sum_node; [v r] is the sum over the sites of rank r. *)
  Definition reduce_sum_node (v : Z -> V) (s : red) : red :=
    let s := wait s in
    let nv := fun r => if (r =? 0) || is_delayed s then add (val s r) (v r) else v r in
    let s1 := mkRed nv (comm s) (is_allreduce s) (is_nonblocking s) (is_delayed s) (delay_is_on s) in
    if is_delayed s then mkRed nv (comm s) (is_allreduce s) (is_nonblocking s) (is_delayed s) true
    else do_reduce s1.

  (** rh 252-262 start_reduce. *)
  Definition start_reduce (s : red) : red :=
    match comm s with
    | Some _ => s
    | None =>
        if delay_is_on s then do_reduce (mkRed (val s) (comm s) (is_allreduce s) (is_nonblocking s) (is_delayed s) false)
        else s
    end.

  (** rh 265-268 reduce. *)
  Definition reduce (s : red) : red := wait (start_reduce s).

  (** Calls of a program; [RLoop p g] is [onsites(p) red += g(X)]. *)
  Inductive rop : Type :=
  | RAssign (v : V)
  | RPlus (v : V)
  | RLoop (p : parity) (g : list Z -> V)
  | RStart
  | RReduce
  | RValue
  | RNonblocking (b : bool)
  | RAllreduce (b : bool)
  | RDelayed (b : bool).

  (** The site loop of rank r (generated code: temporary set to 0, loop, then
      reduce_sum_node; codegen.cpp 526-562). *)
  Definition loop_sum (p : parity) (g : list Z -> V) (r : Z) : V :=
    local_reduce add (nodeinfo lat r) p (fun i => g (coordinates (nodeinfo lat r) i)) zero.

  (** One call; the second component is the value returned on each rank (rh 151-154). *)
  Definition red_step (op : rop) (s : red) : option (red * option (Z -> V)) :=
    match op with
    | RAssign v => Some (red_assign v s, None)
    | RPlus v => match red_plus v s with Some s' => Some (s', None) | None => None end
    | RLoop p g => Some (reduce_sum_node (loop_sum p g) s, None)
    | RStart => Some (start_reduce s, None)
    | RReduce => Some (reduce s, None)
    | RValue => let s' := reduce s in Some (s', Some (val s'))
    | RNonblocking b => Some (mkRed (val s) (comm s) (is_allreduce s) b (is_delayed s) (delay_is_on s), None)
    | RAllreduce b => Some (mkRed (val s) (comm s) b (is_nonblocking s) (is_delayed s) (delay_is_on s), None)
    | RDelayed b => Some (mkRed (val s) (comm s) (is_allreduce s) (is_nonblocking s) b (delay_is_on s), None)
    end.

  Fixpoint red_run (ops : list rop) (s : red) : option (list (option (Z -> V))) :=
    match ops with
    | [] => Some []
    | op :: ops' =>
        match red_step op s with
        | None => None
        | Some (s', o) => match red_run ops' s' with Some os => Some (o :: os) | None => None end
        end
    end.

  (** ** ReductionVector *)
  (** vh 65-82: [vval r j] is element j on rank r. *)
  Record rvec : Type := mkRvec {
    vsize : nat; vval : Z -> nat -> V; vcomm : option (Z -> nat -> V);
    v_allreduce : bool; v_nonblocking : bool; v_delayed : bool; v_delay_on : bool; v_delayed_sum : bool }.

  Variable vjunk : Z -> nat -> V.
  (** order of combination of each element *)
  Variable vtree : nat -> rtree.

  (** vh 152 constructor with size. *)
  Definition rvec_new (n : nat) : rvec := mkRvec n (fun _ _ => zero) None true false false false true.

  (** vh 276-285 wait. *)
  Definition vwait (s : rvec) : rvec :=
    match vcomm s with
    | None => s
    | Some res => mkRvec (vsize s) res None (v_allreduce s) (v_nonblocking s) (v_delayed s) (v_delay_on s) (v_delayed_sum s)
    end.

  Definition set_vval (x : Z -> nat -> V) (s : rvec) : rvec :=
    mkRvec (vsize s) x (vcomm s) (v_allreduce s) (v_nonblocking s) (v_delayed s) (v_delay_on s) (v_delayed_sum s).

  (** vh 84-130 reduce_operation. *)
  Definition vreduce_operation (op : V -> V -> V) (s : rvec) : rvec :=
    let s := vwait s in
    let res := fun r j => if v_allreduce s || (r =? 0) then combine_ranks op (vtree j) (fun r => vval s r j) else vval s r j in
    if v_nonblocking s then
      mkRvec (vsize s) vjunk (Some res) (v_allreduce s) (v_nonblocking s) (v_delayed s) (v_delay_on s) (v_delayed_sum s)
    else mkRvec (vsize s) res None (v_allreduce s) (v_nonblocking s) (v_delayed s) (v_delay_on s) (v_delayed_sum s).

  (** vh 205-215 assignment to all elements: no wait. *)
  Definition vassign (v : V) (s : rvec) : option rvec :=
    match vcomm s with Some _ => None | None => Some (set_vval (fun _ _ => v) s) end.

  (** vh 219-234 init_sum, init_product: [e] is 0 or 1. *)
  Definition vinit (e : V) (s : rvec) : rvec :=
    let s := vwait s in
    set_vval (fun r => if negb (r =? 0) && negb (v_delay_on s) then (fun _ => e) else vval s r) s.

  (** Site loop of rank r: each site executes [a[j] op= x] for the pairs (j, x) of
      [g]; [None] for an index outside of the vector. *)
  Fixpoint vupdates (op : V -> V -> V) (n : nat) (us : list (nat * V)) (x : nat -> V) : option (nat -> V) :=
    match us with
    | [] => Some x
    | (j, y) :: us' => if (j <? n)%nat then vupdates op n us' (fun k => if Nat.eqb k j then op (x k) y else x k) else None
    end.

  Definition vloop_rank (op : V -> V -> V) (n : nat) (p : parity) (g : list Z -> list (nat * V)) (r : Z) (x : nat -> V) : option (nat -> V) :=
    vupdates op n (flat_map (fun i => g (coordinates (nodeinfo lat r) i)) (loop_indices (nodeinfo lat r) p)) x.

  (** All ranks; undefined if it is undefined on some rank. *)
  Fixpoint vloop_ranks (op : V -> V -> V) (n : nat) (p : parity) (g : list Z -> list (nat * V)) (rs : list Z) (x : Z -> nat -> V) : option (Z -> nat -> V) :=
    match rs with
    | [] => Some x
    | r :: rs' =>
        match vloop_rank op n p g r (x r) with
        | None => None
        | Some y => vloop_ranks op n p g rs' (zupd x r y)
        end
    end.

  (** vh 238-247 reduce_sum and 253-268 reduce_product ([asserts] fail: None). *)
  Definition vreduce (prod : bool) (s : rvec) : option rvec :=
    if v_delayed s then
      if v_delay_on s && Bool.eqb (v_delayed_sum s) prod then None
      else Some (mkRvec (vsize s) (vval s) (vcomm s) (v_allreduce s) (v_nonblocking s) (v_delayed s) true (v_delayed_sum s))
    else Some (vreduce_operation (if prod then mul else add) s).

  (** vh 288-297 start_reduce. *)
  Definition vstart (s : rvec) : rvec :=
    if v_delay_on s then
      vreduce_operation (if v_delayed_sum s then add else mul)
        (mkRvec (vsize s) (vval s) (vcomm s) (v_allreduce s) (v_nonblocking s) (v_delayed s) false (v_delayed_sum s))
    else s.

  Inductive vop : Type :=
  | VAssign (v : V)
  | VSet (j : nat) (v : V)   (* a[j] = v on all ranks *)
  | VLoop (prod : bool) (p : parity) (g : list Z -> list (nat * V))
  | VStart
  | VWait
  | VReduce
  | VRead (j : nat)          (* a[j] *)
  | VNonblocking (b : bool)
  | VAllreduce (b : bool)
  | VDelayed (b : bool).

  Definition vec_step (op : vop) (s : rvec) : option (rvec * option (Z -> V)) :=
    match op with
    | VAssign v => match vassign v s with Some s' => Some (s', None) | None => None end
    | VSet j v =>
        match vcomm s with
        | Some _ => None
        | None => if (j <? vsize s)%nat then Some (set_vval (fun r k => if Nat.eqb k j then v else vval s r k) s, None) else None
        end
    | VLoop prod p g =>
        let s1 := vinit (if prod then one else zero) s in
        match vloop_ranks (if prod then mul else add) (vsize s1) p g (zrange 0 (Z.to_nat (number_of_nodes lat))) (vval s1) with
        | None => None
        | Some x => match vreduce prod (set_vval x s1) with Some s2 => Some (s2, None) | None => None end
        end
    | VStart => Some (vstart s, None)
    | VWait => Some (vwait s, None)
    | VReduce => Some (vwait (vstart s), None)
    | VRead j =>
        match vcomm s with
        | Some _ => None
        | None => if (j <? vsize s)%nat then Some (s, Some (fun r => vval s r j)) else None
        end
    | VNonblocking b => Some (mkRvec (vsize s) (vval s) (vcomm s) (v_allreduce s) b (v_delayed s) (v_delay_on s) (v_delayed_sum s), None)
    | VAllreduce b => Some (mkRvec (vsize s) (vval s) (vcomm s) b (v_nonblocking s) (v_delayed s) (v_delay_on s) (v_delayed_sum s), None)
    | VDelayed b => Some (mkRvec (vsize s) (vval s) (vcomm s) (v_allreduce s) (v_nonblocking s) b (v_delay_on s) (v_delayed_sum s), None)
    end.

  Fixpoint vec_run (ops : list vop) (s : rvec) : option (list (option (Z -> V))) :=
    match ops with
    | [] => Some []
    | op :: ops' =>
        match vec_step op s with
        | None => None
        | Some (s', o) => match vec_run ops' s' with Some os => Some (o :: os) | None => None end
        end
    end.
End Reduction.
Arguments RAssign {V}. Arguments RPlus {V}. Arguments RLoop {V}. Arguments RStart {V}. Arguments RReduce {V}. Arguments RValue {V}.
Arguments RNonblocking {V}. Arguments RAllreduce {V}. Arguments RDelayed {V}.
Arguments VAssign {V}. Arguments VSet {V}. Arguments VLoop {V}. Arguments VStart {V}. Arguments VWait {V}. Arguments VReduce {V}.
Arguments VRead {V}. Arguments VNonblocking {V}. Arguments VAllreduce {V}. Arguments VDelayed {V}.
Arguments mkRed {V}. Arguments val {V}. Arguments comm {V}. Arguments is_allreduce {V}. Arguments is_nonblocking {V}.
Arguments is_delayed {V}. Arguments delay_is_on {V}. Arguments mkRvec {V}. Arguments vsize {V}. Arguments vval {V}. Arguments vcomm {V}.
Arguments v_allreduce {V}. Arguments v_nonblocking {V}. Arguments v_delayed {V}. Arguments v_delay_on {V}. Arguments v_delayed_sum {V}.
Arguments red_new {V}. Arguments red_run {V}. Arguments red_step {V}. Arguments rvec_new {V}. Arguments vec_run {V}. Arguments vec_step {V}.
