(** Model of reductions in site loops: the code generated for reduction variables
    and the combined messages of hila_reduce_sums.

    References: hilapp/src/codegen.cpp (cg), libraries/plumbing/com_mpi.cpp (mc),
    com_mpi.h (mh).  All arithmetic types are one type [V] of words with exact
    operations; rounding is not modelled. *)
From Verif Require Import Common LayoutModel.

(** Order in which MPI combines the contributions of the ranks: any binary tree. *)
Inductive rtree : Type :=
| RLeaf (r : Z)
| RNode (a b : rtree).

Fixpoint leaves (t : rtree) : list Z :=
  match t with
  | RLeaf r => [r]
  | RNode a b => leaves a ++ leaves b
  end.

Fixpoint combine_ranks {V : Type} (op : V -> V -> V) (t : rtree) (f : Z -> V) : V :=
  match t with
  | RLeaf r => f r
  | RNode a b => op (combine_ranks op a f) (combine_ranks op b f)
  end.

(** The site loop of one rank accumulating in [acc] (codegen_cpu.cpp 14-375: for
    each index of the parity, one after another). *)
Definition local_reduce {V : Type} (op : V -> V -> V) (ni : node_info) (p : parity) (g : Z -> V) (acc : V) : V :=
  fold_left (fun a i => op a (g i)) (loop_indices ni p) acc.

(** Arithmetic base type of a reduction variable; it selects the buffer (mh 444-459). *)
Inductive rkind : Type := KDouble | KFloat | KOther.

Section Reduce.
  Variable V : Type.
  Variables (add mul : V -> V -> V) (zero one : V).

  (** One entry of reduction_list: the name (number) of the variable, sum or
      product, its number of words and the value added at local site i of rank r. *)
  Record rvar : Type := mkRvar {
    rv_name : Z; rv_kind : rkind; rv_prod : bool; rv_words : nat;
    rv_g : Z -> Z -> nat -> V }.

  (** Contents of all variables with a name: name, rank, word. *)
  Definition vmem : Type := Z -> Z -> nat -> V.

  Definition set_name (m : vmem) (k : Z) (x : Z -> nat -> V) : vmem := zupd m k x.

  (** The words of a variable; outside of the variable nothing is written. *)
  Definition words (n : nat) (new old : nat -> V) : nat -> V := fun j => if (j <? n)%nat then new j else old j.

  Definition rv_op (v : rvar) : V -> V -> V := if rv_prod v then mul else add.
  Definition rv_unit (v : rvar) : V := if rv_prod v then one else zero.

  (** cg 526-535: declaration and initial value of the temporaries. *)
  Definition reduction_init (vs : list rvar) (tmp : vmem) : vmem :=
    fold_left (fun m v => set_name m (rv_name v) (fun r => words (rv_words v) (fun _ => rv_unit v) (m (rv_name v) r))) vs tmp.

  (** Loop body of rank r at local site i: temporary op= expression, for every
      reduction variable. *)
  Definition loop_body (vs : list rvar) (r i : Z) (m : Z -> nat -> V) : Z -> nat -> V :=
    fold_left (fun m v => zupd m (rv_name v)
      (words (rv_words v) (fun j => rv_op v (m (rv_name v) j) (rv_g v r i j)) (m (rv_name v)))) vs m.

  Definition site_loop (lat : lattice) (p : parity) (vs : list rvar) (tmp : vmem) : vmem :=
    fun k r => fold_left (fun m i => loop_body vs r i m) (loop_indices (nodeinfo lat r) p) (fun k => tmp k r) k.

  (** [T k j]: order of the combination of word j of variable k.  *)
  Variable T : Z -> nat -> rtree.

  (** MPI_Allreduce / MPI_Reduce followed by the copy back: all ranks or rank 0 only
      get the result (mh 350-376, mh 393-419). *)
  Definition reduce_words (op : V -> V -> V) (all : bool) (k : Z) (n : nat) (x : Z -> nat -> V) : Z -> nat -> V :=
    fun r => if all || (r =? 0) then words n (fun j => combine_ranks op (T k j) (fun r => x r j)) (x r) else x r.

  (** cg 564-572: products: on rank 0 the old value is multiplied in; one word
      ("so far only for int, float, dbl"). *)
  Definition product_result (v : rvar) (s : vmem * vmem) : vmem * vmem :=
    let '(var, tmp) := s in
    if rv_prod v then
      let k := rv_name v in
      let x := fun r : Z => if r =? 0 then words (rv_words v) (fun j => mul (tmp k r j) (var k r j)) (tmp k r) else tmp k r in
      let y := reduce_words mul true k (rv_words v) x in
      (set_name var k (fun r => words (rv_words v) (y r) (var k r)), set_name tmp k y)
    else s.

  (** cg 581-592: [if (myrank == 0) { tmp += var; ... }]. *)
  Definition add_old (v : rvar) (s : vmem * vmem) : vmem * vmem :=
    let '(var, tmp) := s in
    if rv_prod v then s
    else
      let k := rv_name v in
      (var, set_name tmp k (fun r => if r =? 0 then words (rv_words v) (fun j => add (tmp k r j) (var k r j)) (tmp k r) else tmp k r)).

  (** mc 30-55: a reduction buffer: allocated size, the values of every rank, the
      pointers (variable, word) and the number of entries in use. *)
  Record rbuf : Type := mkRbuf { b_size : Z; b_val : Z -> Z -> V; b_ptr : Z -> Z * nat; b_n : Z }.

  (** Copy one word to entry [at]; [None] if that is outside of the buffer. *)
  Definition buf_put (x : Z -> nat -> V) (k : Z) (j : nat) (at_ : Z) (b : rbuf) : option rbuf :=
    if (0 <=? at_) && (at_ <? b_size b) then
      Some (mkRbuf (b_size b) (fun r => zupd (b_val b r) at_ (x r j)) (zupd (b_ptr b) at_ (k, j)) (b_n b))
    else None.

  Fixpoint buf_fill (x : Z -> nat -> V) (k : Z) (js : list nat) (b : rbuf) : option rbuf :=
    match js with
    | [] => Some b
    | j :: js' => match buf_put x k j (b_n b + Z.of_nat j) b with Some b' => buf_fill x k js' b' | None => None end
    end.

  (** mc 60-90 hila_reduce_double_setup, hila_reduce_float_setup. *)
  Definition buf_setup (x : Z -> nat -> V) (k : Z) (n : nat) (b : rbuf) : option rbuf :=
    let need := Z.of_nat n + b_n b in
    let b1 := mkRbuf (if b_size b <? need then need + 2 else b_size b) (b_val b) (b_ptr b) (b_n b) in
    match buf_fill x k (seq 0 n) b1 with
    | Some b2 => Some (mkRbuf (b_size b2) (b_val b2) (b_ptr b2) (b_n b2 + Z.of_nat n))
    | None => None
    end.

  (** State of the reduction system: both buffers and the temporaries. *)
  Definition rsys : Type := rbuf * rbuf * vmem.

  (** mh 444-459 hila_reduce_sum_setup. *)
  Definition sum_setup (all : bool) (v : rvar) (s : rsys) : option rsys :=
    let '(bd, bf, tmp) := s in
    if rv_prod v then Some s
    else
      match rv_kind v with
      | KDouble => match buf_setup (tmp (rv_name v)) (rv_name v) (rv_words v) bd with Some b => Some (b, bf, tmp) | None => None end
      | KFloat => match buf_setup (tmp (rv_name v)) (rv_name v) (rv_words v) bf with Some b => Some (bd, b, tmp) | None => None end
      | KOther => Some (bd, bf, set_name tmp (rv_name v) (reduce_words add all (rv_name v) (rv_words v) (tmp (rv_name v))))
      end.

  Fixpoint sum_setups (all : bool) (vs : list rvar) (s : rsys) : option rsys :=
    match vs with
    | [] => Some s
    | v :: vs' => match sum_setup all v s with Some s' => sum_setups all vs' s' | None => None end
    end.

  (** mc 92-142 hila_reduce_sums for one buffer: the entries are combined and written
      through the pointers. *)
  Definition buf_reduce (all : bool) (b : rbuf) (tmp : vmem) : rbuf * vmem :=
    (mkRbuf (b_size b) (b_val b) (b_ptr b) 0,
     fold_left (fun m i => let '(k, j) := b_ptr b i in
       set_name m k (fun r => if all || (r =? 0) then
           (fun j' => if Nat.eqb j' j then combine_ranks add (T k j) (fun r => b_val b r i) else m k r j') else m k r))
       (zrange 0 (Z.to_nat (b_n b))) tmp).

  (** cg 600-606: [var = tmp]. *)
  Definition copy_result (v : rvar) (tmp var : vmem) : vmem :=
    if rv_prod v then var else set_name var (rv_name v) (fun r => words (rv_words v) (tmp (rv_name v) r) (var (rv_name v) r)).

  (** cg 129-213, 526-612: a whole loop with the reduction variables [vs];
      [all] is the allreduce flag, which is set to true at the end. *)
  Definition reduction_loop (lat : lattice) (p : parity) (vs : list rvar) (all : bool) (bd bf : rbuf) (var tmp : vmem) :
    option (vmem * rbuf * rbuf * bool) :=
    let tmp1 := site_loop lat p vs (reduction_init vs tmp) in
    let '(var2, tmp2) := fold_left (fun s v => product_result v s) vs (var, tmp1) in
    let '(var3, tmp3) := fold_left (fun s v => add_old v s) vs (var2, tmp2) in
    match sum_setups all vs (bd, bf, tmp3) with
    | None => None
    | Some (bd4, bf4, tmp4) =>
        let '(bd5, tmp5) := buf_reduce all bd4 tmp4 in
        let '(bf5, tmp6) := buf_reduce all bf4 tmp5 in
        Some (fold_left (fun m v => copy_result v tmp6 m) vs var3, bd5, bf5, true)
    end.
End Reduce.
Arguments mkRvar {V}. Arguments rv_name {V}. Arguments rv_kind {V}. Arguments rv_prod {V}. Arguments rv_words {V}.
Arguments rv_g {V}. Arguments mkRbuf {V}. Arguments b_size {V}. Arguments b_val {V}. Arguments b_ptr {V}. Arguments b_n {V}.
Arguments reduction_loop {V}.
