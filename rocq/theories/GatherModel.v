(** Model of the lazy halo gather: per-field, per-direction, per-parity gather
    status, MPI requests and messages, with every rank running the same program
    at its own pace (asynchronous interleaving semantics). *)
From Verif Require Import Common LayoutModel.

(** field.h 75, 98: [gather_status_t]. *)
Inductive gstat : Type := NOT_DONE | STARTED | DONE.

Definition gstat_eqb (a b : gstat) : bool :=
  match a, b with NOT_DONE, NOT_DONE | STARTED, STARTED | DONE, DONE => true | _, _ => false end.

Definition parity_eqb (a b : parity) : bool :=
  match a, b with EVEN, EVEN | ODD, ODD | ALL, ALL => true | _, _ => false end.

(** coordinates.h 235-238: [opp_parity]. *)
Definition opp_parity (p : parity) : parity :=
  match p with EVEN => ODD | ODD => EVEN | ALL => ALL end.

(** ** Status functions of one field and direction; [st] gives the status per
    parity. *)

(** field.h 669-678: [is_gathered]. *)
Definition is_gathered (st : parity -> gstat) (p : parity) : bool :=
  match p with
  | ALL => gstat_eqb (st ALL) DONE || (gstat_eqb (st EVEN) DONE && gstat_eqb (st ODD) DONE)
  | _ => gstat_eqb (st p) DONE || gstat_eqb (st ALL) DONE
  end.

(** field.h 697-699, 701-703. *)
Definition is_gather_started (st : parity -> gstat) (p : parity) : bool := gstat_eqb (st p) STARTED.
Definition gather_not_done (st : parity -> gstat) (p : parity) : bool := gstat_eqb (st p) NOT_DONE.

Definition set_stat (st : parity -> gstat) (p : parity) (v : gstat) : parity -> gstat :=
  fun q => if parity_eqb q p then v else st q.

(** field_comm.h 387-429: [check_communication].  [CDone]: nothing to wait for;
    [CLocal]: no communication partner, mark gathered; [CStarted]: already
    running; [CDo q]: communicate parity [q]. [noncomm] is the test
    [from_node.rank == myrank && to_node.rank == myrank]. *)
Inductive check_result : Type := CDone | CLocal | CStarted | CDo (q : parity).

Definition check_communication (noncomm : bool) (st : parity -> gstat) (p : parity) : check_result :=
  if is_gathered st p then CDone
  else if noncomm then CLocal
  else if negb (gather_not_done st p) || negb (gather_not_done st ALL) then CStarted
  else match p with
       | ALL =>
           if negb (gather_not_done st EVEN) && negb (gather_not_done st ODD) then CStarted
           else if negb (gather_not_done st EVEN) then CDo ODD
           else if negb (gather_not_done st ODD) then CDo EVEN
           else CDo ALL
       | _ => CDo p
       end.

(** field_comm.h 594-622: [resolve_started_parity]: the parities to wait for in
    order; [None] is the [exit(1)]. *)
Definition resolve_started_parity (st : parity -> gstat) (p : parity) : option (list parity) :=
  let notall := negb (parity_eqb p ALL) in
  if notall && is_gather_started st p && is_gather_started st ALL then Some [ALL]
  else if is_gather_started st p then Some [p]
  else if notall then
    if is_gather_started st ALL then Some [ALL] else None
  else if is_gathered st EVEN && is_gather_started st ODD then Some [ODD]
  else if is_gathered st ODD && is_gather_started st EVEN then Some [EVEN]
  else if is_gather_started st EVEN && is_gather_started st ODD then Some [EVEN; ODD]
  else None.

(** field.h 590-596: the status updates of [mark_changed] for one direction. *)
Definition changed_stat (st : parity -> gstat) (p : parity) : parity -> gstat :=
  let st1 := set_stat st (opp_parity p) NOT_DONE in
  match p with
  | ALL => set_stat (set_stat st1 EVEN NOT_DONE) ODD NOT_DONE
  | _ => set_stat st1 ALL NOT_DONE
  end.

(** com_mpi.cpp 311-323: [get_next_msg_tag]: 101..500, then 100 and so on. *)
Definition next_tag (t : Z) : Z := if 500 <? t + 1 then 100 else t + 1.

(** ** Rank state *)

(** A request object: never posted (or already waited for), pending with the
    peer, the tag and the number of earlier posts with the same peer and tag
    (MPI matches the n-th receive with the n-th send of one envelope), or
    completed. *)
Inductive request : Type := NoReq | Pending (peer tag : Z) (n : nat) | Complete.

Inductive outcome (A : Type) : Type :=
  | Next (a : A)
  | Blocked            (* an MPI_Wait on a request that is not complete *)
  | Exited             (* exit(1) *)
  | Undefined.         (* MPI_Wait on a request object that was never set *)
Arguments Next {A}. Arguments Blocked {A}. Arguments Exited {A}. Arguments Undefined {A}.

Definition obind {A B} (o : outcome A) (f : A -> outcome B) : outcome B :=
  match o with Next a => f a | Blocked => Blocked | Exited => Exited | Undefined => Undefined end.

(** Keys: field, direction, parity. *)
Definition fdp : Type := Z * Z * parity.
Definition fdp_eqb (a b : fdp) : bool :=
  let '(f, d, p) := a in let '(f', d', p') := b in (f =? f') && (d =? d') && parity_eqb p p'.
Definition kupd {A} (m : fdp -> A) (k : fdp) (v : A) : fdp -> A :=
  fun k' => if fdp_eqb k' k then v else m k'.
Definition zupd2 {A} (m : Z -> Z -> A) (a b : Z) (v : A) : Z -> Z -> A :=
  fun x y => if (x =? a) && (y =? b) then v else m x y.

Section Machine.
  Variable V : Type.
  Variable lat : lattice.

  (** Operations of one rank's thread. *)
  Inductive mop : Type :=
    | MWrite (f : Z) (p : parity) (w : list Z -> V)  (* a site loop assigns w(X) to f[X] *)
    | MChanged (f d : Z) (p : parity)                (* mark_changed, iteration of direction d *)
    | MStart (f d : Z) (p : parity)                  (* start_gather(d,p) *)
    | MWait (f d : Z) (p : parity)                   (* wait_gather(d,p) *)
    | MDrop (f d : Z) (p : parity)                   (* drop_comms(d,p) *)
    | MLook (f d : Z) (p : parity).                  (* site loop on p reads f[X+d] *)

  Record rank_state : Type := mkRS {
    rs_pc : nat;
    rs_mem : Z -> Z -> V;              (* field, index: the field array with its halo *)
    rs_stat : Z -> Z -> parity -> gstat;   (* field, direction, parity *)
    rs_rreq : fdp -> request;
    rs_sreq : fdp -> request;
    rs_sbuf : Z -> Z -> Z -> V;        (* field, direction, index: send buffer *)
    rs_tag : Z;
    rs_nsend : Z -> Z -> nat;          (* sends posted so far to (peer, tag) *)
    rs_nrecv : Z -> Z -> nat;          (* receives posted so far from (peer, tag) *)
    rs_log : list (list V)             (* values delivered to site loops, latest first *)
  }.

  Definition set_pc (s : rank_state) (x : nat) := mkRS x (rs_mem s) (rs_stat s) (rs_rreq s) (rs_sreq s) (rs_sbuf s) (rs_tag s) (rs_nsend s) (rs_nrecv s) (rs_log s).
  Definition set_mem (s : rank_state) x := mkRS (rs_pc s) x (rs_stat s) (rs_rreq s) (rs_sreq s) (rs_sbuf s) (rs_tag s) (rs_nsend s) (rs_nrecv s) (rs_log s).
  Definition set_rstat (s : rank_state) x := mkRS (rs_pc s) (rs_mem s) x (rs_rreq s) (rs_sreq s) (rs_sbuf s) (rs_tag s) (rs_nsend s) (rs_nrecv s) (rs_log s).
  Definition set_rreq (s : rank_state) x := mkRS (rs_pc s) (rs_mem s) (rs_stat s) x (rs_sreq s) (rs_sbuf s) (rs_tag s) (rs_nsend s) (rs_nrecv s) (rs_log s).
  Definition set_sreq (s : rank_state) x := mkRS (rs_pc s) (rs_mem s) (rs_stat s) (rs_rreq s) x (rs_sbuf s) (rs_tag s) (rs_nsend s) (rs_nrecv s) (rs_log s).
  Definition set_sbuf (s : rank_state) x := mkRS (rs_pc s) (rs_mem s) (rs_stat s) (rs_rreq s) (rs_sreq s) x (rs_tag s) (rs_nsend s) (rs_nrecv s) (rs_log s).
  Definition set_tag (s : rank_state) x := mkRS (rs_pc s) (rs_mem s) (rs_stat s) (rs_rreq s) (rs_sreq s) (rs_sbuf s) x (rs_nsend s) (rs_nrecv s) (rs_log s).
  Definition set_nsend (s : rank_state) x := mkRS (rs_pc s) (rs_mem s) (rs_stat s) (rs_rreq s) (rs_sreq s) (rs_sbuf s) (rs_tag s) x (rs_nrecv s) (rs_log s).
  Definition set_nrecv (s : rank_state) x := mkRS (rs_pc s) (rs_mem s) (rs_stat s) (rs_rreq s) (rs_sreq s) (rs_sbuf s) (rs_tag s) (rs_nsend s) x (rs_log s).
  Definition add_log (s : rank_state) x := mkRS (rs_pc s) (rs_mem s) (rs_stat s) (rs_rreq s) (rs_sreq s) (rs_sbuf s) (rs_tag s) (rs_nsend s) (rs_nrecv s) (x :: rs_log s).

  (** set_gather_status for field [f], direction [d]. *)
  Definition put_stat (s : rank_state) (f d : Z) (st : parity -> gstat) : rank_state :=
    set_rstat s (zupd2 (rs_stat s) f d st).

  Definition noncomm (r d : Z) : bool :=
    (cn_rank (from_node lat r d) =? r) && (cn_rank (to_node lat r d) =? r).

  (** field_comm.h 530-550: posting the receive. *)
  Definition post_receive (r f d : Z) (q : parity) (tag : Z) (s : rank_state) : rank_state :=
    let fn := from_node lat r d in
    if cn_rank fn =? r then s
    else set_nrecv
           (set_rreq s (kupd (rs_rreq s) (f, d, q) (Pending (cn_rank fn) tag (rs_nrecv s (cn_rank fn) tag))))
           (zupd2 (rs_nrecv s) (cn_rank fn) tag (S (rs_nrecv s (cn_rank fn) tag))).

  (** field_comm.h 552-590: packing the boundary sites into the send buffer of
      the direction, at the offset of the parity, and posting the send. *)
  Definition post_send (r f d : Z) (q : parity) (tag : Z) (s : rank_state) : rank_state :=
    let tn := to_node lat r d in
    if cn_rank tn =? r then s
    else
      let s1 := set_sbuf s (zupd2 (rs_sbuf s) f d
                  (store_list (rs_sbuf s f d) (cn_offset tn q) (pack lat r d q (rs_mem s f)))) in
      set_nsend
        (set_sreq s1 (kupd (rs_sreq s1) (f, d, q) (Pending (cn_rank tn) tag (rs_nsend s1 (cn_rank tn) tag))))
        (zupd2 (rs_nsend s1) (cn_rank tn) tag (S (rs_nsend s1 (cn_rank tn) tag))).

  (** field_comm.h 487-591: [start_communication] ([start_gather]).  On the CPU
      backend with periodic boundaries [set_local_boundary_elements] does
      nothing (backend_cpu/field_storage_backend.h 86-112). *)
  Definition start_gather (r f d : Z) (p : parity) (s0 : rank_state) : rank_state :=
    let tag := next_tag (rs_tag s0) in
    let s := set_tag s0 tag in
    match check_communication (noncomm r d) (rs_stat s f d) p with
    | CDone => s
    | CLocal => put_stat s f d (set_stat (rs_stat s f d) p DONE)
    | CStarted => s
    | CDo q =>
        post_send r f d q tag (post_receive r f d q tag
          (put_stat s f d (set_stat (rs_stat s f d) q STARTED)))
    end.

  (** MPI_Wait. *)
  Definition mpi_wait (rq : request) : outcome unit :=
    match rq with NoReq => Undefined | Pending _ _ _ => Blocked | Complete => Next tt end.

  (** field_comm.h 660-694: one pass of the wait loop: wait for the receive,
      wait for the send, mark gathered. *)
  Definition wait_one (r f d : Z) (q : parity) (s : rank_state) : outcome rank_state :=
    obind (if cn_rank (from_node lat r d) =? r then Next s
           else obind (mpi_wait (rs_rreq s (f, d, q))) (fun _ => Next (set_rreq s (kupd (rs_rreq s) (f, d, q) NoReq))))
    (fun s1 =>
    obind (if cn_rank (to_node lat r d) =? r then Next s1
           else obind (mpi_wait (rs_sreq s1 (f, d, q))) (fun _ => Next (set_sreq s1 (kupd (rs_sreq s1) (f, d, q) NoReq))))
    (fun s2 => Next (put_stat s2 f d (set_stat (rs_stat s2 f d) q DONE)))).

  Fixpoint wait_all (r f d : Z) (qs : list parity) (s : rank_state) : outcome rank_state :=
    match qs with
    | [] => Next s
    | q :: qs' => obind (wait_one r f d q s) (wait_all r f d qs')
    end.

  (** field_comm.h 631-695: [wait_gather]. *)
  Definition wait_gather (r f d : Z) (p : parity) (s : rank_state) : outcome rank_state :=
    if is_gathered (rs_stat s f d) p then Next s
    else if noncomm r d then Next s
    else match resolve_started_parity (rs_stat s f d) p with
         | None => Exited
         | Some qs => wait_all r f d qs s
         end.

  Definition wait_if_started (r f d : Z) (p : parity) (s : rank_state) : outcome rank_state :=
    if is_gather_started (rs_stat s f d) p then wait_gather r f d p s else Next s.

  (** field.h 2247-2275: [drop_comms]. *)
  Definition drop_comms (r f d : Z) (p : parity) (s : rank_state) : outcome rank_state :=
    obind (wait_if_started r f d ALL s) (fun s1 =>
      match p with
      | ALL => obind (wait_if_started r f d EVEN s1) (wait_if_started r f d ODD)
      | _ => wait_if_started r f d p s1
      end).

  (** The loop body assigning [w] on the sites of parity [p] of this rank. *)
  Definition write_sites (r : Z) (p : parity) (w : list Z -> V) (mem : Z -> V) : Z -> V :=
    fold_left (fun m i => zupd m i (w (coordinates (nodeinfo lat r) i))) (loop_indices (nodeinfo lat r) p) mem.

  Definition exec_mop (r : Z) (o : mop) (s : rank_state) : outcome rank_state :=
    match o with
    | MWrite f p w => Next (set_mem s (zupd (rs_mem s) f (write_sites r p w (rs_mem s f))))
    | MChanged f d p =>
        obind (drop_comms r f d (opp_parity p) s)
              (fun s1 => Next (put_stat s1 f d (changed_stat (rs_stat s1 f d) p)))
    | MStart f d p => Next (start_gather r f d p s)
    | MWait f d p => wait_gather r f d p s
    | MDrop f d p => drop_comms r f d p s
    | MLook f d p => Next (add_log s (map (fun i => rs_mem s f (neighb lat r d i)) (loop_indices (nodeinfo lat r) p)))
    end.

  (** ** The network and the whole system *)

  Inductive message : Type := Absent | InFlight (payload : list V) | Received.

  Record system : Type := mkSys {
    sys_rank : Z -> rank_state;
    sys_net : Z -> Z -> Z -> nat -> message   (* source, destination, tag, n-th of that envelope *)
  }.

  Definition set_rank (g : system) (r : Z) (s : rank_state) : system :=
    mkSys (zupd (sys_rank g) r s) (sys_net g).
  Definition set_net (g : system) (s r t : Z) (n : nat) (m : message) : system :=
    mkSys (sys_rank g)
      (fun s' r' t' n' => if (s' =? s) && (r' =? r) && (t' =? t) && Nat.eqb n' n then m else sys_net g s' r' t' n').

  (** Transitions: a rank executes its next operation; the transport takes a
      message out of a rank's send buffer (completing the send request); the
      transport delivers a message into the posted receive buffer. *)
  Inductive label : Type :=
    | Exec (r : Z)
    | Transmit (r : Z) (k : fdp)
    | Deliver (r : Z) (k : fdp).

  (** Reading [n] consecutive send buffer entries. *)
  Definition read_list (mem : Z -> V) (at_ n : Z) : list V := map mem (zrange at_ (Z.to_nat n)).

  Variable prog : list mop.

  Definition step (g : system) (l : label) : option system :=
    match l with
    | Exec r =>
        let s := sys_rank g r in
        match nth_error prog (rs_pc s) with
        | None => None
        | Some o =>
            match exec_mop r o s with
            | Next s' => Some (set_rank g r (set_pc s' (S (rs_pc s))))
            | _ => None
            end
        end
    | Transmit r (f, d, q) =>
        let s := sys_rank g r in
        match rs_sreq s (f, d, q) with
        | Pending peer t n =>
            let tn := to_node lat r d in
            Some (set_net (set_rank g r (set_sreq s (kupd (rs_sreq s) (f, d, q) Complete)))
                    r peer t n (InFlight (read_list (rs_sbuf s f d) (cn_offset tn q) (n_sites tn q))))
        | _ => None
        end
    | Deliver r (f, d, q) =>
        let s := sys_rank g r in
        match rs_rreq s (f, d, q) with
        | Pending peer t n =>
            match sys_net g peer r t n with
            | InFlight pl =>
                let fn := from_node lat r d in
                Some (set_net (set_rank g r
                        (set_rreq (set_mem s (zupd (rs_mem s) f (store_list (rs_mem s f) (cn_offset fn q) pl)))
                           (kupd (rs_rreq s) (f, d, q) Complete)))
                        peer r t n Received)
            | _ => None
            end
        | _ => None
        end
    end.

  Inductive reachable (g0 : system) : system -> Prop :=
    | reach_init : reachable g0 g0
    | reach_step : forall g l g', 0 <= match l with Exec r => r | Transmit r _ => r | Deliver r _ => r end < number_of_nodes lat ->
        reachable g0 g -> step g l = Some g' -> reachable g0 g'.

  (** Start: fields allocated, nothing gathered or posted, arbitrary contents. *)
  Definition init_rank (mem : Z -> Z -> V) (sb : Z -> Z -> Z -> V) : rank_state :=
    mkRS 0 mem (fun _ _ _ => NOT_DONE) (fun _ => NoReq) (fun _ => NoReq) sb 100
         (fun _ _ => O) (fun _ _ => O) [].
  Definition init_system (mem : Z -> Z -> Z -> V) (sb : Z -> Z -> Z -> Z -> V) : system :=
    mkSys (fun r => init_rank (mem r) (sb r)) (fun _ _ _ _ => Absent).
End Machine.

(** ** Programs at the level of the user *)
Inductive api_op (V : Type) : Type :=
  | OWrite (f : Z) (p : parity) (w : list Z -> V)   (* onsites(p) f[X] = w(X); *)
  | OStart (f d : Z) (p : parity)                   (* f.start_gather(d,p); *)
  | OWait (f d : Z) (p : parity)                    (* f.wait_gather(d,p); *)
  | OGather (f d : Z) (p : parity)                  (* f.gather(d,p); *)
  | ORead (f : Z) (ds : list Z) (p : parity)        (* onsites(p) ... f[X+d] ... for each d in ds *)
  | OFree (f : Z).                                  (* the field is destroyed or cleared *)
Arguments OWrite {V}. Arguments OStart {V}. Arguments OWait {V}. Arguments OGather {V}.
Arguments ORead {V}. Arguments OFree {V}.
Arguments MWrite {V}. Arguments MChanged {V}. Arguments MStart {V}. Arguments MWait {V}.
Arguments MDrop {V}. Arguments MLook {V}.

(** What hilapp and the library make of each (codegen.cpp 129-213: start_gather
    calls before the loop, wait_gather calls for every read field and direction,
    the loop, then [mark_changed]; field.h 583-602: the direction loop of
    [mark_changed]; field.h 481-486: [clear], called by the destructor; field.h 2279-2283: [gather]).
    A loop that both reads neighbours and writes is ORead followed by OWrite.
    The waits are skipped in the generated code if no gather is active; then
    [wait_gather] would return at once. *)
Definition compile_op {V : Type} (lat : lattice) (o : api_op V) : list (mop V) :=
  let dirs := zrange 0 (Z.to_nat (ndirs lat)) in
  match o with
  | OWrite f p w => MWrite f p w :: map (fun d => MChanged f d p) dirs
  | OStart f d p => [MStart f d p]
  | OWait f d p => [MWait f d p]
  | OGather f d p => [MStart f d p; MWait f d p]
  | ORead f ds p => map (fun d => MStart f d p) ds ++ map (fun d => MWait f d p) ds ++ map (fun d => MLook f d p) ds
  | OFree f => map (fun d => MDrop f d ALL) dirs
  end.

Definition compile {V : Type} (lat : lattice) (h : list (api_op V)) : list (mop V) :=
  flat_map (compile_op lat) h.
