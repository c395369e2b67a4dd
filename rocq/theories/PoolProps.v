(** C23: the memory pool. *)
From Verif Require Import Common PoolModel PoolSpec PoolProofs1 PoolProofs2.

(** Every sequence of alloc, free and purge, with a system allocator that returns
    memory disjoint from what it has given out.  All results are right: every returned
    pointer is a region disjoint from all live allocations, inside memory held from
    the system, reusing the best fitting free block if there is one; a successful free
    is one of a live pointer; purge gives back exactly the unused regions.  The program
    stops only in a free of a pointer that is not live (unknown or freed before), or in
    a purge of unused blocks in a build without GPU; and the search never leaves the
    list of blocks.  The reported total size is the memory held. *)
Theorem C23_histories : forall gpu ops rs e, pool_run gpu ops pool_new = (rs, e) -> system_ok view_new ops rs ->
  all_right view_new ops rs /\
  let w := view_after view_new ops rs in
  match e with
  | Running p => length rs = length ops /\ pl_total p = zsum (map snd (v_held w))
  | EndTerminated =>
      match nth_error ops (length rs) with
      | Some (PFree ptr, _) => ~ In ptr (map fst (v_live w))
      | Some (PPurge, _) => gpu = false /\ exists x, In x (v_held w) /\ used_region w x = false
      | _ => False
      end
  | EndOutOfRange => False
  end.
Proof.
  intros gpu ops rs e E Hs. destruct (run_ok gpu ops pool_new view_new rs e inv_new E Hs) as [H1 H2].
  split; auto. destruct e; auto. destruct H2 as [H2 H3]. split; auto. apply H3.
Qed.
Print Assumptions C23_histories.

(** In particular a free of a pointer that is not live stops the program. *)
Theorem C23_bad_free_stops : forall gpu ops rs ptr addr p, pool_run gpu ops pool_new = (rs, Running p) -> system_ok view_new ops rs ->
  ~ In ptr (map fst (v_live (view_after view_new ops rs))) -> pool_step gpu addr (PFree ptr) p = Terminated.
Proof.
  intros gpu ops rs ptr addr p E Hs Hn.
  destruct (run_ok gpu ops pool_new view_new rs (Running p) inv_new E Hs) as [_ [_ Hi]].
  assert (H := free_ok ptr p _ Hi). cbn [pool_step].
  destruct (pool_free ptr p) as [p' r| |]; auto; [|destruct H]. destruct H as [H _]. destruct r; cbn in H; contradiction.
Qed.
Print Assumptions C23_bad_free_stops.

(** In a build without GPU a purge stops the program as soon as one block is free. *)
Theorem C23_purge_without_gpu_refuted :
  let ops := [(PAlloc 1000, 5000); (PFree 5000, 0); (PPurge, 0)] in
  pool_run true ops pool_new = ([Returned 5000 (Some 1000); Freed; Purged [5000]], Running (mkPool [] 0 0)) /\
  pool_run false ops pool_new = ([Returned 5000 (Some 1000); Freed], EndTerminated) /\
  system_ok view_new ops [Returned 5000 (Some 1000); Freed].
Proof.
  split; [reflexivity|]. split; [reflexivity|]. cbn. split; [constructor|]. repeat split; intros; discriminate.
Qed.
Print Assumptions C23_purge_without_gpu_refuted.

(** The hint moves back and forth; a request takes the best fitting of the free blocks
    of 1000 and 1500 bytes, not the first; after the purge a new block is taken; a
    second free of 3000 stops the program. *)
Example C23_example :
  let ops := [(PAlloc 1500, 1000); (PAlloc 40, 3000); (PAlloc 1000, 4000); (PAlloc 2000, 6000);
              (PFree 1000, 0); (PFree 4000, 0); (PAlloc 900, 0); (PFree 3000, 0); (PPurge, 0); (PAlloc 100, 9000); (PFree 3000, 0)] in
  pool_run true ops pool_new =
    ([Returned 1000 (Some 1500); Returned 3000 (Some 128); Returned 4000 (Some 1000); Returned 6000 (Some 2000);
      Freed; Freed; Returned 4000 None; Freed; Purged [1000; 3000]; Returned 9000 (Some 128)], EndTerminated) /\
  system_ok view_new ops (fst (pool_run true ops pool_new)).
Proof.
  intros ops. assert (E : pool_run true ops pool_new =
    ([Returned 1000 (Some 1500); Returned 3000 (Some 128); Returned 4000 (Some 1000); Returned 6000 (Some 2000);
      Freed; Freed; Returned 4000 None; Freed; Purged [1000; 3000]; Returned 9000 (Some 128)], EndTerminated)) by (vm_compute; reflexivity).
  split; [exact E|]. rewrite E. unfold ops. cbn [fst system_ok after v_live v_held view_new app].
  repeat (split; [intros ptr n En; first [discriminate En|injection En as <- <-;
    apply Forall_forall; intros x Hx; vm_compute in Hx; unfold disjoint; cbn [fst snd];
    repeat (destruct Hx as [<-|Hx]; [cbn [fst snd]; lia|]); destruct Hx]|]).
  exact I.
Qed.
