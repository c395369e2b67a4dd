(** C13, C14: element access.  Statements. *)
From Verif Require Import Common LayoutModel LayoutSpec LayoutProps.
From Verif Require Import ElementModel ElementSpec ElementProofs1 ElementProofs2.

(** C13.  Any sequence of set_element, get_element, compound assignments and
    increments at lattice coordinates acts as on one global field: the final
    contents and, on every rank, every returned value are those of the global
    field. *)
Theorem C13_element_operations : forall (V : Type) lat (ops : list (elem_op V)) (st : rank_store V) F,
  valid_lattice lat -> represents lat st F ->
  Forall (fun op => is_site (l_size lat) (op_site op)) ops ->
  represents lat (fst (elem_run lat ops st)) (fst (global_run ops F)) /\
  Forall2 (fun (o : option (Z -> option V)) (g : option V) =>
      match o, g with
      | Some f, Some v => forall r, is_rank lat r -> f r = Some v
      | None, None => True
      | _, _ => False
      end) (snd (elem_run lat ops st)) (snd (global_run ops F)).
Proof. intros V lat ops st F Hv. exact (elem_run_ok lat Hv ops st F). Qed.
Print Assumptions C13_element_operations.

(** C13, read out: set_element changes the site and no other site, on whatever
    rank the site is, and get_element returns the value at the site everywhere. *)
Theorem C13_set_then_get : forall (V : Type) lat (st : rank_store V) F c v,
  valid_lattice lat -> represents lat st F -> is_site (l_size lat) c ->
  (forall r, is_rank lat r -> get_element lat c st r = Some (F c)) /\
  (forall r, is_rank lat r -> get_element lat c (set_element lat c v st) r = Some v) /\
  (forall r x, is_site (l_size lat) x -> x <> c ->
     get_element lat x (set_element lat c v st) r = Some (F x)).
Proof.
  intros V lat st F c v Hv HF Hc. split; [|split].
  - intros r _. apply get_element_ok; auto.
  - intros r _. rewrite (get_element_ok lat Hv _ (put F c v)); auto using set_represents. rewrite put_same. auto.
  - intros r x Hx Hn. rewrite (get_element_ok lat Hv _ (put F c v)); auto using set_represents. rewrite put_other; auto.
Qed.
Print Assumptions C13_set_then_get.

(** Every content of the ranks is that of some field. *)
Lemma some_field : forall (V : Type) lat (st : rank_store V), valid_lattice lat ->
  represents lat st (fun c => st (node_rank lat c) (site_index (nodeinfo lat (node_rank lat c)) c)).
Proof.
  intros V lat st Hv r c Hr Hc.
  assert (Hs := LayoutProofs2.holds_is_site lat r c Hv Hr Hc).
  destruct (LayoutProofs2.owner_unique lat c Hv Hs) as [_ H]. rewrite <- (proj1 (H r Hr) Hc). auto.
Qed.

Ltac concrete_site := split; [reflexivity | intros [|[|[|[|?]]]] ?; cbn in *; lia].

Example C13_example :
  let st := fun r i => 100 * r + i in
  let ops := [ESet [4; 3] 7; ECompound [4; 3] (Z.mul 3); EGet [4; 3]; EPost [0; 2] (Z.add 1); EGet [0; 2];
              EPre [2; 1] (fun x => x - 1); EGet [4; 2]] in
  valid_lattice ex_lat /\ Forall (fun op => is_site (l_size ex_lat) (op_site op)) ops /\
  map (fun o => match o with Some f => map f [0; 1; 2; 3; 4; 5] | None => [] end) (snd (elem_run ex_lat ops st)) =
  map (fun o => match o with Some v => [Some v; Some v; Some v; Some v; Some v; Some v] | None => [] end)
    (snd (global_run ops (fun c => st (node_rank ex_lat c) (site_index (nodeinfo ex_lat (node_rank ex_lat c)) c)))).
Proof.
  cbv zeta. split; [exact ex_lat_valid|]. split; [|vm_compute; reflexivity].
  repeat (apply Forall_cons; [concrete_site|]). apply Forall_nil.
Qed.

(** C14.  Collecting: the root gets the values of the listed sites in list order;
    sites may be repeated. *)
Theorem C14_gather_in_list_order : forall (V : Type) lat (st : rank_store V) F root coords,
  valid_lattice lat -> represents lat st F -> is_rank lat root ->
  Forall (is_site (l_size lat)) coords ->
  gather_elements lat root coords st = Some (map F coords).
Proof. exact gather_elements_ok. Qed.
Print Assumptions C14_gather_in_list_order.

(** C14.  Distributing a list of values to distinct sites succeeds on every rank,
    sets exactly those sites and leaves all others alone; collecting the same
    sites then gives the same list back, on any root. *)
Theorem C14_scatter_to_distinct_sites : forall (V : Type) lat (st : rank_store V) F root coords vs,
  valid_lattice lat -> represents lat st F -> is_rank lat root ->
  Forall (is_site (l_size lat)) coords -> NoDup coords -> length coords = length vs ->
  exists (st' : rank_store V) F',
    (forall r, is_rank lat r -> scatter_elements lat root coords vs st r = Some (st' r)) /\
    represents lat st' F' /\
    map F' coords = vs /\ (forall c, ~ In c coords -> F' c = F c) /\
    (forall root', is_rank lat root' -> gather_elements lat root' coords st' = Some vs).
Proof.
  intros V lat st F root coords vs Hv HF Hroot Hs Hnd Hl.
  destruct (scatter_ok lat Hv root coords vs st F HF Hroot Hs Hl) as (st' & A & B).
  exists st', (put_list F (combine coords vs)). split; auto. split; auto.
  assert (E := put_list_gather coords vs F Hl Hnd). split; auto. split.
  - intros c Hc. apply put_list_outside. rewrite map_fst_pairs; auto.
  - intros root' Hr'. rewrite (gather_elements_ok V lat st' (put_list F (combine coords vs))); auto. congruence.
Qed.
Print Assumptions C14_scatter_to_distinct_sites.

(** With repeated sites the last value of the list stays. *)
Theorem C14_scatter_last_value_wins : forall (V : Type) lat (st : rank_store V) F root l1 c v l2,
  valid_lattice lat -> represents lat st F -> is_rank lat root ->
  let l := l1 ++ (c, v) :: l2 in
  Forall (is_site (l_size lat)) (map fst l) -> ~ In c (map fst l2) ->
  exists (st' : rank_store V) F',
    (forall r, is_rank lat r -> scatter_elements lat root (map fst l) (map snd l) st r = Some (st' r)) /\
    represents lat st' F' /\ F' c = v.
Proof.
  intros V lat st F root l1 c v l2 Hv HF Hroot l Hs Hn.
  destruct (scatter_ok lat Hv root (map fst l) (map snd l) st F HF Hroot Hs) as (st' & A & B).
  { rewrite !map_length. auto. }
  exists st', (put_list F l). split; auto. split.
  - replace l with (combine (map fst l) (map snd l)); auto. clear. induction l as [|[x y] l IH]; cbn; f_equal; auto.
  - apply put_list_last. auto.
Qed.
Print Assumptions C14_scatter_last_value_wins.

(** C14.  The same for set_elements / get_elements, where the list of values is on
    every rank / returned on rank 0, or on every rank when broadcast. *)
Theorem C14_set_elements_then_get_elements : forall (V : Type) lat (st : rank_store V) F coords vs,
  valid_lattice lat -> represents lat st F -> is_rank lat 0 ->
  Forall (is_site (l_size lat)) coords -> NoDup coords -> length coords = length vs ->
  exists (st' : rank_store V) F',
    (forall r, is_rank lat r -> set_elements lat coords vs st r = Some (st' r)) /\
    represents lat st' F' /\
    map F' coords = vs /\ (forall c, ~ In c coords -> F' c = F c) /\
    get_elements lat coords false st' 0 = Some vs /\
    (forall r, is_rank lat r -> get_elements lat coords true st' r = Some vs).
Proof.
  intros V lat st F coords vs Hv HF H0 Hs Hnd Hl.
  destruct (set_elements_ok lat Hv coords vs st F HF Hl) as (st' & A & B).
  exists st', (put_list F (combine coords vs)). split; auto. split; auto.
  assert (E := put_list_gather coords vs F Hl Hnd). split; auto.
  assert (G : gather_elements lat 0 coords st' = Some vs).
  { rewrite (gather_elements_ok V lat st' (put_list F (combine coords vs))); auto. congruence. }
  split; [|split].
  - intros c Hc. apply put_list_outside. rewrite map_fst_pairs; auto.
  - unfold get_elements. rewrite G. reflexivity.
  - intros r Hr. unfold get_elements. rewrite G. reflexivity.
Qed.
Print Assumptions C14_set_elements_then_get_elements.

Example C14_example :
  let st := fun r i => 100 * r + i in
  let coords := [[4; 3]; [0; 0]; [3; 3]; [0; 3]; [4; 0]] in
  valid_lattice ex_lat /\ is_rank ex_lat 3 /\ Forall (is_site (l_size ex_lat)) coords /\ NoDup coords /\
  gather_elements ex_lat 3 (coords ++ coords) st =
    Some (let l := map (fun c => st (node_rank ex_lat c) (site_index (nodeinfo ex_lat (node_rank ex_lat c)) c)) coords in l ++ l) /\
  (exists m, scatter_elements ex_lat 3 coords [11; 12; 13; 14; 15] st (node_rank ex_lat [3; 3]) = Some m /\
     m (site_index (nodeinfo ex_lat (node_rank ex_lat [3; 3])) [3; 3]) = 13).
Proof.
  cbv zeta. split; [exact ex_lat_valid|]. split; [split; vm_compute; congruence|].
  split; [repeat (apply Forall_cons; [concrete_site|]); apply Forall_nil|]. split.
  { repeat constructor; cbn; intuition discriminate. }
  split; [vm_compute; reflexivity|].
  eexists. split; [vm_compute; reflexivity|]. reflexivity.
Qed.
