(** Property C24: site selection. *)
From Verif Require Import Common LayoutModel LayoutSpec LayoutProofs1 LayoutProofs2 LayoutProps ReduceProofs1 IoModel.
From Verif Require Import SelectModel SelectSpec SelectProofs1 SelectProofs2.

(** What the program sees on rank 0: size() and coordinates(i), value(i), overflow(). *)
Definition rank0 {V : Type} (dv : V) (x : selector V) : rank_sel V := nth 0 (x_ranks x) (mkSel [] [] 0 0 0).
Definition coords_of {V : Type} (ls : list Z) (s : rank_sel V) : list (list Z) :=
  map (global_coordinates ls) (s_sites s).

Lemma firstn_In : forall A n (l : list A) a, In a (firstn n l) -> In a l.
Proof. intros. rewrite <- (firstn_skipn n l). apply in_or_app. auto. Qed.

(** SiteSelect.  The selection variable [x] may have been used before in any way.
    The loop may select a site any number of times.  With auto_join the result is
    there after the loop, in any case after join(). *)
Theorem C24_sites : forall (V : Type) (dv : V) lat p (calls : list Z -> list V) x,
  valid_lattice lat -> zprod (l_size lat) < 2 ^ 64 ->
  Z.of_nat (length (x_ranks x)) = number_of_nodes lat -> 0 <= x_max x < 2 ^ 64 ->
  exists all x1 x2,
    in_rank_order lat p (selected calls) all /\
    select_loop dv false lat p calls x = Some x1 /\ join dv false x1 = Some x2 /\
    (x_auto x = true -> x2 = x1) /\
    let s := rank0 dv x2 in
    delivered (x_max x) all (fun _ _ => True) (coords_of (l_size lat) s) (map (fun _ => dv) (s_sites s)) (s_over s).
Proof.
  intros V dv lat p calls x Hv Hb Hl Hm.
  destruct (select_ok V dv false lat Hv Hb p calls x Hl Hm) as [A B].
  destruct A as (x1 & E1); [auto|]. destruct (B _ E1) as (B0 & B1 & (x2 & E2 & Em & Hj & s0 & others & Er & (R1 & _ & R3) & _)).
  exists (all_chosen V lat p calls), x1, x2.
  split; [apply all_chosen_order; auto|]. split; [auto|]. split; [auto|]. split.
  - intros Ha. destruct (B1 Ha) as [Hj1 _]. unfold join in E2. rewrite Hj1 in E2. congruence.
  - cbv zeta. unfold rank0, delivered. rewrite Er. cbn [nth]. unfold coords_of. rewrite Em in R1, R3. rewrite R3, R1.
    rewrite !map_map. split; [|split].
    + rewrite <- (map_id (firstn (Z.to_nat (x_max x)) (all_chosen V lat p calls))) at 2. apply map_ext_in.
      intros c Hc. apply index_coordinates, (all_chosen_sites V lat Hv p calls).
      apply (firstn_In _ _ _ _ Hc).
    + clear. induction (firstn (Z.to_nat (x_max x)) (all_chosen V lat p calls)); constructor; auto.
    + auto.
Qed.
Print Assumptions C24_sites.

(** SiteValueSelect, when the loop selects each site at most once: value i is the
    value given at site i. *)
Theorem C24_sites_and_values : forall (V : Type) (dv : V) lat p (calls : list Z -> list V) x,
  valid_lattice lat -> zprod (l_size lat) < 2 ^ 64 ->
  Z.of_nat (length (x_ranks x)) = number_of_nodes lat -> 0 <= x_max x < 2 ^ 64 ->
  (forall c, (length (calls c) <= 1)%nat) ->
  exists all x1 x2,
    in_rank_order lat p (selected calls) all /\
    select_loop dv true lat p calls x = Some x1 /\ join dv true x1 = Some x2 /\
    (x_auto x = true -> x2 = x1) /\
    let s := rank0 dv x2 in
    delivered (x_max x) all (fun c v => calls c = [v]) (coords_of (l_size lat) s) (s_values s) (s_over s).
Proof.
  intros V dv lat p calls x Hv Hb Hl Hm Hone.
  destruct (select_ok V dv true lat Hv Hb p calls x Hl Hm) as [A B].
  destruct A as (x1 & E1); [auto|]. destruct (B _ E1) as (B0 & B1 & (x2 & E2 & Em & Hj & s0 & others & Er & (R1 & R2 & R3) & _)).
  exists (all_chosen V lat p calls), x1, x2.
  split; [apply all_chosen_order; auto|]. split; [auto|]. split; [auto|]. split.
  - intros Ha. destruct (B1 Ha) as [Hj1 _]. unfold join in E2. rewrite Hj1 in E2. congruence.
  - cbv zeta. unfold rank0, delivered. rewrite Er. cbn [nth]. unfold coords_of. rewrite Em in R1, R2, R3.
    rewrite R3, R1, (R2 eq_refl). rewrite !map_map. split; [|split].
    + rewrite <- (map_id (firstn (Z.to_nat (x_max x)) (all_chosen V lat p calls))) at 2. apply map_ext_in.
      intros c Hc. apply index_coordinates, (all_chosen_sites V lat Hv p calls).
      apply (firstn_In _ _ _ _ Hc).
    + assert (Hsel : forall c, In c (firstn (Z.to_nat (x_max x)) (all_chosen V lat p calls)) -> selected calls c).
      { intros c Hc. assert (Hin : In c (all_chosen V lat p calls)).
        { apply (firstn_In _ _ _ _ Hc). }
        unfold all_chosen in Hin. apply in_concat in Hin. destruct Hin as (l & Hin & Hcl).
        apply in_map_iff in Hin. destruct Hin as (r & <- & _). apply filter_In in Hcl. apply called_iff. tauto. }
      clear R1 R2 R3. induction (firstn (Z.to_nat (x_max x)) (all_chosen V lat p calls)) as [|c l IH]; constructor.
      * assert (Hc := Hsel c (or_introl eq_refl)). assert (Ho := Hone c). unfold first_value.
        unfold selected in Hc. destruct (calls c) as [|v [|w t]]; cbn in *; [congruence|auto|lia].
      * apply IH. intros; apply Hsel; right; auto.
    + auto.
Qed.
Print Assumptions C24_sites_and_values.

(** SiteValueSelect, any number of calls at a site: if the loop does not write
    outside of its vectors, the value kept is the one of the first call. *)
Theorem C24_first_value_stays : forall (V : Type) (dv : V) lat p (calls : list Z -> list V) x x1,
  valid_lattice lat -> zprod (l_size lat) < 2 ^ 64 ->
  Z.of_nat (length (x_ranks x)) = number_of_nodes lat -> 0 <= x_max x < 2 ^ 64 ->
  select_loop dv true lat p calls x = Some x1 ->
  exists all x2, in_rank_order lat p (selected calls) all /\ join dv true x1 = Some x2 /\
    let s := rank0 dv x2 in
    delivered (x_max x) all (fun c v => hd_error (calls c) = Some v) (coords_of (l_size lat) s) (s_values s) (s_over s).
Proof.
  intros V dv lat p calls x x1 Hv Hb Hl Hm E1.
  destruct (select_ok V dv true lat Hv Hb p calls x Hl Hm) as [_ B].
  destruct (B _ E1) as (B0 & B1 & (x2 & E2 & Em & Hj & s0 & others & Er & (R1 & R2 & R3) & _)).
  exists (all_chosen V lat p calls), x2.
  split; [apply all_chosen_order; auto|]. split; [auto|].
  cbv zeta. unfold rank0, delivered. rewrite Er. cbn [nth]. unfold coords_of. rewrite Em in R1, R2, R3.
  rewrite R3, R1, (R2 eq_refl). rewrite !map_map. split; [|split].
  - rewrite <- (map_id (firstn (Z.to_nat (x_max x)) (all_chosen V lat p calls))) at 2. apply map_ext_in.
    intros c Hc. apply index_coordinates, (all_chosen_sites V lat Hv p calls).
    apply (firstn_In _ _ _ _ Hc).
  - assert (Hsel : forall c, In c (firstn (Z.to_nat (x_max x)) (all_chosen V lat p calls)) -> selected calls c).
    { intros c Hc. assert (Hin : In c (all_chosen V lat p calls)).
      { apply (firstn_In _ _ _ _ Hc). }
      unfold all_chosen in Hin. apply in_concat in Hin. destruct Hin as (l & Hin & Hcl).
      apply in_map_iff in Hin. destruct Hin as (r & <- & _). apply filter_In in Hcl. apply called_iff. tauto. }
    clear R1 R2 R3. induction (firstn (Z.to_nat (x_max x)) (all_chosen V lat p calls)) as [|c l IH]; constructor.
    + assert (Hc := Hsel c (or_introl eq_refl)). unfold first_value. unfold selected in Hc.
      destruct (calls c); cbn in *; congruence.
    + apply IH. intros; apply Hsel; right; auto.
  - auto.
Qed.
Print Assumptions C24_first_value_stays.

(** A fresh variable on the 6 ranks of a 5 x 4 lattice. *)
Definition fresh_sel : rank_sel Z := mkSel [] [] 0 SIZE_MAX 0.
Definition ex_x (max : Z) (auto : bool) : selector Z := mkSelector max auto false (repeat fresh_sel 6).

(** Non-vacuity, and the outcome in a concrete case: the sites with x + y > 3 on
    the odd sites, of which 4 are wanted. *)
Definition ex_calls (c : list Z) : list Z := if 3 <? zsum c then [10 * nth 0 c 0 + nth 1 c 0] else [].
Example C24_example :
  zprod (l_size ex_lat) < 2 ^ 64 /\ Z.of_nat (length (x_ranks (ex_x 4 true))) = number_of_nodes ex_lat /\
  (forall c, (length (ex_calls c) <= 1)%nat) /\
  match select_loop 0 true ex_lat ODD ex_calls (ex_x 4 true) with
  | Some x => coords_of (l_size ex_lat) (rank0 0 x) = [[4; 1]; [3; 2]; [2; 3]; [4; 3]] /\
              s_values (rank0 0 x) = [41; 32; 23; 43] /\ s_over (rank0 0 x) = 0
  | None => False
  end /\
  match select_loop 0 true ex_lat ODD ex_calls (ex_x 3 true) with
  | Some x => length (s_sites (rank0 0 x)) = 3%nat /\ s_over (rank0 0 x) = 1
  | None => False
  end.
Proof.
  split; [vm_compute; reflexivity|]. split; [vm_compute; reflexivity|]. split.
  { intros c. unfold ex_calls. destruct (3 <? zsum c); cbn; lia. }
  vm_compute. repeat split.
Qed.

(** A site selected twice in one loop with different values: the later value
    replaces the earlier one in no case; if the rank has selected all its sites
    the second call even writes past the end of the vector of values. *)
Theorem C24_select_twice_refuted :
  (exists calls x1, select_loop 0 true ex_lat ALL calls (ex_x 20 true) = Some x1 /\
     calls [0; 0] = [5; 7] /\ coords_of (l_size ex_lat) (rank0 0 x1) = [[0; 0]] /\
     s_values (rank0 0 x1) = [5]) /\
  (exists calls, (forall c, (length (calls c) <= 2)%nat) /\
     select_loop 0 true ex_lat ALL calls (ex_x 20 true) = None).
Proof.
  split.
  - exists (fun c => if (nth 0 c 0 =? 0) && (nth 1 c 0 =? 0) then [5; 7] else []).
    eexists. split; [vm_compute; reflexivity|]. vm_compute. auto.
  - exists (fun _ => [5; 7]). split; [cbn; auto|vm_compute; reflexivity].
Qed.
Print Assumptions C24_select_twice_refuted.

(** When the maximum is lowered between the loop and a delayed join, the number of
    missing sites wraps around: the result is longer than the maximum. *)
Theorem C24_lowered_maximum_refuted :
  exists x1 x2, select_loop 0 false ex_lat ALL (fun _ => [0]) (no_join (ex_x 20 true)) = Some x1 /\
    join 0 false (max_size 1 x1) = Some x2 /\ x_max x2 = 1 /\
    length (s_sites (rank0 0 x2)) = 20%nat /\ s_over (rank0 0 x2) = 0.
Proof. do 2 eexists. split; [vm_compute; reflexivity|]. split; [vm_compute; reflexivity|]. vm_compute. auto. Qed.
Print Assumptions C24_lowered_maximum_refuted.
