(** C19: Reduction variables. *)
From Coq Require Import Permutation.
From Verif Require Import Common LayoutModel LayoutSpec LayoutProofs1 LayoutProofs2 IoProofs1.
From Verif Require Import ReduceModel ReduceSpec ReduceProofs1 ReductionModel ReductionSpec.

Lemma combine_ext : forall (V : Type) (op : V -> V -> V) t (f g : Z -> V),
  (forall r, In r (leaves t) -> f r = g r) -> combine_ranks op t f = combine_ranks op t g.
Proof.
  intros V op. induction t as [r|a IHa b IHb]; intros f g H; cbn [combine_ranks leaves] in *.
  - apply H. simpl. auto.
  - rewrite (IHa f g), (IHb f g); auto; intros; apply H; apply in_or_app; auto.
Qed.

Section Comb.
  Context {V : Type}.
  Variable lat : lattice.
  Hypothesis Hv : valid_lattice lat.
  Variable tree : rtree.
  Hypothesis Ht : any_order lat tree.
  Variables (op : V -> V -> V) (e : V).
  Hypothesis Hm : comm_monoid op e.

  Lemma tree_rank : forall r, In r (leaves tree) <-> is_rank lat r.
  Proof. intros r. rewrite <- (rank_range lat). split; apply Permutation_in; [apply Ht|apply Permutation_sym, Ht]. Qed.

  Lemma tree_nodup : NoDup (leaves tree).
  Proof. eapply Permutation_NoDup; [apply Permutation_sym, Ht|apply zrange_NoDup]. Qed.

  Lemma total_units : forall (l : list Z), total op e (map (fun _ => e) l) = e.
  Proof. induction l; auto. unfold total in *. cbn [map fold_right]. rewrite IHl. apply (m_unit op e Hm). Qed.

  Lemma total_op : forall A (f g : A -> V) l, total op e (map (fun r => op (f r) (g r)) l) = op (total op e (map f l)) (total op e (map g l)).
  Proof.
    intros A f g. induction l as [|x l IH]; unfold total in *; cbn [map fold_right]; [rewrite (m_unit op e Hm); auto|].
    rewrite IH. rewrite <- !(m_assoc op e Hm). f_equal. rewrite !(m_assoc op e Hm), (m_comm op e Hm (g x)). auto.
  Qed.

  (** Only rank 0 has something else than the unit. *)
  Lemma combine_root : forall f v, f 0 = v -> (forall r, is_rank lat r -> r <> 0 -> f r = e) -> combine_ranks op tree f = v.
  Proof.
    intros f v H0 H1. rewrite (combine_total op e Hm).
    rewrite (map_ext_In _ _ f (fun r => if r =? 0 then op ((fun _ => e) r) v else (fun _ => e) r)).
    - rewrite (total_extra op e Hm (fun _ => e) v _ tree_nodup) by (apply tree_rank, rank_0; auto).
      rewrite total_units. apply (m_unit_r op e Hm).
    - intros r Hr. apply tree_rank in Hr. destruct (Z.eqb_spec r 0) as [->|Hn]; auto. rewrite (m_unit op e Hm). auto.
  Qed.

  Lemma combine_op : forall f g, combine_ranks op tree (fun r => op (f r) (g r)) = op (combine_ranks op tree f) (combine_ranks op tree g).
  Proof. intros f g. rewrite !(combine_total op e Hm). apply total_op. Qed.

  (** The loop sums. *)
  Lemma combine_loop : forall p g sites, enumerates (l_size lat) p sites ->
    combine_ranks op tree (fun r => local_reduce op (nodeinfo lat r) p (fun i => g (coordinates (nodeinfo lat r) i)) e) =
    total op e (map g sites).
  Proof.
    intros p g sites He. rewrite (combine_total op e Hm).
    rewrite (total_perm op e Hm _ _ (Permutation_map _ Ht)).
    apply (rank_sums lat Hv V op e Hm p (fun r i => g (coordinates (nodeinfo lat r) i)) g sites); auto.
    intros r c Hr Hc. destruct (coordinates_inverse lat r Hv Hr) as [I1 _]. rewrite I1; auto.
  Qed.
End Comb.

Ltac parts := repeat match goal with |- _ /\ _ => split; auto | |- (_ = true) -> (_ /\ _ /\ _) => intros ?; split; [|split]; auto | |- (_ = false) -> (_ /\ _ /\ _) => intros ?; split; [|split]; auto end; auto; try discriminate; try (intros; discriminate).

Section C19.
  Context {V : Type}.
  Variables (add : V -> V -> V) (zero : V).
  Hypothesis Hm : comm_monoid add zero.
  Variable lat : lattice.
  Hypothesis Hv : valid_lattice lat.
  Variable tree : rtree.
  Hypothesis Ht : any_order lat tree.
  Variable junk : Z -> V.
  Variable sites : parity -> list (list Z).
  Hypothesis Hs : forall p, enumerates (l_size lat) p (sites p).

  (** The current values: those being communicated, if any. *)
  Definition cur (s : red V) : Z -> V := match comm s with Some res => res | None => val s end.

  Definition rinv (a : abs_red V) (s : red V) : Prop :=
    a_all a = is_allreduce s /\ a_nonblocking a = is_nonblocking s /\ a_delayed a = is_delayed s /\
    a_open a = delay_is_on s /\ a_pending a = (match comm s with Some _ => true | None => false end) /\
    (a_open a = true -> a_pending a = false /\ a_spoiled a = false /\ combine_ranks add tree (cur s) = a_value a) /\
    (a_open a = false -> cur s 0 = a_value a /\ (a_everywhere a = true -> forall r, is_rank lat r -> cur s r = a_value a) /\
       (a_spoiled a = false -> forall r, is_rank lat r -> r <> 0 -> cur s r = zero)).

  Lemma wait_val : forall s, val (wait V s) = cur s.
  Proof. intros s. unfold wait, cur. destruct (comm s); auto. Qed.
  Lemma wait_comm : forall s, comm (wait V s) = None.
  Proof. intros s. unfold wait. destruct (comm s) eqn:E; auto. Qed.
  Lemma wait_flags : forall s, is_allreduce (wait V s) = is_allreduce s /\ is_nonblocking (wait V s) = is_nonblocking s /\
    is_delayed (wait V s) = is_delayed s /\ delay_is_on (wait V s) = delay_is_on s.
  Proof. intros s. unfold wait. destruct (comm s); auto. Qed.

  Lemma do_reduce_cur : forall s, comm s = None ->
    cur (do_reduce V add tree junk s) = mpi_result V tree add (is_allreduce s) (val s) /\
    is_allreduce (do_reduce V add tree junk s) = is_allreduce s /\
    is_nonblocking (do_reduce V add tree junk s) = is_nonblocking s /\
    is_delayed (do_reduce V add tree junk s) = is_delayed s /\ delay_is_on (do_reduce V add tree junk s) = delay_is_on s /\
    (match comm (do_reduce V add tree junk s) with Some _ => true | None => false end) = is_nonblocking s.
  Proof.
    intros s Hc. unfold do_reduce. assert (E : wait V s = s) by (unfold wait; rewrite Hc; auto). cbv zeta. rewrite E.
    destruct (is_nonblocking s) eqn:En; cbn; auto 10.
  Qed.

  Lemma new_inv : rinv (abs_new zero) (red_new zero).
  Proof. unfold rinv, abs_new, red_new, cur; cbn. parts. Qed.

  Lemma mpi_root : forall all x, mpi_result V tree add all x 0 = combine_ranks add tree x.
  Proof. intros. unfold mpi_result. rewrite Z.eqb_refl, orb_true_r. auto. Qed.
  Lemma mpi_all : forall x r, mpi_result V tree add true x r = combine_ranks add tree x.
  Proof. intros. auto. Qed.

  (** Combination of open contributions. *)
  Lemma close_open : forall a s, rinv a s -> a_open a = true ->
    rinv (mkAbs (a_value a) (a_all a) false true (a_nonblocking a) (a_all a) (a_nonblocking a) (a_delayed a))
         (start_reduce V add tree junk s).
  Proof.
    intros a s (A1 & A2 & A3 & A4 & A5 & A6 & A7) Ho. destruct (A6 Ho) as (B1 & B2 & B3). unfold start_reduce.
    rewrite B1 in A5. destruct (comm s) eqn:Ec; [discriminate|]. rewrite <- A4, Ho.
    set (s1 := mkRed _ _ _ _ _ _). destruct (do_reduce_cur s1) as (D1 & D2 & D3 & D4 & D5 & D6); [auto|].
    unfold rinv. cbn [a_all a_nonblocking a_delayed a_open a_pending a_spoiled a_value a_everywhere].
    rewrite D1, D2, D3, D4, D5, D6. subst s1. cbn [is_allreduce is_nonblocking is_delayed delay_is_on val].
    assert (Ecur : cur s = val s) by (unfold cur; rewrite Ec; auto). rewrite Ecur in B3.
    parts.
    - rewrite mpi_root. auto.
    - intros Ha. rewrite A1 in Ha. rewrite Ha. intros r Hr. rewrite mpi_all. auto.
  Qed.

  Lemma start_closed : forall a s, rinv a s -> a_open a = false -> start_reduce V add tree junk s = s.
  Proof. intros a s (A1 & A2 & A3 & A4 & _) Ho. unfold start_reduce. destruct (comm s); auto. rewrite <- A4, Ho. auto. Qed.

  Lemma wait_inv : forall a s, rinv a s ->
    rinv (mkAbs (a_value a) (a_everywhere a) (a_open a) (a_spoiled a) false (a_all a) (a_nonblocking a) (a_delayed a)) (wait V s).
  Proof.
    intros a s (A1 & A2 & A3 & A4 & A5 & A6 & A7). destruct (wait_flags s) as (W1 & W2 & W3 & W4).
    assert (Ec : cur (wait V s) = cur s) by (unfold cur at 1; rewrite wait_comm; apply wait_val).
    unfold rinv. cbn [a_all a_nonblocking a_delayed a_open a_pending a_spoiled a_value a_everywhere].
    rewrite W1, W2, W3, W4, wait_comm, Ec. parts; intros; try (apply A6); try (apply A7); auto.
  Qed.

  Lemma red_step_ok : forall op a s a' o, rinv a s -> abs_step add zero sites op a = Some (a', o) ->
    exists s' o', red_step add zero lat tree junk op s = Some (s', o') /\ rinv a' s' /\ agrees lat o o'.
  Proof.
    intros op a s a' o Hi Hst. destruct op as [v|v|p g| | | |b|b|b]; cbn [abs_step red_step] in *.
    - inversion Hst; subst; clear Hst. eexists _, _. split; [reflexivity|]. split; [|exact I].
      destruct Hi as (A1 & A2 & A3 & A4 & A5 & A6 & A7). destruct (wait_flags s) as (W1 & W2 & W3 & W4).
      unfold red_assign, rinv, cur. cbn [a_all a_nonblocking a_delayed a_open a_pending a_spoiled a_value a_everywhere is_allreduce is_nonblocking is_delayed delay_is_on val comm].
      rewrite W1, W2, W3, W4. parts.
      + apply (combine_root lat Hv tree Ht add zero Hm); auto. intros r _ Hr. destruct (Z.eqb_spec r 0); tauto.
      + intros _ r _ Hr. destruct (Z.eqb_spec r 0); tauto.
    - destruct (a_pending a || a_open a) eqn:Eg; [discriminate|]. inversion Hst; subst; clear Hst.
      apply orb_false_iff in Eg. destruct Eg as [Ep Eo].
      destruct Hi as (A1 & A2 & A3 & A4 & A5 & A6 & A7). destruct (A7 Eo) as (B1 & B2 & B3). rewrite Ep in A5.
      unfold red_plus. destruct (comm s) eqn:Ec; [discriminate|]. eexists _, _. split; [reflexivity|]. split; [|exact I].
      unfold rinv, cur in *. cbn [a_all a_nonblocking a_delayed a_open a_pending a_spoiled a_value a_everywhere is_allreduce is_nonblocking is_delayed delay_is_on val comm].
      rewrite Ec in *. parts; try congruence.
      + intros He r Hr. rewrite B2; auto.
    - eexists _, _. split; [reflexivity|]. split; [|destruct (a_delayed a), (a_spoiled a), (a_open a); inversion Hst; exact I].
      assert (Hw := wait_inv a s Hi). destruct Hw as (A1 & A2 & A3 & A4 & A5 & A6 & A7).
      cbn [a_all a_nonblocking a_delayed a_open a_pending a_spoiled a_value a_everywhere] in *.
      assert (Ec := wait_comm s). unfold reduce_sum_node. cbv zeta. set (w := wait V s) in *. clearbody w.
      assert (Ecur : cur w = val w) by (unfold cur; rewrite Ec; auto). rewrite Ecur in *.
      assert (Hl : combine_ranks add tree (loop_sum V add zero lat p g) = total add zero (map g (sites p))).
      { apply (combine_loop lat Hv tree Ht add zero Hm p g (sites p) (Hs p)). }
      rewrite A3 in Hst. destruct (is_delayed w) eqn:Ed.
      + destruct (a_spoiled a) eqn:Esp; [discriminate|]. inversion Hst; subst; clear Hst.
        unfold rinv, cur. cbn [a_all a_nonblocking a_delayed a_open a_pending a_spoiled a_value a_everywhere is_allreduce is_nonblocking is_delayed delay_is_on val comm].
        rewrite Ec. parts; try discriminate.
        rewrite (combine_ext _ _ _ _ (fun r => add (val w r) (loop_sum V add zero lat p g r))) by (intros; rewrite orb_true_r; auto).
        rewrite (combine_op tree add zero Hm), Hl. f_equal.
        destruct (a_open a) eqn:Eo; [apply A6; auto|]. destruct (A7 eq_refl) as (B1 & B2 & B3).
        apply (combine_root lat Hv tree Ht add zero Hm); auto.
      + destruct (a_open a) eqn:Eo; [discriminate|]. inversion Hst; subst; clear Hst. destruct (A7 eq_refl) as (B1 & B2 & B3).
        set (nv := fun r => if (r =? 0) || false then _ else _). set (s1 := mkRed nv _ _ _ _ _).
        destruct (do_reduce_cur s1) as (D1 & D2 & D3 & D4 & D5 & D6); [auto|].
        unfold rinv. cbn [a_all a_nonblocking a_delayed a_open a_pending a_spoiled a_value a_everywhere].
        rewrite D1, D2, D3, D4, D5, D6. subst s1. cbn [is_allreduce is_nonblocking is_delayed delay_is_on val].
        assert (Hc : combine_ranks add tree nv = add (a_value a) (total add zero (map g (sites p)))).
        { unfold nv. rewrite (combine_ext _ _ _ _ (fun r => if r =? 0 then add (loop_sum V add zero lat p g r) (val w 0) else loop_sum V add zero lat p g r)).
          - rewrite (combine_total add zero Hm), (total_extra add zero Hm).
            + rewrite B1. f_equal. rewrite <- (combine_total add zero Hm). auto.
            + apply (tree_nodup lat tree Ht).
            + apply (tree_rank lat tree Ht). apply rank_0; auto.
          - intros r _. rewrite orb_false_r. destruct (Z.eqb_spec r 0) as [->|]; auto. apply (m_comm add zero Hm). }
        parts.
        * rewrite mpi_root. auto.
        * intros Ha r Hr. rewrite <- A1, Ha, mpi_all. auto.
    - eexists _, _. split; [reflexivity|]. destruct (a_open a) eqn:Eo; inversion Hst; subst; clear Hst; split; try exact I.
      + apply close_open; auto.
      + rewrite (start_closed a s Hi Eo). rewrite andb_true_r. destruct a; cbn in *; subst; auto.
    - inversion Hst; subst; clear Hst. eexists _, _. split; [reflexivity|]. split; [|exact I]. unfold reduce.
      destruct (a_open a) eqn:Eo.
      + apply (wait_inv _ _ (close_open a s Hi Eo)).
      + rewrite (start_closed a s Hi Eo). assert (Hw := wait_inv a s Hi). rewrite Eo in Hw. rewrite andb_false_r. exact Hw.
    - inversion Hst; subst; clear Hst. eexists _, _. split; [reflexivity|].
      assert (Hr : rinv (if a_open a then mkAbs (a_value a) (a_all a) false true false (a_all a) (a_nonblocking a) (a_delayed a)
        else mkAbs (a_value a) (a_everywhere a) false (a_spoiled a) (a_pending a && false) (a_all a) (a_nonblocking a) (a_delayed a)) (reduce V add tree junk s)).
      { unfold reduce. destruct (a_open a) eqn:Eo.
        + apply (wait_inv _ _ (close_open a s Hi Eo)).
        + rewrite (start_closed a s Hi Eo). assert (Hw := wait_inv a s Hi). rewrite Eo in Hw. rewrite andb_false_r. exact Hw. }
      split; auto. set (a' := if a_open a then _ else _) in *.
      assert (Ho : a_open a' = false) by (unfold a'; destruct (a_open a); auto).
      destruct Hr as (A1 & A2 & A3 & A4 & A5 & A6 & A7). destruct (A7 Ho) as (B1 & B2 & B3).
      assert (Ec : cur (reduce V add tree junk s) = val (reduce V add tree junk s)).
      { unfold cur. unfold reduce. rewrite wait_comm. auto. }
      rewrite Ec in *. cbn [agrees]. auto.
    - inversion Hst; subst; clear Hst. eexists _, _. split; [reflexivity|]. split; [|exact I].
      destruct Hi as (A1 & A2 & A3 & A4 & A5 & A6 & A7). unfold rinv, cur in *; cbn in *. parts.
    - inversion Hst; subst; clear Hst. eexists _, _. split; [reflexivity|]. split; [|exact I].
      destruct Hi as (A1 & A2 & A3 & A4 & A5 & A6 & A7). unfold rinv, cur in *; cbn in *. parts.
    - inversion Hst; subst; clear Hst. eexists _, _. split; [reflexivity|]. split; [|exact I].
      destruct Hi as (A1 & A2 & A3 & A4 & A5 & A6 & A7). unfold rinv, cur in *; cbn in *. parts.
  Qed.

  Lemma red_run_ok : forall ops a s os, rinv a s -> abs_run add zero sites ops a = Some os ->
    exists os', red_run add zero lat tree junk ops s = Some os' /\ Forall2 (agrees lat) os os'.
  Proof.
    induction ops as [|op ops IH]; intros a s os Hi Hr; cbn [abs_run red_run] in *.
    - inversion Hr; subst. exists []. split; auto.
    - destruct (abs_step add zero sites op a) as [[a' o]|] eqn:E; [|discriminate].
      destruct (red_step_ok op a s a' o Hi E) as (s' & o' & -> & Hi' & Ha).
      destruct (abs_run add zero sites ops a') as [os1|] eqn:E1; [|discriminate]. inversion Hr; subst.
      destruct (IH a' s' os1 Hi' E1) as (os' & -> & Hf). exists (o' :: os'). split; auto.
  Qed.
End C19.
