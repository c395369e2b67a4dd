(** C20: ReductionVector. *)
From Coq Require Import Permutation.
From Verif Require Import Common LayoutModel LayoutSpec LayoutProofs1 LayoutProofs2 IoProofs1.
From Verif Require Import ReduceModel ReduceSpec ReduceProofs1 ReductionModel ReductionSpec ReductionProofs1.

Section Loop.
  Context {V : Type}.
  Variable lat : lattice.
  Hypothesis Hv : valid_lattice lat.
  Variables (op : V -> V -> V) (e : V).
  Hypothesis Hm : comm_monoid op e.

  Lemma vupdates_ok : forall n us x, Forall (fun u => (fst u < n)%nat) us ->
    exists y, vupdates V op n us x = Some y /\
      forall j, y j = op (x j) (total op e (map snd (filter (fun u => Nat.eqb (fst u) j) us))).
  Proof.
    intros n. induction us as [|[j0 v] us IH]; intros x Hf; cbn [vupdates].
    - exists x. split; auto. intros j. unfold total. cbn. rewrite (m_unit_r op e Hm). auto.
    - inversion Hf as [|? ? H0 Hf']; subst. cbn [fst] in H0. replace (j0 <? n)%nat with true by (symmetry; apply Nat.ltb_lt; auto).
      destruct (IH (fun k => if Nat.eqb k j0 then op (x k) v else x k) Hf') as (y & A & B). exists y. split; auto.
      intros j. rewrite B. cbn [filter fst]. rewrite (Nat.eqb_sym j0 j). destruct (Nat.eqb j j0); cbn [map snd]; auto.
      unfold total. cbn [fold_right]. rewrite (m_assoc op e Hm). auto.
  Qed.

  Definition vlocal (p : parity) (g : list Z -> list (nat * V)) (j : nat) (r : Z) : V :=
    local_reduce op (nodeinfo lat r) p (fun i => contributions op e g j (coordinates (nodeinfo lat r) i)) e.

  Lemma contrib_flat : forall g j (l : list (list Z)),
    total op e (map snd (filter (fun u => Nat.eqb (fst u) j) (flat_map g l))) = total op e (map (contributions op e g j) l).
  Proof.
    intros g j. induction l as [|c l IH]; cbn [flat_map map]; auto.
    rewrite filter_app, map_app, (total_app op e Hm), IH. unfold total. cbn [fold_right]. auto.
  Qed.

  Lemma vloop_rank_ok : forall n p g r x, 
    (forall i, In i (loop_indices (nodeinfo lat r) p) -> Forall (fun u => (fst u < n)%nat) (g (coordinates (nodeinfo lat r) i))) ->
    exists y, vloop_rank V lat op n p g r x = Some y /\ forall j, y j = op (x j) (vlocal p g j r).
  Proof.
    intros n p g r x H. unfold vloop_rank.
    assert (E : flat_map (fun i => g (coordinates (nodeinfo lat r) i)) (loop_indices (nodeinfo lat r) p) =
                flat_map g (map (coordinates (nodeinfo lat r)) (loop_indices (nodeinfo lat r) p))).
    { generalize (loop_indices (nodeinfo lat r) p). induction l; cbn [flat_map map]; congruence. }
    rewrite E. destruct (vupdates_ok n (flat_map g (map (coordinates (nodeinfo lat r)) (loop_indices (nodeinfo lat r) p))) x) as (y & A & B).
    { apply Forall_forall. intros u Hu. apply in_flat_map in Hu. destruct Hu as (c & Hc & Hu). apply in_map_iff in Hc.
      destruct Hc as (i & <- & Hi). specialize (H i Hi). rewrite Forall_forall in H. auto. }
    exists y. split; auto. intros j. rewrite B. f_equal. rewrite contrib_flat. unfold vlocal, local_reduce.
    rewrite (fold_left_total op e Hm), (m_unit op e Hm), map_map. auto.
  Qed.

  Lemma vloop_ranks_ok : forall n p g rs x, NoDup rs ->
    (forall r, In r rs -> forall i, In i (loop_indices (nodeinfo lat r) p) -> Forall (fun u => (fst u < n)%nat) (g (coordinates (nodeinfo lat r) i))) ->
    exists y, vloop_ranks V lat op n p g rs x = Some y /\
      (forall r, In r rs -> forall j, y r j = op (x r j) (vlocal p g j r)) /\ (forall r, ~ In r rs -> y r = x r).
  Proof.
    intros n p g. induction rs as [|r rs IH]; intros x Hn H; cbn [vloop_ranks].
    - exists x. split; auto. split; auto. intros r [].
    - inversion Hn as [|? ? Hr Hn']; subst. destruct (vloop_rank_ok n p g r (x r)) as (y & -> & B).
      { intros i Hi. apply H; simpl; auto. }
      destruct (IH (zupd x r y) Hn') as (z & A & C & D). { intros r' Hr'. apply H; simpl; auto. }
      exists z. split; auto. split.
      + intros r' [->|Hr'] j.
        * rewrite D by auto. rewrite zupd_same. auto.
        * rewrite C by auto. rewrite zupd_other; auto. intros ->. contradiction.
      + intros r' Hr'. simpl in Hr'. rewrite D by tauto. apply zupd_other. intros ->. tauto.
  Qed.
End Loop.

Section C20.
  Context {V : Type}.
  Variables (add mul : V -> V -> V) (zero one : V).
  Hypothesis Hadd : comm_monoid add zero.
  Hypothesis Hmul : comm_monoid mul one.
  Variable lat : lattice.
  Hypothesis Hv : valid_lattice lat.
  Variable tree : nat -> rtree.
  Hypothesis Ht : forall j, any_order lat (tree j).
  Variable junk : Z -> nat -> V.
  Variable sites : parity -> list (list Z).
  Hypothesis Hs : forall p, enumerates (l_size lat) p (sites p).

  Definition vcur (s : rvec V) : Z -> nat -> V := match vcomm s with Some res => res | None => vval s end.

  Definition vinv (a : abs_vec V) (s : rvec V) : Prop :=
    av_size a = vsize s /\ av_all a = v_allreduce s /\ av_nonblocking a = v_nonblocking s /\ av_delayed a = v_delayed s /\
    av_open a = v_delay_on s /\ v_delayed_sum s = true /\ av_pending a = (match vcomm s with Some _ => true | None => false end) /\
    (av_open a = true -> forall j, (j < av_size a)%nat -> combine_ranks add (tree j) (fun r => vcur s r j) = av_value a j) /\
    (av_open a = true -> av_pending a = false) /\
    (av_open a = false -> forall j, (j < av_size a)%nat -> vcur s 0 j = av_value a j /\
       (av_everywhere a = true -> forall r, is_rank lat r -> vcur s r j = av_value a j)).

  Lemma vwait_val : forall s, vval (vwait V s) = vcur s.
  Proof. intros s. unfold vwait, vcur. destruct (vcomm s); auto. Qed.
  Lemma vwait_comm : forall s, vcomm (vwait V s) = None.
  Proof. intros s. unfold vwait. destruct (vcomm s) eqn:E; auto. Qed.
  Lemma vwait_flags : forall s, vsize (vwait V s) = vsize s /\ v_allreduce (vwait V s) = v_allreduce s /\ v_nonblocking (vwait V s) = v_nonblocking s /\
    v_delayed (vwait V s) = v_delayed s /\ v_delay_on (vwait V s) = v_delay_on s /\ v_delayed_sum (vwait V s) = v_delayed_sum s.
  Proof. intros s. unfold vwait. destruct (vcomm s); auto 10. Qed.

  Lemma vwait_inv : forall a s, vinv a s ->
    vinv (mkAbsVec (av_size a) (av_value a) (av_everywhere a) (av_open a) false (av_all a) (av_nonblocking a) (av_delayed a)) (vwait V s).
  Proof.
    intros a s (A0 & A1 & A2 & A3 & A4 & A5 & A6 & A7 & A8 & A9). destruct (vwait_flags s) as (W0 & W1 & W2 & W3 & W4 & W5).
    assert (Ec : vcur (vwait V s) = vcur s) by (unfold vcur at 1; rewrite vwait_comm; apply vwait_val).
    unfold vinv. cbn [av_size av_all av_nonblocking av_delayed av_open av_pending av_value av_everywhere].
    rewrite W0, W1, W2, W3, W4, W5, vwait_comm, Ec. auto 12.
  Qed.

  Lemma vreduce_op_ok : forall op s, vcomm s = None ->
    let t := vreduce_operation V junk tree op s in
    (forall j, vcur t 0 j = combine_ranks op (tree j) (fun r => vval s r j)) /\
    (v_allreduce s = true -> forall r j, vcur t r j = combine_ranks op (tree j) (fun r => vval s r j)) /\
    vsize t = vsize s /\ v_allreduce t = v_allreduce s /\ v_nonblocking t = v_nonblocking s /\ v_delayed t = v_delayed s /\
    v_delay_on t = v_delay_on s /\ v_delayed_sum t = v_delayed_sum s /\
    (match vcomm t with Some _ => true | None => false end) = v_nonblocking s.
  Proof.
    intros op s Hc. unfold vreduce_operation. assert (E : vwait V s = s) by (unfold vwait; rewrite Hc; auto). cbv zeta. rewrite E.
    unfold vcur. destruct (v_nonblocking s) eqn:En; cbn [vcomm vval vsize v_allreduce v_nonblocking v_delayed v_delay_on v_delayed_sum];
      (split; [intros j; rewrite Z.eqb_refl, orb_true_r; auto|]); (split; [intros ->; auto|]); auto 10.
  Qed.

  Lemma vnew_inv : forall n, vinv (abs_vec_new zero n) (rvec_new zero n).
  Proof. intros n. unfold vinv, abs_vec_new, rvec_new, vcur; cbn. repeat (split; auto). discriminate. Qed.

  Lemma vclose_open : forall a s, vinv a s -> av_open a = true ->
    vinv (mkAbsVec (av_size a) (av_value a) (av_all a) false (av_nonblocking a) (av_all a) (av_nonblocking a) (av_delayed a)) (vstart V add mul junk tree s).
  Proof.
    intros a s (A0 & A1 & A2 & A3 & A4 & A5 & A6 & A7 & A8 & A9) Ho. unfold vstart. rewrite <- A4, Ho, A5.
    specialize (A8 Ho). rewrite A8 in A6. destruct (vcomm s) eqn:Ec; [discriminate|].
    set (s1 := mkRvec _ _ _ _ _ _ _ _). destruct (vreduce_op_ok add s1) as (D1 & D2 & D3 & D4 & D5 & D6 & D7 & D8 & D9); [auto|].
    cbv zeta in *. unfold vinv. cbn [av_size av_all av_nonblocking av_delayed av_open av_pending av_value av_everywhere].
    rewrite D3, D4, D5, D6, D7, D8, D9. subst s1. cbn [vsize v_allreduce v_nonblocking v_delayed v_delay_on v_delayed_sum vval] in *.
    assert (Ecur : vcur s = vval s) by (unfold vcur; rewrite Ec; auto). rewrite Ecur in *.
    do 7 (split; auto). split; [discriminate|]. split; [discriminate|]. intros _ j Hj. split.
    - rewrite D1. apply A7; auto.
    - intros Ha r Hr. rewrite D2 by congruence. apply A7; auto.
  Qed.

  Lemma vstart_closed : forall a s, vinv a s -> av_open a = false -> vstart V add mul junk tree s = s.
  Proof. intros a s (A0 & A1 & A2 & A3 & A4 & _) Ho. unfold vstart. rewrite <- A4, Ho. auto. Qed.

  Lemma in_range_ok : forall n p g, forallb (fun c => forallb (fun u : nat * V => (fst u <? n)%nat) (g c)) (sites p) = true ->
    forall r, is_rank lat r -> forall i, In i (loop_indices (nodeinfo lat r) p) -> Forall (fun u => (fst u < n)%nat) (g (coordinates (nodeinfo lat r) i)).
  Proof.
    intros n p g H r Hr i Hi. rewrite forallb_forall in H.
    assert (Hin : In (coordinates (nodeinfo lat r) i) (sites p)).
    { apply (proj2 (Hs p)). assert (Hvis : In (coordinates (nodeinfo lat r) i) (map (coordinates (nodeinfo lat r)) (loop_indices (nodeinfo lat r) p))) by (apply in_map; auto).
      apply (proj2 (loop_visits lat r p Hv Hr)) in Hvis. destruct Hvis. split; auto. apply (holds_is_site lat r); auto. }
    specialize (H _ Hin). rewrite forallb_forall in H. apply Forall_forall. intros u Hu. apply Nat.ltb_lt. apply H. auto.
  Qed.

  Lemma vec_step_ok : forall op a s a' o, vinv a s -> abs_vec_step add mul zero one sites op a = Some (a', o) ->
    exists s' o', vec_step add mul zero one lat junk tree op s = Some (s', o') /\ vinv a' s' /\ agrees lat o o'.
  Proof.
    intros op a s a' o Hi Hst. destruct op as [v|j v|prod p g| | | |j|b|b|b]; cbn [abs_vec_step vec_step] in *.
    - destruct (av_pending a || av_open a) eqn:Eg; [discriminate|]. inversion Hst; subst; clear Hst.
      apply orb_false_iff in Eg. destruct Eg as [Ep Eo].
      destruct Hi as (A0 & A1 & A2 & A3 & A4 & A5 & A6 & A7 & A8 & A9). rewrite Ep in A6.
      unfold vassign. destruct (vcomm s) eqn:Ec; [discriminate|]. eexists _, _. split; [reflexivity|]. split; [|exact I].
      unfold vinv, vcur, set_vval. cbn [av_size av_all av_nonblocking av_delayed av_open av_pending av_value av_everywhere vsize v_allreduce v_nonblocking v_delayed v_delay_on v_delayed_sum vval vcomm].
      rewrite Ec. do 7 (split; [solve [auto|congruence]|]). split; [discriminate|]. split; auto.
    - destruct (av_pending a || av_open a || negb (j <? av_size a)%nat) eqn:Eg; [discriminate|]. inversion Hst; subst; clear Hst.
      apply orb_false_iff in Eg. destruct Eg as [Eg Ej]. apply orb_false_iff in Eg. destruct Eg as [Ep Eo]. apply negb_false_iff in Ej.
      destruct Hi as (A0 & A1 & A2 & A3 & A4 & A5 & A6 & A7 & A8 & A9). rewrite Ep in A6.
      destruct (vcomm s) eqn:Ec; [discriminate|]. rewrite <- A0, Ej. eexists _, _. split; [reflexivity|]. split; [|exact I].
      unfold vinv, vcur, set_vval in *. cbn [av_size av_all av_nonblocking av_delayed av_open av_pending av_value av_everywhere vsize v_allreduce v_nonblocking v_delayed v_delay_on v_delayed_sum vval vcomm].
      rewrite Ec in *. do 7 (split; [solve [auto|congruence]|]). split; [discriminate|]. split; auto.
      intros _ k Hk. destruct (A9 Eo k Hk) as [B1 B2]. destruct (Nat.eqb k j); auto.
    - destruct (negb (forallb _ _)) eqn:Ef in Hst; [discriminate|]. apply negb_false_iff in Ef.
      assert (Hw := vwait_inv a s Hi). destruct Hw as (A0 & A1 & A2 & A3 & A4 & A5 & A6 & A7 & A8 & A9).
      cbn [av_size av_all av_nonblocking av_delayed av_open av_pending av_value av_everywhere] in *.
      assert (Ec := vwait_comm s). unfold vinit. cbv zeta. set (w := vwait V s) in *. clearbody w.
      assert (Ecur : vcur w = vval w) by (unfold vcur; rewrite Ec; auto). rewrite Ecur in *.
      set (op := if prod then mul else add) in *. set (e := if prod then one else zero) in *.
      assert (Hm : comm_monoid op e) by (unfold op, e; destruct prod; auto).
      set (x0 := fun r => if negb (r =? 0) && negb (v_delay_on w) then (fun _ => e) else vval w r).
      unfold set_vval at 1. cbn [vsize]. unfold set_vval at 1. cbn [vval].
      destruct (vloop_ranks_ok lat op e Hm (vsize w) p g (zrange 0 (Z.to_nat (number_of_nodes lat))) x0 (zrange_NoDup _ _)) as (y & Ey & Y1 & Y2).
      { intros r Hr. apply rank_range in Hr. rewrite <- A0. apply in_range_ok; auto. }
      change (vloop_ranks V lat op (vsize w) p g (zrange 0 (Z.to_nat (number_of_nodes lat))) (fun r => if negb (r =? 0) && negb (v_delay_on w) then fun _ => e else vval w r)) with
             (vloop_ranks V lat op (vsize w) p g (zrange 0 (Z.to_nat (number_of_nodes lat))) x0).
      rewrite Ey.
      assert (HL : forall j, combine_ranks op (tree j) (vlocal lat op e p g j) = total op e (map (contributions op e g j) (sites p))).
      { intros j. apply (combine_loop lat Hv (tree j) (Ht j) op e Hm p (contributions op e g j) (sites p) (Hs p)). }
      assert (HY : forall j, combine_ranks op (tree j) (fun r => y r j) =
                op (combine_ranks op (tree j) (fun r => x0 r j)) (total op e (map (contributions op e g j) (sites p)))).
      { intros j. rewrite <- HL. rewrite <- (combine_op (tree j) op e Hm). apply combine_ext. intros r Hr.
        apply (tree_rank lat (tree j) (Ht j)) in Hr. apply (rank_range lat) in Hr. apply Y1. auto. }
      unfold vreduce, set_vval. cbn [v_delayed v_delay_on v_delayed_sum vsize vval vcomm v_allreduce v_nonblocking].
      rewrite A3 in Hst. destruct (v_delayed w) eqn:Ed.
      + destruct prod; [discriminate|]. inversion Hst; subst a' o; clear Hst. rewrite A5.
        replace (v_delay_on w && Bool.eqb true false) with false by (rewrite andb_false_r; auto).
        eexists _, _. split; [reflexivity|]. split; [|exact I].
        unfold vinv, vcur. cbn [av_size av_all av_nonblocking av_delayed av_open av_pending av_value av_everywhere vsize v_allreduce v_nonblocking v_delayed v_delay_on v_delayed_sum vval vcomm].
        rewrite Ec. do 7 (split; [solve [auto|congruence]|]). split; [|split; [auto|discriminate]].
        intros _ j Hj. unfold op, e in *. rewrite HY. f_equal. unfold x0. destruct (v_delay_on w) eqn:Edo.
        * rewrite <- (A7 A4 j Hj). apply combine_ext. intros r _. rewrite andb_false_r. auto.
        * destruct (A9 A4 j Hj) as [B1 _]. apply (combine_root lat Hv (tree j) (Ht j) add zero Hadd); auto.
          intros r _ Hr. replace (r =? 0) with false by lia. auto.
      + destruct (av_open a) eqn:Eo; [discriminate|]. inversion Hst; subst a' o; clear Hst.
        eexists _, _. split; [reflexivity|]. split; [|exact I]. fold op.
        set (s1 := mkRvec _ _ _ _ _ _ _ _). destruct (vreduce_op_ok op s1) as (D1 & D2 & D3 & D4 & D5 & D6 & D7 & D8 & D9); [auto|].
        cbv zeta in *. unfold vinv. cbn [av_size av_all av_nonblocking av_delayed av_open av_pending av_value av_everywhere].
        rewrite D3, D4, D5, D6, D7, D8, D9. subst s1. cbn [vsize v_allreduce v_nonblocking v_delayed v_delay_on v_delayed_sum vval] in *.
        assert (HV : forall j, (j < av_size a)%nat -> combine_ranks op (tree j) (fun r => y r j) = op (av_value a j) (total op e (map (contributions op e g j) (sites p)))).
        { intros j Hj. rewrite HY. f_equal. destruct (A9 eq_refl j Hj) as [B1 _]. apply (combine_root lat Hv (tree j) (Ht j) op e Hm); unfold x0; auto.
          intros r _ Hr. rewrite <- A4. replace (r =? 0) with false by lia. auto. }
        do 7 (split; [solve [auto|congruence]|]). split; [discriminate|]. split; [discriminate|].
        intros _ j Hj. split; [rewrite D1; auto|]. intros Ha r Hr. rewrite D2 by congruence. auto.
    - eexists _, _. split; [reflexivity|]. destruct (av_open a) eqn:Eo; inversion Hst; subst; clear Hst; split; try exact I.
      + apply vclose_open; auto.
      + rewrite (vstart_closed a s Hi Eo). rewrite andb_true_r. destruct a; cbn in *; subst; auto.
    - inversion Hst; subst; clear Hst. eexists _, _. split; [reflexivity|]. split; [|exact I]. apply vwait_inv; auto.
    - inversion Hst; subst; clear Hst. eexists _, _. split; [reflexivity|]. split; [|exact I].
      destruct (av_open a) eqn:Eo.
      + apply (vwait_inv _ _ (vclose_open a s Hi Eo)).
      + rewrite (vstart_closed a s Hi Eo). assert (Hw := vwait_inv a s Hi). rewrite Eo in Hw. rewrite andb_false_r. exact Hw.
    - destruct (av_pending a || av_open a || negb (j <? av_size a)%nat) eqn:Eg; [discriminate|]. inversion Hst; subst; clear Hst.
      apply orb_false_iff in Eg. destruct Eg as [Eg Ej]. apply orb_false_iff in Eg. destruct Eg as [Ep Eo]. apply negb_false_iff in Ej.
      assert (Hi' := Hi). destruct Hi as (A0 & A1 & A2 & A3 & A4 & A5 & A6 & A7 & A8 & A9). rewrite Ep in A6.
      unfold vcur in A9. destruct (vcomm s) eqn:Ec; [discriminate|]. rewrite <- A0, Ej. eexists _, _. split; [reflexivity|]. split; auto.
      cbn [agrees]. apply Nat.ltb_lt in Ej. destruct (A9 Eo j Ej). auto.
    - inversion Hst; subst; clear Hst. eexists _, _. split; [reflexivity|]. split; [|exact I].
      destruct Hi as (A0 & A1 & A2 & A3 & A4 & A5 & A6 & A7 & A8 & A9). unfold vinv, vcur in *; cbn in *. auto 12.
    - inversion Hst; subst; clear Hst. eexists _, _. split; [reflexivity|]. split; [|exact I].
      destruct Hi as (A0 & A1 & A2 & A3 & A4 & A5 & A6 & A7 & A8 & A9). unfold vinv, vcur in *; cbn in *. auto 12.
    - inversion Hst; subst; clear Hst. eexists _, _. split; [reflexivity|]. split; [|exact I].
      destruct Hi as (A0 & A1 & A2 & A3 & A4 & A5 & A6 & A7 & A8 & A9). unfold vinv, vcur in *; cbn in *. auto 12.
  Qed.

  Lemma vec_run_ok : forall ops a s os, vinv a s -> abs_vec_run add mul zero one sites ops a = Some os ->
    exists os', vec_run add mul zero one lat junk tree ops s = Some os' /\ Forall2 (agrees lat) os os'.
  Proof.
    induction ops as [|op ops IH]; intros a s os Hi Hr; cbn [abs_vec_run vec_run] in *.
    - inversion Hr; subst. exists []. split; auto.
    - destruct (abs_vec_step add mul zero one sites op a) as [[a' o]|] eqn:E; [|discriminate].
      destruct (vec_step_ok op a s a' o Hi E) as (s' & o' & -> & Hi' & Ha).
      destruct (abs_vec_run add mul zero one sites ops a') as [os1|] eqn:E1; [|discriminate]. inversion Hr; subst.
      destruct (IH a' s' os1 Hi' E1) as (os' & -> & Hf). exists (o' :: os'). split; auto.
  Qed.
End C20.
