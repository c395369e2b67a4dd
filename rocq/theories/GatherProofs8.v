(** From the system invariant to the statements about user programs. *)
From Verif Require Import Common LayoutModel LayoutSpec LayoutProofs1 LayoutProofs2 LayoutProofs4
  LayoutProofs5 LayoutProofs6 LayoutProofs7 LayoutProofs8 GatherModel GatherSpec GatherProofs1 GatherProofs2
  GatherProofs3 GatherProofs4 GatherProofs5 GatherProofs6 GatherProofs7.

Lemma neighbour_is_periodic : forall lat c d, valid_lattice lat -> is_direction (l_size lat) d ->
  is_site (l_size lat) c -> periodic_neighbour (l_size lat) c d (neighbour lat c d).
Proof.
  intros lat c d Hv Hd Hc.
  set (c' := map (fun j => (nth j c 0 + displacement (Z.of_nat (length (l_size lat))) d j) mod nth j (l_size lat) 0)
                 (seq 0 (length (l_size lat)))).
  assert (P : periodic_neighbour (l_size lat) c d c').
  { split; [|split].
    - destruct Hc as [E _]. auto.
    - unfold c'. rewrite map_length, seq_length. auto.
    - intros j Hj. unfold c'. rewrite nth_indep with (d' := (fun j => (nth j c 0 + displacement (Z.of_nat (length (l_size lat))) d j) mod nth j (l_size lat) 0) 0%nat)
        by (rewrite map_length, seq_length; auto).
      rewrite (map_nth (fun j => (nth j c 0 + displacement (Z.of_nat (length (l_size lat))) d j) mod nth j (l_size lat) 0)).
      rewrite seq_nth by auto. reflexivity. }
  rewrite <- (neighbour_periodic lat c d c'); auto.
Qed.

Lemma list_sum_lt : forall X (f g : X -> nat) l, (forall x, In x l -> (f x <= g x)%nat) ->
  (exists x, In x l /\ (f x < g x)%nat) -> (list_sum (map f l) < list_sum (map g l))%nat.
Proof.
  intros X f g l. induction l as [|a l IH]; intros Hle (x & Hi & Hx); [destruct Hi|].
  cbn. assert (H1 : (list_sum (map f l) <= list_sum (map g l))%nat).
  { clear IH Hi. induction l as [|b l IH]; cbn; auto.
    assert (H1 := Hle b (or_intror (or_introl eq_refl))).
    assert (H2 : (list_sum (map f l) <= list_sum (map g l))%nat).
    { apply IH. intros y [->|Hy]; apply Hle; cbn; auto. }
    unfold list_sum in H2. lia. }
  destruct Hi as [->|Hi].
  - unfold list_sum in *. lia.
  - assert (H2 := IH (fun y Hy => Hle y (or_intror Hy)) (ex_intro _ x (conj Hi Hx))).
    assert (H3 := Hle a (or_introl eq_refl)). unfold list_sum in *. lia.
Qed.

Lemma Forall2_len : forall X Y (R : X -> Y -> Prop) l l', Forall2 R l l' -> length l = length l'.
Proof. intros X Y R l l' H. induction H; cbn; auto. Qed.

Section Final.
  Variable V : Type.
  Variable lat : lattice.
  Hypothesis Hv : valid_lattice lat.
  Hypothesis Hev : even_where_split lat.
  Variable prog : list (mop V).
  Variable F0 : Z -> list Z -> V.
  Hypothesis Hprog : prog_ok (op_ok lat) (ainit F0) prog.

  Local Notation dir := (is_direction (l_size lat)).
  Local Notation from r d := (cn_rank (from_node lat r d)).
  Local Notation to r d := (cn_rank (to_node lat r d)).
  Local Notation A := (A V prog F0).
  Local Notation msg := (msg V prog F0).
  Local Notation tagof := (tagof V prog F0).
  Local Notation cnt := (cnt V lat prog F0).
  Local Notation env := (env V lat prog F0).
  Local Notation sys_ok := (sys_ok V lat prog F0).
  Local Notation pc g r := (rs_pc V (sys_rank V g r)).

  Lemma execution_sys : forall g ls g', sys_ok g -> execution lat prog g ls g' -> sys_ok g'.
  Proof.
    intros g ls g' H E. induction E; auto. apply IHE.
    apply (step_sys V lat Hv Hev prog F0 Hprog g l g1); auto.
  Qed.

  (** *** Reads *)
  Lemma astep_log : forall os (a : @astate V), exists X, aL (arun a os) = X ++ aL a.
  Proof.
    induction os as [|o os IH]; intros a; [exists []; auto|].
    destruct (IH (astep a o)) as (X & E). cbn [arun fold_left] in *. unfold arun in E. rewrite E.
    destruct o; cbn [astep aL]; eauto. exists (X ++ [(aF a f, d, p)]). rewrite <- app_assoc. auto.
  Qed.

  Lemma reads_exact_values : forall r vals e, is_rank lat r -> dir (snd (fst e)) ->
    reads_exact V lat r vals e -> read_values lat r e vals.
  Proof.
    intros r vals [[F d] p] Hr Hd E. cbn in E, Hd. subst vals. cbn.
    set (ni := nodeinfo lat r). assert (HI : forall i, In i (loop_indices ni p) -> holds lat r (coordinates ni i)).
    { intros i Hi. apply (loop_index lat Hv r p i Hr Hi). }
    revert HI. induction (loop_indices ni p) as [|i l IH]; intros HI; constructor.
    - exists (neighbour lat (coordinates ni i) d). split; auto. apply neighbour_is_periodic; auto.
      eapply holds_is_site; eauto. apply HI. left; auto.
    - apply IH. intros. apply HI. right; auto.
  Qed.

  Lemma A_full : forall k, arun (A k) (skipn k prog) = A (length prog).
  Proof.
    intros k. unfold GatherProofs4.A. rewrite <- arun_app, firstn_skipn, firstn_all. auto.
  Qed.

  Lemma log_dirs : forall k, Forall (fun e => dir (snd (fst e))) (aL (A k)).
  Proof.
    induction k as [|k IH]; [constructor|].
    destruct (nth_error prog k) as [o|] eqn:E.
    - assert (Hok := A_ok V lat prog F0 Hprog k o E). rewrite (A_S V prog F0 k o E).
      destruct o; cbn [astep aL]; auto. constructor; auto. apply Hok.
    - unfold GatherProofs4.A in *. apply nth_error_None in E. rewrite firstn_all2 in * by lia. auto.
  Qed.

  Lemma log_ok : forall g r, is_rank lat r -> sys_ok g ->
    Forall2 (read_values lat r) (firstn (length (rs_log V (sys_rank V g r))) (rev (aL (A (length prog)))))
            (rev (rs_log V (sys_rank V g r))) /\
    (pc g r = length prog -> length (rs_log V (sys_rank V g r)) = length (aL (A (length prog)))).
  Proof.
    intros g r Hr H. assert (L := ro_log _ _ _ _ _ _ _ _ _ (so_rank _ _ _ _ _ H r Hr)).
    assert (D := log_dirs (pc g r)).
    assert (Elen := Forall2_len _ _ _ _ _ L).
    split; [|intros E; rewrite E in Elen; auto].
    destruct (astep_log (skipn (pc g r) prog) (A (pc g r))) as (X & E). rewrite A_full in E. rewrite E, rev_app_distr.
    rewrite Elen, <- rev_length, firstn_app, firstn_all, Nat.sub_diag, app_nil_r.
    assert (L' : Forall2 (read_values lat r) (aL (A (pc g r))) (rs_log V (sys_rank V g r))).
    { revert D L. generalize (rs_log V (sys_rank V g r)). generalize (aL (A (pc g r))).
      intros l l' D L. induction L; constructor; inversion D; subst; auto. apply reads_exact_values; auto. }
    revert L'. generalize (rs_log V (sys_rank V g r)). generalize (aL (A (pc g r))).
    intros l l' L'. induction L'; cbn; auto. apply Forall2_app; auto.
  Qed.

  (** *** No undefined behaviour, no exit *)
  Lemma never_undefined : forall g r o, is_rank lat r -> sys_ok g -> nth_error prog (pc g r) = Some o ->
    exec_mop V lat r o (sys_rank V g r) <> Undefined.
  Proof.
    intros g r o Hr H E X. assert (Y := exec_ok V lat Hv Hev prog F0 Hprog _ r _ _ _ Hr (so_rank _ _ _ _ _ H r Hr) E).
    rewrite X in Y. auto.
  Qed.
  Lemma never_exits : forall g r o, is_rank lat r -> sys_ok g -> prog_ok wait_ok (ainit F0) prog ->
    nth_error prog (pc g r) = Some o -> exec_mop V lat r o (sys_rank V g r) <> Exited.
  Proof.
    intros g r o Hr H Hw E X. assert (Y := exec_ok V lat Hv Hev prog F0 Hprog _ r _ _ _ Hr (so_rank _ _ _ _ _ H r Hr) E).
    rewrite X in Y. apply Y. apply (prog_ok_nth _ _ _ _ _ Hw); auto.
  Qed.

  (** *** Progress *)
  Lemma min_rank : forall (m : Z -> nat) n, 0 < n -> exists r, 0 <= r < n /\ forall r', 0 <= r' < n -> (m r <= m r')%nat.
  Proof.
    intros m n Hn. pattern n. apply (Zlt_lower_bound_ind _ 1); [|lia]. clear n Hn. intros n IH Hn.
    destruct (Z.eq_dec n 1) as [->|Hn1].
    - exists 0. split; [lia|]. intros r' Hr'. replace r' with 0 by lia. auto.
    - destruct (IH (n - 1)) as (r & Hr & Hm); [lia|].
      destruct (Nat.le_gt_cases (m r) (m (n - 1))) as [C|C].
      + exists r. split; [lia|]. intros r' Hr'. destruct (Z.eq_dec r' (n - 1)) as [->|]; [auto|]. apply Hm. lia.
      + exists (n - 1). split; [lia|]. intros r' Hr'. destruct (Z.eq_dec r' (n - 1)) as [->|]; [auto|].
        assert (X := Hm r' ltac:(lia)). lia.
  Qed.

  Lemma progress : forall g, sys_ok g -> prog_ok wait_ok (ainit F0) prog -> ~ finished lat prog g ->
    exists l g', is_rank lat (label_rank l) /\ step V lat prog g l = Some g'.
  Proof.
    intros g H Hw Hf.
    destruct (Z_le_dec (number_of_nodes lat) 0) as [C|C].
    { exfalso. apply Hf. intros r Hr. unfold is_rank in Hr. lia. }
    destruct (min_rank (fun r => pc g r) (number_of_nodes lat)) as (r & Hr & Hmin); [lia|]. cbn beta in Hmin.
    change (is_rank lat r) in Hr.
    destruct (nth_error prog (pc g r)) as [o|] eqn:Eo.
    2:{ exfalso. apply Hf. intros r' Hr'. apply nth_error_None in Eo. assert (X := so_pc _ _ _ _ _ H r' Hr').
        assert (Y := Hmin r' Hr'). lia. }
    assert (E := exec_ok V lat Hv Hev prog F0 Hprog _ r _ _ _ Hr (so_rank _ _ _ _ _ H r Hr) Eo).
    destruct (exec_mop V lat r o (sys_rank V g r)) as [s'| | |] eqn:Ex.
    - exists (Exec r). eexists. split; [exact Hr|]. cbn [step]. rewrite Eo, Ex. reflexivity.
    - destruct E as (f & d & q & Hd & E). destruct E as [[Hn (peer & t & n & E)]|[Hn (peer & t & n & E)]].
      + destruct (pending_recv V lat prog F0 g r f d q peer t n Hr H E) as (j & Hj & Hm & _ & _ & Ep & Et & Ec & Hne & _ & _).
        destruct (sys_net V g peer r t n) as [|pl|] eqn:En; [|exists (Deliver r (f, d, q))|congruence].
        * assert (Hp : is_rank lat peer) by (subst peer; apply from_is_rank; auto).
          assert (Hpr : peer <> r) by congruence.
          assert (Hto : to peer d = r) by (apply (peers_match lat Hv peer r d Hp Hr Hpr Hd); auto).
          assert (Y := ro_n2 _ _ _ _ _ _ _ _ _ (so_rank _ _ _ _ _ H peer Hp) j f d q).
          rewrite Hto in Y. exists (Transmit peer (f, d, q)). eexists. split; [exact Hp|]. cbn [step].
          rewrite Y; [reflexivity| |exact Hm|congruence|subst t n; exact En].
          assert (X := Hmin peer Hp). lia.
        * eexists. split; [exact Hr|]. cbn [step]. rewrite E, En. reflexivity.
      + exists (Transmit r (f, d, q)). eexists. split; [exact Hr|]. cbn [step]. rewrite E. reflexivity.
    - exfalso. apply E. apply (prog_ok_nth _ _ _ _ _ Hw); auto.
    - destruct E.
  Qed.

  (** *** Termination *)
  Definition dir_of (j : nat) : option Z :=
    match nth_error prog j with
    | Some (MStart f d p) => match check_communication false (aS (A j) f d) p with CDo _ => Some d | _ => None end
    | _ => None
    end.
  Lemma msg_dir_of : forall j f d q, msg j f d q -> dir_of j = Some d.
  Proof. intros j f d q (p & E & C). unfold dir_of. rewrite E, C. auto. Qed.

  Definition net_weight (m : message V) : nat := match m with Absent _ => 2 | InFlight _ _ => 1 | Received _ => 0 end.
  Definition weight (g : system V) (sj : Z * nat) : nat :=
    let '(s, j) := sj in
    if (j <? pc g s)%nat then
      match dir_of j with
      | None => 0
      | Some d => if to s d =? s then 0 else net_weight (sys_net V g s (to s d) (tagof j) (cnt s (to s d) (tagof j) j))
      end
    else 3.
  Definition points : list (Z * nat) := list_prod (zrange 0 (Z.to_nat (number_of_nodes lat))) (seq 0 (length prog)).
  Definition measure (g : system V) : nat := list_sum (map (weight g) points).

  Lemma points_In : forall r j, is_rank lat r -> (j < length prog)%nat -> In (r, j) points.
  Proof.
    intros r j Hr Hj. apply in_prod; [apply zrange_In; unfold is_rank in Hr; lia|apply in_seq; lia].
  Qed.

  Lemma net_lower : forall (g g' : system V) r, (forall s, pc g' s = pc g s) ->
    (forall s r t n, (net_weight (sys_net V g' s r t n) <= net_weight (sys_net V g s r t n))%nat) ->
    (exists s j d, is_rank lat s /\ (j < pc g s)%nat /\ (j < length prog)%nat /\ dir_of j = Some d /\ to s d <> s /\ r = to s d /\
      (net_weight (sys_net V g' s r (tagof j) (cnt s r (tagof j) j)) < net_weight (sys_net V g s r (tagof j) (cnt s r (tagof j) j)))%nat) ->
    (measure g' < measure g)%nat.
  Proof.
    intros g g' r Hpc Hle (s & j & d & Hs & Hj & Hj2 & Ed & Hto & -> & Hlt). apply list_sum_lt.
    - intros [s' j'] _. unfold weight. rewrite Hpc. destruct (j' <? pc g s')%nat; auto. destruct (dir_of j'); auto.
      destruct (to s' z =? s'); auto.
    - exists (s, j). split; [apply points_In; auto|]. unfold weight. rewrite Hpc.
      destruct (Nat.ltb_spec j (pc g s)); [|lia]. rewrite Ed. destruct (Z.eqb_spec (to s d) s); [contradiction|]. auto.
  Qed.

  Lemma step_measure : forall g l g', sys_ok g -> is_rank lat (label_rank l) -> step V lat prog g l = Some g' ->
    (measure g' < measure g)%nat.
  Proof.
    intros g l g' H Hr E. destruct l as [r|r [[f d] q]|r [[f d] q]]; cbn [step label_rank] in *.
    - destruct (nth_error prog (pc g r)) as [o|] eqn:Eo; [|discriminate].
      destruct (exec_mop V lat r o (sys_rank V g r)) as [s'| | |] eqn:Ex; try discriminate.
      inversion E; subst g'. clear E. apply list_sum_lt.
      + intros [s j] _. unfold weight. cbn [sys_net sys_rank set_rank].
        destruct (zupd_cases _ (sys_rank V g) r (set_pc V s' (S (pc g r))) s) as [[-> ->]|[_ ->]]; auto.
        cbn [rs_pc set_pc]. destruct (Nat.ltb_spec j (S (pc g r))), (Nat.ltb_spec j (pc g r)); auto; try lia.
        destruct (dir_of j); [|lia]. destruct (to r z =? r); [lia|]. destruct (sys_net _ _ _ _ _ _); cbn; lia.
      + exists (r, pc g r). assert (Hl : (pc g r < length prog)%nat) by (apply nth_error_Some; congruence).
        split; [apply points_In; auto|]. unfold weight. cbn [sys_net sys_rank set_rank]. rewrite zupd_same. cbn [rs_pc set_pc].
        rewrite Nat.ltb_irrefl. destruct (Nat.ltb_spec (pc g r) (S (pc g r))); [|lia].
        destruct (dir_of (pc g r)); [|lia]. destruct (to r z =? r); [lia|]. destruct (sys_net _ _ _ _ _ _); cbn; lia.
    - destruct (rs_sreq V (sys_rank V g r) (f, d, q)) as [|peer t n|] eqn:Eq; try discriminate.
      destruct (pending_send V lat prog F0 g r f d q peer t n Hr H Eq) as (j & Hj & Hm & Hd & Hto & -> & -> & -> & Hab & _ & _).
      inversion E; subst g'. clear E.
      match goal with |- (measure (set_net V ?g1 ?a ?b ?c ?e ?m) < _)%nat => set (g1' := g1); set (pl := m) end.
      apply (net_lower _ _ (to r d)).
      + intros s. cbn. destruct (zupd_cases _ (sys_rank V g) r (set_sreq V (sys_rank V g r) (kupd (rs_sreq V (sys_rank V g r)) (f, d, q) Complete)) s) as [[-> ->]|[_ ->]]; auto.
      + intros s r0 t0 n0.
        destruct (set_net_cases V g1' r (to r d) (tagof j) (cnt r (to r d) (tagof j) j) pl s r0 t0 n0) as [(-> & -> & -> & -> & ->)|[_ ->]]; auto.
        rewrite Hab. cbn. lia.
      + exists r, j, d. split; [auto|split; [auto|]]. assert (X := so_pc _ _ _ _ _ H r Hr). split; [lia|].
        split; [eapply msg_dir_of; eauto|]. split; auto. split; auto.
        destruct (set_net_cases V g1' r (to r d) (tagof j) (cnt r (to r d) (tagof j) j) pl r (to r d) (tagof j) (cnt r (to r d) (tagof j) j)) as [(_ & _ & _ & _ & ->)|[Xn _]]; [|intuition congruence].
        rewrite Hab. cbn. lia.
    - destruct (rs_rreq V (sys_rank V g r) (f, d, q)) as [|peer t n|] eqn:Eq; try discriminate.
      destruct (sys_net V g peer r t n) as [|pl|] eqn:En; try discriminate.
      destruct (pending_recv V lat prog F0 g r f d q peer t n Hr H Eq) as (_ & _ & _ & Hd & Hfr & Ep & _ & _ & _ & _ & _).
      assert (Hp : is_rank lat peer) by (subst peer; apply from_is_rank; auto).
      destruct (so_net _ _ _ _ _ H peer r t n pl Hp Hr En) as (j & f' & d' & q' & Hj & Hm & Hto & Hne & -> & -> & _).
      inversion E; subst g'. clear E.
      match goal with |- (measure (set_net V ?g1 ?a ?b ?c ?e ?m) < _)%nat => set (g1' := g1) end.
      assert (Hpc : forall s, pc g1' s = pc g s).
      { intros s. unfold g1'. cbn. match goal with |- rs_pc V (zupd _ _ ?x _) = _ => destruct (zupd_cases _ (sys_rank V g) r x s) as [[-> ->]|[_ ->]]; auto end. }
      apply (net_lower _ _ r).
      + intros s. apply Hpc.
      + intros s r0 t0 n0.
        destruct (set_net_cases V g1' peer r (tagof j) (cnt peer r (tagof j) j) (Received V) s r0 t0 n0) as [(-> & -> & -> & -> & ->)|[_ ->]]; auto.
        rewrite En. cbn. lia.
      + exists peer, j, d'. split; [auto|split; [auto|]]. assert (X := so_pc _ _ _ _ _ H peer Hp). split; [lia|].
        split; [eapply msg_dir_of; eauto|]. split; [congruence|]. split; auto.
        destruct (set_net_cases V g1' peer r (tagof j) (cnt peer r (tagof j) j) (Received V) peer r (tagof j) (cnt peer r (tagof j) j)) as [(_ & _ & _ & _ & ->)|[Xn _]]; [|intuition congruence].
        rewrite En. cbn. lia.
  Qed.

  Lemma execution_measure : forall g ls g', sys_ok g -> execution lat prog g ls g' ->
    (length ls + measure g' <= measure g)%nat.
  Proof.
    intros g ls g' H E. induction E; cbn [length]; [lia|].
    assert (X := step_measure g l g1 H H0 H1).
    assert (Y := IHE (step_sys V lat Hv Hev prog F0 Hprog g l g1 H0 H H1)). lia.
  Qed.

  Lemma measure_bound : forall g, (measure g <= 3 * (Z.to_nat (number_of_nodes lat) * length prog))%nat.
  Proof.
    intros g. assert (E : length points = (Z.to_nat (number_of_nodes lat) * length prog)%nat).
    { unfold points. rewrite prod_length, zrange_length, seq_length. auto. }
    rewrite <- E. unfold measure. clear E. induction points as [|[s j] l IH]; [cbn; lia|].
    change (weight g (s, j) + list_sum (map (weight g) l) <= 3 * S (length l))%nat.
    assert (X : (weight g (s, j) <= 3)%nat).
    { unfold weight. destruct (j <? pc g s)%nat; [|lia]. destruct (dir_of j); [|lia]. destruct (to s z =? s); [lia|].
      destruct (sys_net _ _ _ _ _ _); cbn; lia. }
    lia.
  Qed.

  (** *** Exactly once *)
  Lemma cnt_surj : forall s r t k n, (n < cnt s r t k)%nat -> exists j, (j < k)%nat /\ env s r t j = true /\ cnt s r t j = n.
  Proof.
    intros s r t k. induction k as [|k IH]; intros n Hn; [cbn in Hn; lia|].
    rewrite cnt_S in Hn. destruct (env s r t k) eqn:E.
    - destruct (Nat.eq_dec n (cnt s r t k)) as [->|].
      + exists k. auto.
      + destruct (IH n) as (j & ? & ? & ?); [lia|]. exists j. repeat split; auto.
    - destruct (IH n) as (j & ? & ? & ?); [lia|]. exists j. repeat split; auto.
  Qed.
  Lemma env_msg : forall s r t j, env s r t j = true -> exists f d q, msg j f d q /\ to s d = r /\ tagof j = t.
  Proof.
    intros s r t j H. unfold GatherProofs4.env in H. destruct (nth_error prog j) as [[]|] eqn:E; try discriminate.
    destruct (check_communication _ _ _) as [| | |q] eqn:C; try discriminate.
    apply andb_true_iff in H. destruct H as [H1 H2]. apply Z.eqb_eq in H1, H2.
    exists f, d, q. split; [exists p; auto|auto].
  Qed.

  Lemma all_received : forall g, sys_ok g -> finished lat prog g ->
    (forall f d q, dir d -> aS (A (length prog)) f d q <> STARTED) ->
    forall s r t, is_rank lat s -> is_rank lat r -> s <> r ->
      rs_nsend V (sys_rank V g s) r t = rs_nrecv V (sys_rank V g r) s t /\
      forall n, sys_net V g s r t n = (if (n <? rs_nsend V (sys_rank V g s) r t)%nat then Received V else Absent V).
  Proof.
    intros g H Hf Hns s r t Hs Hr Hn.
    assert (Ls := so_rank _ _ _ _ _ H s Hs). assert (Lr := so_rank _ _ _ _ _ H r Hr).
    rewrite (Hf s Hs) in Ls. rewrite (Hf r Hr) in Lr.
    rewrite (ro_nsend _ _ _ _ _ _ _ _ _ Ls r t Hr) by auto.
    rewrite (ro_nrecv _ _ _ _ _ _ _ _ _ Lr s t Hs) by auto. split; auto.
    intros n. destruct (Nat.ltb_spec n (cnt s r t (length prog))) as [Hlt|Hge].
    - destruct (cnt_surj _ _ _ _ _ Hlt) as (j & Hj & He & Hc). destruct (env_msg _ _ _ _ He) as (f & d & q & Hm & Hto & Ht).
      assert (Hd := msg_dir V lat prog F0 Hprog _ _ _ _ Hm).
      assert (Hfr : from r d = s) by (apply (peers_match lat Hv s r d); auto).
      destruct (ro_n3 _ _ _ _ _ _ _ _ _ Lr j f d q Hj Hm) as [X|X]; [congruence| |].
      + rewrite Hfr, Ht, Hc in X. auto.
      + exfalso. destruct (ro_recv _ _ _ _ _ _ _ _ _ Lr f d q Hd) as [_ R]. assert (Hfn : from r d <> r) by congruence.
        specialize (R Hfn). specialize (Hns f d q Hd). destruct (aS _ f d q); try congruence. destruct R; congruence.
    - destruct (sys_net V g s r t n) eqn:En; auto;
        assert (X : sys_net V g s r t n <> Absent V) by congruence; apply (ro_n4s _ _ _ _ _ _ _ _ _ Ls) in X; lia.
  Qed.

  Lemma no_requests_left : forall g, sys_ok g -> finished lat prog g ->
    (forall f d q, dir d -> aS (A (length prog)) f d q <> STARTED) ->
    forall r k, is_rank lat r -> rs_rreq V (sys_rank V g r) k = NoReq /\ rs_sreq V (sys_rank V g r) k = NoReq.
  Proof.
    intros g H Hf Hns r [[f d] q] Hr.
    destruct (Z_le_dec 0 d) as [D1|D1]; [destruct (Z_lt_dec d (2 * Z.of_nat (length (l_size lat)))) as [D2|D2]|];
      try (apply (so_keys _ _ _ _ _ H); auto; unfold is_direction; lia).
    assert (Hd : dir d) by (unfold is_direction; lia).
    assert (Lr := so_rank _ _ _ _ _ H r Hr). rewrite (Hf r Hr) in Lr.
    destruct (ro_recv _ _ _ _ _ _ _ _ _ Lr f d q Hd) as [R1 R2].
    destruct (ro_send _ _ _ _ _ _ _ _ _ Lr f d q Hd) as [S1 S2]. specialize (Hns f d q Hd). split.
    - destruct (Z.eq_dec (from r d) r) as [E|E]; auto. specialize (R2 E). destruct (aS _ f d q); try congruence; tauto.
    - destruct (Z.eq_dec (to r d) r) as [E|E]; auto. specialize (S2 E). destruct (aS _ f d q); try congruence; tauto.
  Qed.
End Final.

(** ** Programs that free their fields end with nothing running *)
Section Free.
  Variable V : Type.
  Variable lat : lattice.
  Local Notation dir := (is_direction (l_size lat)).

  Definition mop_field (o : mop V) : Z :=
    match o with MWrite f _ _ | MChanged f _ _ | MStart f _ _ | MWait f _ _ | MDrop f _ _ | MLook f _ _ => f end.
  Lemma astep_field : forall (a : @astate V) o f d, f <> mop_field o -> aS (astep a o) f d = aS a f d.
  Proof.
    intros a o f d Hn. destruct o as [f0 p w|f0 d0 p|f0 d0 p|f0 d0 p|f0 d0 p|f0 d0 p]; cbn in *; auto;
      unfold zupd2; destruct (Z.eqb_spec f f0); try congruence; auto.
  Qed.
  Lemma arun_field : forall os (a : @astate V) f d, (forall o, In o os -> f <> mop_field o) -> aS (arun a os) f d = aS a f d.
  Proof.
    induction os as [|o os IH]; intros a f d H; auto.
    rewrite (IH (astep a o)); [apply astep_field; apply H; left; auto|]. intros; apply H; right; auto.
  Qed.
  Lemma compile_fields : forall h o, In o (compile lat h) -> exists u : api_op V, In u h /\ mop_field o = op_field u.
  Proof.
    intros h o H. apply in_flat_map in H. destruct H as (u & Hu & Ho). exists u. split; auto.
    destruct u as [f p w|f d p|f d p|f d p|f ds p|f]; cbn in Ho;
      repeat match goal with
      | H : _ \/ _ |- _ => destruct H
      | H : In _ (map _ _) |- _ => apply in_map_iff in H; destruct H as (? & <- & ?)
      | H : In _ (_ ++ _) |- _ => apply in_app_iff in H
      | H : False |- _ => destruct H
      end; subst; auto.
  Qed.

  Lemma drop_mono : forall st p q, drop_st st p q = STARTED -> st q = STARTED.
  Proof.
    intros st p q H. unfold drop_st in H.
    destruct p; repeat (apply wif_mono in H); auto.
  Qed.
  Lemma drops_mono : forall f ds (a : @astate V) f' d' q,
    aS (arun a (map (fun d => MDrop f d ALL) ds)) f' d' q = STARTED -> aS a f' d' q = STARTED.
  Proof.
    intros f ds. induction ds as [|d ds IH]; intros a f' d' q H; auto.
    apply (IH (astep a (MDrop f d ALL))) in H. cbn [astep aS] in H.
    destruct (zupd2_cases _ (aS a) f d (drop_st (aS a f d) ALL) f' d') as [(-> & -> & E)|[_ E]]; rewrite E in H; auto.
    apply drop_mono in H; auto.
  Qed.
  Lemma drops_done : forall f ds (a : @astate V) d q, aexcl a -> In d ds ->
    aS (arun a (map (fun d => MDrop f d ALL) ds)) f d q <> STARTED.
  Proof.
    intros f ds. induction ds as [|d0 ds IH]; intros a d q He Hi H; [destruct Hi|].
    destruct (in_dec Z.eq_dec d ds) as [Hi'|Hi'].
    - apply (IH (astep a (MDrop f d0 ALL)) d q); auto. apply aexcl_step; auto.
    - destruct Hi as [->|]; [|contradiction].
      apply (drops_mono f ds (astep a (MDrop f d ALL))) in H. cbn [astep aS] in H. rewrite zupd2_eq in H.
      revert H. apply drop_not_started; auto.
  Qed.

  Lemma frees_done : forall fs (a : @astate V) f d q, aexcl a -> dir d -> In f fs ->
    aS (arun a (compile lat (map OFree fs))) f d q <> STARTED.
  Proof.
    induction fs as [|f0 fs IH]; intros a f d q He Hd Hi; [destruct Hi|].
    unfold compile. cbn [map flat_map]. rewrite arun_app.
    destruct (in_dec Z.eq_dec f fs) as [Hi'|Hi'].
    - apply IH; auto. apply aexcl_run; auto.
    - destruct Hi as [->|]; [|contradiction]. fold (compile lat (map (@OFree V) fs)).
      rewrite arun_field.
      + cbn [compile_op]. apply drops_done; auto. apply dirs_In; auto.
      + intros o Ho. apply compile_fields in Ho. destruct Ho as (u & Hu & ->). apply in_map_iff in Hu.
        destruct Hu as (x & <- & Hx). cbn. intros ->. contradiction.
  Qed.

  Lemma freed_quiet : forall h fs F f d q, frees_all h fs -> dir d ->
    aS (arun (ainit F) (compile lat (h ++ map (@OFree V) fs))) f d q <> STARTED.
  Proof.
    intros h fs F f d q Hf Hd. unfold compile. rewrite flat_map_app, arun_app.
    destruct (in_dec Z.eq_dec f fs) as [Hi|Hi].
    - apply frees_done; auto. apply aexcl_run, aexcl_init.
    - rewrite !arun_field; [cbn; discriminate| |].
      + intros o Ho. apply compile_fields in Ho. destruct Ho as (u & Hu & ->). intros ->. apply Hi, Hf; auto.
      + intros o Ho. apply compile_fields in Ho. destruct Ho as (u & Hu & ->). apply in_map_iff in Hu.
        destruct Hu as (x & <- & Hx). cbn. intros ->. contradiction.
  Qed.
End Free.
