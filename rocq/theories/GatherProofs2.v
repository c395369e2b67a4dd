(** The abstract machine and programs compiled from histories. *)
From Verif Require Import Common LayoutModel LayoutSpec LayoutProofs1 LayoutProofs2 LayoutProofs4
  LayoutProofs5 LayoutProofs7 LayoutProofs8 GatherModel GatherSpec GatherProofs1.

Section Abstract.
  Context {V : Type}.
  Variable lat : lattice.

  Record astate : Type := mkA {
    aF : Z -> list Z -> V;              (* current contents *)
    aG : Z -> Z -> list Z -> V;         (* contents as of the last bookkeeping of a direction *)
    aS : Z -> Z -> parity -> gstat;
    aT : Z;
    aL : list (read_event (V := V))
  }.

  Definition astep (a : astate) (o : mop V) : astate :=
    match o with
    | MWrite f p w => mkA (assign (aF a) f p w) (aG a) (aS a) (aT a) (aL a)
    | MChanged f d p => mkA (aF a) (zupd2 (aG a) f d (aF a f))
                            (zupd2 (aS a) f d (changed_stat (drop_st (aS a f d) (opp_parity p)) p)) (aT a) (aL a)
    | MStart f d p => mkA (aF a) (aG a) (zupd2 (aS a) f d (start_st (aS a f d) p)) (next_tag (aT a)) (aL a)
    | MWait f d p => mkA (aF a) (aG a) (zupd2 (aS a) f d (wait_st (aS a f d) p)) (aT a) (aL a)
    | MDrop f d p => mkA (aF a) (aG a) (zupd2 (aS a) f d (drop_st (aS a f d) p)) (aT a) (aL a)
    | MLook f d p => mkA (aF a) (aG a) (aS a) (aT a) ((aF a f, d, p) :: aL a)
    end.

  Definition arun (a : astate) (os : list (mop V)) : astate := fold_left astep os a.

  Definition ainit (F : Z -> list Z -> V) : astate :=
    mkA F (fun f _ => F f) (fun _ _ _ => NOT_DONE) 100 [].

  Lemma zupd2_eq : forall A (m : Z -> Z -> A) a b v, zupd2 m a b v a b = v.
  Proof. intros. unfold zupd2. rewrite !Z.eqb_refl. auto. Qed.
  Lemma zupd2_cases : forall A (m : Z -> Z -> A) a b v x y,
    (x = a /\ y = b /\ zupd2 m a b v x y = v) \/ ((x <> a \/ y <> b) /\ zupd2 m a b v x y = m x y).
  Proof.
    intros. unfold zupd2. destruct (Z.eqb_spec x a), (Z.eqb_spec y b); cbn; auto.
  Qed.

  Definition aexcl (a : astate) : Prop := forall f d, excl (aS a f d).

  Lemma aexcl_step : forall a o, aexcl a -> aexcl (astep a o).
  Proof.
    intros a o H f d. destruct o as [f0 p w|f0 d0 p|f0 d0 p|f0 d0 p|f0 d0 p|f0 d0 p]; cbn; auto;
      match goal with |- excl (zupd2 ?m ?x ?y ?v _ _) =>
        destruct (zupd2_cases _ m x y v f d) as [(-> & -> & ->)|[_ ->]] end; auto.
    - apply excl_changed, excl_drop, H.
    - apply excl_start, H.
    - apply excl_wait, H.
    - apply excl_drop, H.
  Qed.
  Lemma aexcl_run : forall os a, aexcl a -> aexcl (arun a os).
  Proof. induction os as [|o os IH]; intros a H; [auto|]. apply (IH (astep a o)), aexcl_step, H. Qed.
  Lemma aexcl_init : forall F, aexcl (ainit F).
  Proof. intros F f d. unfold excl. cbn. congruence. Qed.

  (** Conditions under which each operation is used. *)
  Definition op_ok (a : astate) (o : mop V) : Prop :=
    match o with
    | MWrite _ _ _ => True
    | MChanged f d p => is_direction (l_size lat) d /\ forall c, parityb p c = false -> aF a f c = aG a f d c
    | MStart f d p => is_direction (l_size lat) d /\ forall c, aF a f c = aG a f d c
    | MLook f d p => is_direction (l_size lat) d /\ (forall c, aF a f c = aG a f d c) /\
                     is_gathered (aS a f d) p = true
    | MWait _ d _ | MDrop _ d _ => is_direction (l_size lat) d
    end.
  Definition wait_ok (a : astate) (o : mop V) : Prop :=
    match o with MWait f d p => cover (aS a f d) p | _ => True end.

  Fixpoint prog_ok (P : astate -> mop V -> Prop) (a : astate) (os : list (mop V)) : Prop :=
    match os with [] => True | o :: r => P a o /\ prog_ok P (astep a o) r end.

  Lemma prog_ok_app : forall P l1 l2 a, prog_ok P a (l1 ++ l2) <-> prog_ok P a l1 /\ prog_ok P (arun a l1) l2.
  Proof. induction l1; cbn; intros; [tauto|]. rewrite IHl1. tauto. Qed.

  Lemma arun_app : forall l1 l2 a, arun a (l1 ++ l2) = arun (arun a l1) l2.
  Proof. intros. apply fold_left_app. Qed.

  Lemma prog_ok_nth : forall P os a k o, prog_ok P a os -> nth_error os k = Some o ->
    P (arun a (firstn k os)) o.
  Proof.
    induction os; intros a0 k o H E; [destruct k; discriminate|].
    destruct k; cbn in *; [inversion E; subst; tauto|]. apply IHos; tauto.
  Qed.

  Definition sync (a : astate) : Prop := forall f d c, is_direction (l_size lat) d -> aF a f c = aG a f d c.

  (** *** Runs of the single patterns *)
  Lemma changed_run : forall p f ds a,
    (forall d, In d ds -> is_direction (l_size lat) d) ->
    (forall d c, is_direction (l_size lat) d -> parityb p c = false -> aF a f c = aG a f d c) ->
    let os := map (fun d => MChanged f d p) ds in
    prog_ok op_ok a os /\ aF (arun a os) = aF a /\ aL (arun a os) = aL a /\
    (forall d, In d ds -> aG (arun a os) f d = aF a f) /\
    (forall f' d, ~ (f' = f /\ In d ds) -> aG (arun a os) f' d = aG a f' d).
  Proof.
    intros p f ds. induction ds as [|d ds IH]; intros a Hd Hp; cbn [map prog_ok arun fold_left].
    { split; [exact I|]. split; auto. split; auto. split; [intros ? []|auto]. }
    set (a1 := astep a (MChanged f d p)).
    assert (Ha1 : aF a1 = aF a) by reflexivity.
    assert (HG : forall f' d', aG a1 f' d' = if (f' =? f) && (d' =? d) then aF a f else aG a f' d') by reflexivity.
    destruct (IH a1) as (I1 & I2 & I3 & I4 & I5).
    - intros; apply Hd; right; auto.
    - intros d' c Hd' Hc. rewrite Ha1, HG. destruct (Z.eqb_spec d' d); cbn; rewrite ?Z.eqb_refl; cbn; auto.
    - fold (arun a1 (map (fun d => MChanged f d p) ds)).
      split; [split; [cbn; split; [apply Hd; left; auto|intros; apply Hp; auto; apply Hd; left; auto]|exact I1]|].
      split; [rewrite I2; auto|]. split; [rewrite I3; auto|]. split.
      + intros d' Hin. destruct (in_dec Z.eq_dec d' ds) as [Hi|Hi]; [rewrite I4 by auto; auto|].
        destruct Hin as [ -> |Hin]; [|contradiction]. rewrite I5 by tauto. rewrite HG, !Z.eqb_refl. auto.
      + intros f' d' Hn. rewrite I5 by (intros [? ?]; apply Hn; cbn; auto). rewrite HG.
        destruct (Z.eqb_spec f' f), (Z.eqb_spec d' d); subst; cbn; auto. exfalso. apply Hn. cbn; auto.
  Qed.

  (** Operations that leave the contents alone. *)
  Definition quiet (o : mop V) : Prop :=
    match o with MStart _ _ _ | MWait _ _ _ | MDrop _ _ _ | MLook _ _ _ => True | _ => False end.
  Lemma quiet_step : forall a o, quiet o -> aF (astep a o) = aF a /\ aG (astep a o) = aG a.
  Proof. intros a [] H; cbn in *; tauto. Qed.
  Lemma quiet_run : forall os a, Forall quiet os -> aF (arun a os) = aF a /\ aG (arun a os) = aG a.
  Proof.
    induction os; intros a0 H; [auto|]. inversion H; subst. cbn.
    destruct (quiet_step a0 a H2) as [E1 E2]. destruct (IHos (astep a0 a) H3) as [E3 E4].
    unfold arun in *. rewrite E3, E4; auto.
  Qed.

  Lemma cover_step : forall a o f d p, quiet o -> cover (aS a f d) p -> cover (aS (astep a o) f d) p.
  Proof.
    intros a o f d p Hq H. destruct o as [f0 p0 w|f0 d0 p0|f0 d0 p0|f0 d0 p0|f0 d0 p0|f0 d0 p0];
      cbn in *; try tauto;
      match goal with |- cover (zupd2 ?m ?x ?y ?v _ _) _ =>
        destruct (zupd2_cases _ m x y v f d) as [(-> & -> & ->)|[_ ->]] end; auto.
    - apply cover_start_mono; auto.
    - apply cover_wait_mono; auto.
    - apply cover_drop_mono; auto.
  Qed.
  Lemma cover_run : forall os a f d p, Forall quiet os -> cover (aS a f d) p -> cover (aS (arun a os) f d) p.
  Proof.
    induction os; intros a0 f d p H Hc; auto. inversion H; subst. cbn. apply IHos; auto using cover_step.
  Qed.

  Definition nodrop (o : mop V) : Prop := match o with MStart _ _ _ | MWait _ _ _ | MLook _ _ _ => True | _ => False end.
  Lemma gathered_step : forall a o f d p, nodrop o -> is_gathered (aS a f d) p = true ->
    is_gathered (aS (astep a o) f d) p = true.
  Proof.
    intros a o f d p Hq H. destruct o as [f0 p0 w|f0 d0 p0|f0 d0 p0|f0 d0 p0|f0 d0 p0|f0 d0 p0];
      cbn in *; try tauto;
      match goal with |- is_gathered (zupd2 ?m ?x ?y ?v _ _) _ = _ =>
        destruct (zupd2_cases _ m x y v f d) as [(-> & -> & ->)|[_ ->]] end; auto.
    - apply gathered_start_mono; auto.
    - apply gathered_wait_mono; auto.
  Qed.

  Lemma starts_run : forall f p ds a, sync a -> Forall (is_direction (l_size lat)) ds ->
    let os := map (fun d => MStart f d p) ds in
    prog_ok op_ok a os /\ prog_ok wait_ok a os /\ aL (arun a os) = aL a /\
    forall d, In d ds -> cover (aS (arun a os) f d) p.
  Proof.
    intros f p ds. induction ds as [|d ds IH]; intros a Hs Hd; cbn [map prog_ok arun fold_left].
    { repeat split; auto. intros ? []. }
    inversion Hd; subst. destruct (IH (astep a (MStart f d p))) as (I1 & I2 & I3 & I4); auto.
    split; [split; [cbn; split; auto; intros; apply Hs; auto|auto]|].
    split; [split; [exact I|auto]|]. split; [exact I3|].
    intros d' [ -> |Hi]; [|apply I4; auto].
    apply cover_run; [apply Forall_map, Forall_forall; cbn; auto|].
    cbn. rewrite zupd2_eq. apply cover_start.
  Qed.

  Lemma waits_run : forall f p ds a, aexcl a -> Forall (is_direction (l_size lat)) ds ->
    (forall d, In d ds -> cover (aS a f d) p) ->
    let os := map (fun d => MWait f d p) ds in
    prog_ok op_ok a os /\ prog_ok wait_ok a os /\ aL (arun a os) = aL a /\
    (forall d, In d ds \/ is_gathered (aS a f d) p = true -> is_gathered (aS (arun a os) f d) p = true).
  Proof.
    intros f p ds. induction ds as [|d ds IH]; intros a He Hd Hc; cbn [map prog_ok arun fold_left].
    { repeat split; auto. intros ? [[]|?]; auto. }
    inversion Hd; subst. destruct (IH (astep a (MWait f d p))) as (I1 & I2 & I3 & I4); auto.
    - apply aexcl_step; auto.
    - intros d' Hi. apply cover_step; [exact I|]. apply Hc; right; auto.
    - split; [split; auto|]. split; [split; [cbn; apply Hc; left; auto|auto]|]. split; [exact I3|].
      intros d' Hi. apply I4. destruct (Z.eq_dec d' d) as [ -> |Hne].
      + right. cbn. rewrite zupd2_eq. apply gathered_wait; [apply He|apply Hc; left; auto].
      + destruct Hi as [[Hi|Hi]|Hi]; [congruence|left; auto|right]. apply gathered_step; [exact I|auto].
  Qed.

  Lemma looks_run : forall f p ds a, sync a -> Forall (is_direction (l_size lat)) ds ->
    (forall d, In d ds -> is_gathered (aS a f d) p = true) ->
    let os := map (fun d => MLook f d p) ds in
    prog_ok op_ok a os /\ prog_ok wait_ok a os /\
    aL (arun a os) = rev (map (fun d => (aF a f, d, p)) ds) ++ aL a.
  Proof.
    intros f p ds. induction ds as [|d ds IH]; intros a Hs Hd Hc; cbn [map prog_ok arun fold_left rev app].
    { auto. }
    inversion Hd; subst. destruct (IH (astep a (MLook f d p))) as (I1 & I2 & I3); auto.
    - intros; apply Hc; right; auto.
    - split; [split; [cbn; split; [auto|split; [intros; apply Hs; auto|apply Hc; left; auto]]|auto]|].
      split; [split; [exact I|auto]|]. unfold arun in I3. rewrite I3. cbn. rewrite <- app_assoc. auto.
  Qed.

  Lemma dirs_In : forall d, In d (zrange 0 (Z.to_nat (ndirs lat))) <-> is_direction (l_size lat) d.
  Proof. intros. rewrite zrange_In. unfold is_direction, ndirs. lia. Qed.

  Lemma read_run : forall f p ds a, sync a -> aexcl a -> Forall (is_direction (l_size lat)) ds ->
    let os := map (fun d => MStart f d p) ds ++ map (fun d => MWait f d p) ds ++ map (fun d => MLook f d p) ds in
    prog_ok op_ok a os /\ prog_ok wait_ok a os /\
    aL (arun a os) = rev (map (fun d => (aF a f, d, p)) ds) ++ aL a /\
    Forall quiet os /\ forall d, In d ds -> cover (aS (arun a os) f d) p.
  Proof.
    intros f p ds a Hs He Hd os.
    set (o1 := map (fun d => MStart f d p) ds) in *. set (o2 := map (fun d => MWait f d p) ds) in *.
    set (o3 := map (fun d => MLook f d p) ds) in *.
    assert (Q1 : Forall quiet o1) by (apply Forall_map, Forall_forall; cbn; auto).
    assert (Q2 : Forall quiet o2) by (apply Forall_map, Forall_forall; cbn; auto).
    assert (Q3 : Forall quiet o3) by (apply Forall_map, Forall_forall; cbn; auto).
    destruct (starts_run f p ds a Hs Hd) as (A1 & A2 & A3 & A4). fold o1 in A1, A2, A3, A4.
    destruct (waits_run f p ds (arun a o1) (aexcl_run _ _ He) Hd A4) as (B1 & B2 & B3 & B4). fold o2 in B1, B2, B3, B4.
    destruct (quiet_run o1 a Q1) as [E1 E2]. destruct (quiet_run o2 (arun a o1) Q2) as [E3 E4].
    assert (Hs2 : sync (arun (arun a o1) o2)) by (intros f' d' c Hd'; rewrite E3, E4, E1, E2; apply Hs; auto).
    destruct (looks_run f p ds _ Hs2 Hd (fun d Hi => B4 d (or_introl Hi))) as (C1 & C2 & C3). fold o3 in C1, C2, C3.
    unfold os. rewrite !prog_ok_app, !arun_app.
    split; [auto|]. split; [auto|]. split; [rewrite C3, B3, A3, E3, E1; auto|].
    split; [rewrite !Forall_app; auto|].
    intros d Hi. apply cover_run; auto. apply cover_run; auto.
  Qed.

  Lemma sync_quiet : forall a os, sync a -> Forall quiet os -> sync (arun a os).
  Proof. intros a os Hs Hq f d c Hd. destruct (quiet_run os a Hq) as [-> ->]. apply Hs; auto. Qed.

  (** *** One user operation *)
  Lemma compile_op_ok : forall o a, sync a -> aexcl a -> op_directions lat o ->
    let os := compile_op lat o in
    prog_ok op_ok a os /\ sync (arun a os) /\
    aF (arun a os) = match o with OWrite f p w => assign (aF a) f p w | _ => aF a end /\
    aL (arun a os) = match o with ORead f ds p => rev (map (fun d => (aF a f, d, p)) ds) | _ => [] end ++ aL a.
  Proof.
    intros o a Hs He Hd os. destruct o as [f p w|f d p|f d p|f d p|f ds p|f]; cbn [compile_op] in os; cbn in Hd.
    - set (a1 := astep a (MWrite f p w)).
      assert (F1 : forall f' c, aF a1 f' c = if (f' =? f) && parityb p c then w c else aF a f' c) by reflexivity.
      destruct (changed_run p f (zrange 0 (Z.to_nat (ndirs lat))) a1) as (I1 & I2 & I3 & I4 & I5).
      + intros d Hi. apply dirs_In; auto.
      + intros d c Hd' Hc. rewrite F1, Hc, andb_false_r. apply Hs; auto.
      + unfold os. cbn [prog_ok arun fold_left]. fold a1.
        fold (arun a1 (map (fun d => MChanged f d p) (zrange 0 (Z.to_nat (ndirs lat))))).
        split; [split; [exact I|exact I1]|]. split; [|split; [exact I2|rewrite I3; auto]].
        intros f' d c Hd'. rewrite I2. destruct (Z.eq_dec f' f) as [ -> |Hn].
        * rewrite I4 by (apply dirs_In; auto). auto.
        * rewrite I5 by tauto. change (aG a1) with (aG a). rewrite F1.
          destruct (Z.eqb_spec f' f); [congruence|]. apply Hs; auto.
    - unfold os. cbn. split; [split; [split; auto|auto]|]. split; auto; try (intros ? ? ? ?; apply Hs; auto).
    - unfold os. cbn. split; [auto|]. split; auto; try (intros ? ? ? ?; apply Hs; auto).
    - unfold os. cbn. split; [split; [split; auto|auto]|]. split; auto; try (intros ? ? ? ?; apply Hs; auto).
    - destruct (read_run f p ds a Hs He Hd) as (A1 & A2 & A3 & A4 & A5).
      split; [exact A1|]. split; [apply sync_quiet; auto|]. split; [apply quiet_run; auto|exact A3].
    - assert (Q : Forall quiet os) by (apply Forall_map, Forall_forall; cbn; auto).
      assert (HL : forall ds a, aL (arun a (map (fun d => MDrop f d ALL) ds)) = aL a)
        by (induction ds; cbn; intros; auto; apply (IHds (astep a1 (MDrop f a0 ALL)))).
      assert (HP : forall ds a, (forall d, In d ds -> is_direction (l_size lat) d) ->
                   prog_ok op_ok a (map (fun d => MDrop f d ALL) ds)).
      { induction ds; cbn; intros a1 H; [auto|]. split; [apply H; auto|apply IHds; intros; apply H; auto]. }
      split; [apply HP; intros; apply dirs_In; auto|]. split; [apply sync_quiet; auto|].
      split; [apply quiet_run; auto|apply HL].
  Qed.

  Lemma compile_ok : forall h a, sync a -> aexcl a -> Forall (op_directions lat) h ->
    prog_ok op_ok a (compile lat h) /\ sync (arun a (compile lat h)) /\
    aL (arun a (compile lat h)) = rev (spec_reads h (aF a)) ++ aL a.
  Proof.
    induction h as [|o h IH]; intros a Hs He Hd; [cbn; auto|].
    inversion Hd; subst. unfold compile in *. cbn [flat_map].
    destruct (compile_op_ok o a Hs He H1) as (A1 & A2 & A3 & A4).
    destruct (IH (arun a (compile_op lat o)) A2 (aexcl_run _ _ He) H2) as (B1 & B2 & B3).
    rewrite prog_ok_app, arun_app. split; [auto|]. split; auto.
    rewrite B3, A3, A4. destruct o; cbn [spec_reads app]; auto.
    rewrite rev_app_distr, <- app_assoc. auto.
  Qed.

  (** *** Waits have something to wait for *)
  Definition active (a : astate) (act : list (Z * Z * parity)) : Prop :=
    forall f d p, In (f, d, p) act -> cover (aS a f d) p.

  Lemma active_quiet : forall os a act, Forall quiet os -> active a act -> active (arun a os) act.
  Proof. intros os a act H Ha f d p Hi. apply cover_run; auto. Qed.

  Lemma changed_other : forall p f ds a f' d, f' <> f ->
    aS (arun a (map (fun d => MChanged f d p) ds)) f' d = aS a f' d.
  Proof.
    intros p f ds. induction ds as [|d0 ds IH]; intros a f' d Hn; auto.
    cbn [map arun fold_left]. fold (arun (astep a (MChanged f d0 p)) (map (fun d => MChanged f d p) ds)).
    rewrite IH by auto. cbn. unfold zupd2. destruct (Z.eqb_spec f' f); [congruence|auto].
  Qed.

  Lemma prog_ok_triv : forall os a, Forall (fun o => match o with MWait _ _ _ => False | _ => True end) os ->
    prog_ok wait_ok a os.
  Proof. induction os; cbn; intros a0 H; auto. inversion H; subst. split; auto. destruct a; cbn; tauto. Qed.

  Lemma waits_ok : forall h a act, sync a -> aexcl a -> Forall (op_directions lat) h -> active a act ->
    waits_matched h act -> prog_ok wait_ok a (compile lat h).
  Proof.
    induction h as [|o h IH]; intros a act Hs He Hd Ha Hw; [exact I|].
    inversion Hd; subst. unfold compile in *. cbn [flat_map]. rewrite prog_ok_app.
    destruct (compile_op_ok o a Hs He H1) as (_ & A2 & _ & _).
    assert (X := aexcl_run (compile_op lat o) a He).
    assert (IH' := fun act' Ha' Hw' => IH (arun a (compile_op lat o)) act' A2 X H2 Ha' Hw'). clear IH.
    destruct o as [f p w|f d p|f d p|f d p|f ds p|f]; cbn [waits_matched] in Hw.
    - split; [apply prog_ok_triv; cbn; constructor; auto; apply Forall_map, Forall_forall; auto|].
      apply (IH' _) in Hw; auto. intros f' d p' Hi. apply filter_In in Hi. destruct Hi as [Hi Hf]. cbn in Hf.
      cbn [compile_op arun fold_left]. fold (arun (astep a (MWrite f p w)) (map (fun d => MChanged f d p) (zrange 0 (Z.to_nat (ndirs lat))))).
      rewrite changed_other by lia. apply Ha; auto.
    - split; [cbn; auto|]. apply (IH' _) in Hw; auto. intros f' d' p' [E|Hi].
      + inversion E; subst. cbn. rewrite zupd2_eq. apply cover_start.
      + apply cover_step; cbn; auto.
    - destruct Hw as [Hc Hw]. split; [cbn; split; auto|].
      + destruct Hc as [Hc|[Hc|(-> & Hc & Hc')]]; [auto|apply cover_ALL; auto|apply cover_EO; auto].
      + apply (IH' _) in Hw; auto. apply active_quiet; auto. repeat constructor.
    - split; [cbn; split; auto; split; auto; rewrite zupd2_eq; apply cover_start|].
      apply (IH' _) in Hw; auto. intros f' d' p' [E|Hi].
      + inversion E; subst. cbn. rewrite zupd2_eq. apply cover_wait_mono. rewrite zupd2_eq. apply cover_start.
      + apply (cover_run [MStart f d p; MWait f d p]); auto; repeat constructor.
    - cbn in H1. destruct (read_run f p ds a Hs He H1) as (_ & B2 & _ & B4 & B5).
      split; [exact B2|]. apply (IH' _) in Hw; auto. intros f' d' p' Hi. apply in_app_iff in Hi. destruct Hi as [Hi|Hi].
      + apply in_map_iff in Hi. destruct Hi as (d0 & E & Hi). inversion E; subst. apply B5; auto.
      + apply cover_run; auto.
    - split; [apply prog_ok_triv; cbn; apply Forall_map, Forall_forall; auto|].
      apply (IH' _) in Hw; auto. apply active_quiet; auto. apply Forall_map, Forall_forall; cbn; auto.
  Qed.
End Abstract.
