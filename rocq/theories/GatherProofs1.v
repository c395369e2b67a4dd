(** Abstract gather machine: the status evolution every communicating rank
    goes through, and the facts about programs compiled from histories. *)
From Verif Require Import Common LayoutModel LayoutSpec LayoutProofs1 LayoutProofs2 LayoutProofs4
  LayoutProofs5 LayoutProofs7 LayoutProofs8 GatherModel GatherSpec.

Definition wait_st (st : parity -> gstat) (p : parity) : parity -> gstat :=
  if is_gathered st p then st
  else match resolve_started_parity st p with
       | None => st
       | Some qs => fold_left (fun s q => set_stat s q DONE) qs st
       end.
Definition wif_st (st : parity -> gstat) (p : parity) : parity -> gstat :=
  if is_gather_started st p then wait_st st p else st.
Definition drop_st (st : parity -> gstat) (p : parity) : parity -> gstat :=
  let st1 := wif_st st ALL in
  match p with ALL => wif_st (wif_st st1 EVEN) ODD | _ => wif_st st1 p end.
Definition start_st (st : parity -> gstat) (p : parity) : parity -> gstat :=
  match check_communication false st p with CDo q => set_stat st q STARTED | _ => st end.

(** Even/odd and whole-halo gathers never coexist. *)
Definition excl (st : parity -> gstat) : Prop := st ALL <> NOT_DONE -> st EVEN = NOT_DONE /\ st ODD = NOT_DONE.

Ltac stcase st :=
  destruct (st EVEN) eqn:?HE, (st ODD) eqn:?HO, (st ALL) eqn:?HA.

Ltac stred := repeat (progress (cbn [set_stat parity_eqb gstat_eqb negb andb orb fold_left opp_parity] in *
   || unfold set_stat, is_gathered, is_gather_started, gather_not_done in * )).

Lemma excl_start : forall st p, excl st -> excl (start_st st p).
Proof.
  intros st p. unfold excl, start_st, check_communication. stcase st; destruct p; stred;
    rewrite ?HE, ?HO, ?HA in *; stred; rewrite ?HE, ?HO, ?HA; cbn in *; intros; auto; try congruence;
    try (destruct H; congruence).
Qed.
Lemma excl_wait : forall st p, excl st -> excl (wait_st st p).
Proof.
  intros st p. unfold excl, wait_st, resolve_started_parity. stcase st; destruct p; stred;
    rewrite ?HE, ?HO, ?HA in *; stred; rewrite ?HE, ?HO, ?HA; cbn in *; intros; auto; try congruence;
    try (rewrite ?HE, ?HO, ?HA; auto); try (destruct H; congruence).
Qed.
Lemma excl_wif : forall st p, excl st -> excl (wif_st st p).
Proof. intros. unfold wif_st. destruct (is_gather_started st p); auto using excl_wait. Qed.
Lemma excl_drop : forall st p, excl st -> excl (drop_st st p).
Proof. intros. unfold drop_st. destruct p; auto using excl_wif. Qed.
Lemma excl_changed : forall st p, excl st -> excl (changed_stat st p).
Proof.
  intros st p. unfold excl, changed_stat. destruct p; stred; cbn; intros; congruence.
Qed.

(** The parities of a halo that are certainly covered by a running or finished gather. *)
Definition cover (st : parity -> gstat) (p : parity) : Prop :=
  st ALL <> NOT_DONE \/ match p with ALL => st EVEN <> NOT_DONE /\ st ODD <> NOT_DONE | _ => st p <> NOT_DONE end.

Ltac stgo HE HO HA :=
  stred; rewrite ?HE, ?HO, ?HA in *; stred; cbn; rewrite ?HE, ?HO, ?HA; cbn; stred; cbn;
  rewrite ?HE, ?HO, ?HA; cbn; try solve [intuition congruence | cbn in *; rewrite ?HE, ?HO, ?HA in *; cbn in *; intuition congruence].

Lemma cover_start : forall st p, cover (start_st st p) p.
Proof.
  intros st p. unfold cover, start_st, check_communication. stcase st; destruct p; stgo HE HO HA.
Qed.
Lemma cover_start_mono : forall st p q, cover st q -> cover (start_st st p) q.
Proof.
  intros st p q. unfold cover, start_st, check_communication. stcase st; destruct p, q; stgo HE HO HA.
Qed.
Lemma cover_wait_mono : forall st p q, cover st q -> cover (wait_st st p) q.
Proof.
  intros st p q. unfold cover, wait_st, resolve_started_parity. stcase st; destruct p, q; stgo HE HO HA.
Qed.
Lemma cover_wif_mono : forall st p q, cover st q -> cover (wif_st st p) q.
Proof. intros. unfold wif_st. destruct (is_gather_started st p); auto using cover_wait_mono. Qed.
Lemma cover_drop_mono : forall st p q, cover st q -> cover (drop_st st p) q.
Proof. intros. unfold drop_st. destruct p; auto using cover_wif_mono. Qed.
Lemma cover_ALL : forall st p, cover st ALL -> cover st p.
Proof. intros st [] [H|[H1 H2]]; unfold cover; auto. Qed.
Lemma cover_EO : forall st, cover st EVEN -> cover st ODD -> cover st ALL.
Proof. unfold cover. tauto. Qed.

Lemma gathered_start_mono : forall st p q, is_gathered st q = true -> is_gathered (start_st st p) q = true.
Proof.
  intros st p q. unfold start_st, check_communication. stcase st; destruct p, q; stgo HE HO HA.
Qed.
Lemma gathered_wait_mono : forall st p q, is_gathered st q = true -> is_gathered (wait_st st p) q = true.
Proof.
  intros st p q. unfold wait_st, resolve_started_parity. stcase st; destruct p, q; stgo HE HO HA.
Qed.
Lemma gathered_wait : forall st p, excl st -> cover st p -> is_gathered (wait_st st p) p = true.
Proof.
  intros st p. unfold excl, cover, wait_st, resolve_started_parity. stcase st; destruct p; stgo HE HO HA.
Qed.
Lemma resolve_cover : forall st p, excl st -> cover st p -> is_gathered st p = false ->
  exists qs, resolve_started_parity st p = Some qs.
Proof.
  intros st p. unfold excl, cover, resolve_started_parity. stcase st; destruct p; stred;
    rewrite ?HE, ?HO, ?HA in *; stred; cbn; rewrite ?HE, ?HO, ?HA; cbn; intuition eauto; congruence.
Qed.
(** Waits only concern started parities, each once. *)
Lemma resolve_started : forall st p qs, resolve_started_parity st p = Some qs ->
  NoDup qs /\ forall q, In q qs -> st q = STARTED.
Proof.
  intros st p qs. unfold resolve_started_parity. stcase st; destruct p; stred;
    rewrite ?HE, ?HO, ?HA in *; stred; cbn; intros E; inversion E; subst; cbn;
    (split; [repeat constructor; cbn; intuition congruence|]); intros q Hq; intuition (subst; auto).
Qed.
Lemma resolve_self : forall st p, st p = STARTED -> excl st -> resolve_started_parity st p = Some [p].
Proof.
  intros st p. unfold excl, resolve_started_parity. stcase st; destruct p; stgo HE HO HA.
Qed.
Lemma gathered_started_false : forall st p, st p = STARTED -> excl st -> is_gathered st p = false.
Proof.
  intros st p. unfold excl. stcase st; destruct p; stgo HE HO HA.
Qed.

(** What a real start needs. *)
Lemma check_do : forall st p q, check_communication false st p = CDo q ->
  st q = NOT_DONE /\ st ALL = NOT_DONE /\ (q = ALL -> st EVEN = NOT_DONE /\ st ODD = NOT_DONE).
Proof.
  intros st p q. unfold check_communication. stcase st; destruct p; stred;
    rewrite ?HE, ?HO, ?HA in *; stred; cbn; intros E; inversion E; subst; auto; intuition congruence.
Qed.

Lemma wif_self : forall st p, excl st -> wif_st st p p <> STARTED.
Proof.
  intros st p He. unfold wif_st, is_gather_started. destruct (st p) eqn:E; cbn; try congruence.
  unfold wait_st. rewrite gathered_started_false, resolve_self by auto. cbn. unfold set_stat.
  destruct p; cbn; congruence.
Qed.
Lemma fold_set_mono : forall qs st q, fold_left (fun s q => set_stat s q DONE) qs st q = STARTED -> st q = STARTED.
Proof.
  induction qs as [|a qs IH]; intros st q H; auto. apply IH in H. unfold set_stat in H.
  destruct (parity_eqb q a); [congruence|auto].
Qed.
Lemma wait_mono : forall st p q, wait_st st p q = STARTED -> st q = STARTED.
Proof.
  intros st p q. unfold wait_st. destruct (is_gathered st p); auto.
  destruct (resolve_started_parity st p); auto. apply fold_set_mono.
Qed.
Lemma wif_mono : forall st p q, wif_st st p q = STARTED -> st q = STARTED.
Proof. intros st p q. unfold wif_st. destruct (is_gather_started st p); auto. apply wait_mono. Qed.

Lemma drop_not_started : forall st p q, excl st -> (p = ALL \/ q = ALL \/ q = p) -> drop_st st p q <> STARTED.
Proof.
  intros st p q He Hq H.
  assert (E1 := excl_wif st ALL He). assert (E2 := excl_wif _ EVEN E1).
  unfold drop_st in H. cbv zeta in H.
  destruct p.
  - destruct Hq as [Hq|[Hq|Hq]]; try discriminate; subst.
    + apply wif_mono in H. exact (wif_self st ALL He H).
    + exact (wif_self _ EVEN E1 H).
  - destruct Hq as [Hq|[Hq|Hq]]; try discriminate; subst.
    + apply wif_mono in H. exact (wif_self st ALL He H).
    + exact (wif_self _ ODD E1 H).
  - destruct q.
    + apply wif_mono in H. exact (wif_self _ EVEN E1 H).
    + exact (wif_self _ ODD E2 H).
    + apply wif_mono in H. apply wif_mono in H. exact (wif_self st ALL He H).
Qed.
