(** C83: the time limit. *)
From Coq Require Import QArith Lqa String.
From Verif Require Import Common SrcbufModel WordsModel CmdargsModel DecimalModel InputSpec InputProofs1 TimelimitModel TimelimitSpec TimelimitProofs1.
Open Scope list_scope.
Open Scope nat_scope.

(** Times in the documented format are understood. *)
Theorem C83_format : forall t v, time_text t v -> setup_timelimit t = Limit v.
Proof.
  intros t v [ts s Fs|tm ts m s Fm Fs|th tm ts h m s Fh Fm Fs|td th tm ts d h m s Fd Fh Fm Fs].
  - rewrite <- (app_nil_r ts). now apply setup_s.
  - rewrite <- (app_nil_r ts). now apply (setup_ms tm ts m s []).
  - rewrite <- (app_nil_r ts). now apply (setup_hms th tm ts h m s []).
  - rewrite <- (app_nil_r ts). now apply (setup_dhms td th tm ts d h m s []).
Qed.
Print Assumptions C83_format.
Example C83_format_example : time_text (str "1-12:00:30") (86400 * 1 + 3600 * 12 + 60 * 0 + 30) /\ setup_timelimit (str "1-12:00:30") = Limit 129630.
Proof.
  split; [|reflexivity]. assert (F : forall t, t <> [] -> forallb (fun c => (48 <=? c) && (c <=? 57))%Z t = true -> (number_of t < 2 ^ 32)%Z -> field t (number_of t)).
  { intros t N H B. repeat split; auto. apply Forall_forall. intros c I. rewrite forallb_forall in H. apply H in I. apply andb_true_iff in I. lia. }
  apply (time_dhms (str "1") (str "12") (str "00") (str "30") 1 12 0 30);
    [apply (F (str "1"))|apply (F (str "12"))|apply (F (str "00"))|apply (F (str "30"))]; try discriminate; reflexivity.
Qed.

(** A text which does not begin with a number is refused. *)
Theorem C83_invalid : forall b e, blanks b ->
  match e with [] => True | c :: _ => isspace c = false /\ ~ (48 <= c <= 57)%Z /\ c <> 43%Z /\ c <> 45%Z end ->
  setup_timelimit (b ++ e) = Invalid.
Proof.
  intros b e B H. assert (E : scan_u (b ++ e) = NoNumber).
  { unfold scan_u. change skip_space with trim. rewrite trim_blanks by auto. destruct e as [|c e]; [reflexivity|].
    destruct H as (Hs & Hd & Hp & Hm). rewrite trim_visible by auto. unfold take_sign.
    apply Z.eqb_neq in Hp, Hm. rewrite Hp, Hm. cbn [take_digits]. unfold isdigit.
    destruct (48 <=? c)%Z eqn:E1; [|reflexivity]. destruct (c <=? 57)%Z eqn:E2; [|reflexivity]. exfalso. apply Hd. lia. }
  unfold setup_timelimit. cbn [scan_list]. rewrite E. reflexivity.
Qed.
Print Assumptions C83_invalid.
Example C83_invalid_example : setup_timelimit (str " UNLIMITED") = Invalid /\ blanks (str " ").
Proof. split; [reflexivity|]. repeat constructor. Qed.

(** Numbers that are negative or at least 2^32 leave the limit undefined; a plus sign is allowed. *)
Theorem C83_range :
  (forall b t e, blanks b -> digits t -> no_digit e -> (0 < number_of t)%Z -> setup_timelimit (b ++ 45%Z :: t ++ e) = Undefined) /\
  (forall t e, digits t -> no_digit e -> (2 ^ 32 <= number_of t)%Z -> setup_timelimit (t ++ e) = Undefined) /\
  (forall b t, blanks b -> digits t -> (number_of t < 2 ^ 32)%Z -> setup_timelimit (b ++ 43%Z :: t) = Limit (number_of t)).
Proof.
  split; [|split].
  - intros b t e B D N P. assert (E : scan_u (b ++ 45%Z :: t ++ e) = Beyond).
    { rewrite (scan_signed b true t e B D N). cbv zeta. replace (0 <=? - number_of t)%Z with false by (symmetry; apply Z.leb_gt; lia). reflexivity. }
    unfold setup_timelimit. cbn [scan_list]. rewrite E. reflexivity.
  - intros t e D N B. unfold setup_timelimit. cbn [scan_list]. rewrite (scan_large t e D N B). reflexivity.
  - intros b t B D P. assert (E : scan_u (b ++ 43%Z :: t) = Number (number_of t) []).
    { rewrite <- (app_nil_r t) at 1. rewrite (scan_signed b false t [] B D I). cbv zeta. pose proof (number_nonneg t D).
      replace (0 <=? number_of t)%Z with true by (symmetry; apply Z.leb_le; lia).
      replace (number_of t <? 2 ^ 32)%Z with true by (symmetry; apply Z.ltb_lt; lia). reflexivity. }
    unfold setup_timelimit. cbn [scan_list]. rewrite E. f_equal. lia.
Qed.
Print Assumptions C83_range.
Example C83_range_example : setup_timelimit (str " -5") = Undefined /\ setup_timelimit (str "4294967296") = Undefined /\ setup_timelimit (str "+60") = Limit 60.
Proof. repeat split. Qed.

(** But not every text which is not in the format is: days and hours, also with minutes, are taken for
    that number of seconds, and what follows a number is ignored. *)
Theorem C83_format_refuted :
  (forall td th d h, field td d -> field th h -> setup_timelimit (td ++ str "-" ++ th) = Limit d) /\
  (forall td th tm d h m, field td d -> field th h -> field tm m -> setup_timelimit (td ++ str "-" ++ th ++ str ":" ++ tm) = Limit d) /\
  (forall ts s c e, field ts s -> ~ (48 <= c <= 57)%Z -> c <> 58%Z -> c <> 45%Z -> setup_timelimit (ts ++ c :: e) = Limit s).
Proof.
  split; [|split].
  - intros td th d h Fd Fh. apply (setup_short td th d Fd). exists th, h. auto.
  - intros td th tm d h m Fd Fh Fm. apply (setup_short td (th ++ 58%Z :: tm) d Fd). exists th, h. split; auto. right. eauto.
  - intros ts s c e F N H1 H2. apply setup_s; simpl; auto.
Qed.
Print Assumptions C83_format_refuted.
Example C83_format_refuted_example : setup_timelimit (str "2-12") = Limit 2 /\ setup_timelimit (str "2-12:30") = Limit 2 /\ setup_timelimit (str "10m") = Limit 10.
Proof. repeat split. Qed.

(** A check without a signal says that it is time to finish exactly if less than the longest interval
    between checks and two minutes are left; the time before the first check counts as an interval. *)
Theorem C83_check : forall lim calls k t, ~ (lim == 0)%Q -> nth_error calls k = Some (t, false) ->
  (forall j u s, j < k -> nth_error calls j = Some (u, s) -> s = false) ->
  exists b, nth_error (checks lim start_clock calls) k = Some b /\
    (b = true <-> (lim - t < longest 0 0 (map fst (firstn (S k) calls)) + 120)%Q).
Proof.
  intros lim calls k t N H F. eexists. split; [exact (checks_app lim start_clock calls k t N H F)|]. apply laterP.
Qed.
Print Assumptions C83_check.

(** If a check says that there is time, and the next one does not take longer than the longest interval
    so far, then there are at least two minutes left at the next one. *)
Theorem C83_margin : forall lim calls k t1 t2, ~ (lim == 0)%Q ->
  nth_error calls k = Some (t1, false) -> nth_error calls (S k) = Some (t2, false) ->
  (forall j u s, j < k -> nth_error calls j = Some (u, s) -> s = false) ->
  nth_error (checks lim start_clock calls) k = Some false ->
  (t2 - t1 <= longest 0 0 (map fst (firstn (S k) calls)))%Q ->
  (t2 <= lim - 120)%Q.
Proof.
  intros lim calls k t1 t2 N H1 H2 F C L. rewrite (checks_app lim start_clock calls k t1 N H1 F) in C. inversion C as [C1].
  change (later (lim - t1) (longest 0 0 (map fst (firstn (S k) calls)) + 120) = false) in C1.
  destruct (Qlt_le_dec (lim - t1) (longest 0 0 (map fst (firstn (S k) calls)) + 120)) as [D|D].
  - apply laterP in D. congruence.
  - lra.
Qed.
Print Assumptions C83_margin.
Example C83_margin_example :
  checks 1000 start_clock [(100, false); (300, false); (500, false); (700, false); (900, false)]%Q = [false; false; false; true; true] /\
  (longest 0 0 [100; 300; 500] == 200)%Q.
Proof. split; reflexivity. Qed.

(** Once it is time to finish it stays so. *)
Theorem C83_stays : forall lim calls j k, j <= k -> ordered 0 (map fst calls) ->
  (forall i u v s, nth_error calls i = Some (u, true) -> nth_error calls (S i) = Some (v, s) -> s = true) ->
  nth_error (checks lim start_clock calls) j = Some true -> k < length calls ->
  nth_error (checks lim start_clock calls) k = Some true.
Proof.
  assert (Sig : forall lim calls c, (forall u s, nth_error calls 0 = Some (u, s) -> s = true) ->
    (forall i u v s, nth_error calls i = Some (u, true) -> nth_error calls (S i) = Some (v, s) -> s = true) ->
    forall k, k < length calls -> nth_error (checks lim c calls) k = Some true).
  { intros lim. induction calls as [|[u s] calls IH]; intros c H0 Hs k L; [simpl in L; lia|].
    assert (s = true) as -> by (apply (H0 u s); reflexivity). cbn [checks time_to_finish]. destruct k as [|k]; [reflexivity|].
    cbn [nth_error]. apply IH; [|intros i; exact (Hs (S i))|simpl in L; lia]. intros v s Hv. exact (Hs 0 u v s eq_refl Hv). }
  assert (Late : forall lim, ~ (lim == 0)%Q -> forall calls c, (lim - previous_time c < max_interval c + 120)%Q ->
    ordered (previous_time c) (map fst calls) ->
    (forall i u v s, nth_error calls i = Some (u, true) -> nth_error calls (S i) = Some (v, s) -> s = true) ->
    forall k, k < length calls -> nth_error (checks lim c calls) k = Some true).
  { intros lim N. induction calls as [|[u s] calls IH]; intros c H O Hs k L; [simpl in L; lia|]. destruct s.
    - apply Sig; auto. intros v s Hv. inversion Hv. reflexivity.
    - destruct O as [O1 O2]. cbn [fst] in O1. destruct (finish_stays lim c (previous_time c) u N O1 (Qeq_refl _) H) as (E & _ & P).
      cbn [checks]. rewrite time_check in * by auto. cbn [fst snd] in E, P. rewrite E. destruct k as [|k]; [reflexivity|].
      cbn [nth_error]. apply IH; auto; [intros i; exact (Hs (S i))|simpl in L; lia]. }
  intros lim calls j k JK O Hs H L. destruct (Qeq_bool lim 0) eqn:Z.
  - (* without a limit *)
    assert (G : forall calls c j k, j <= k -> k < length calls ->
      (forall i u v s, nth_error calls i = Some (u, true) -> nth_error calls (S i) = Some (v, s) -> s = true) ->
      nth_error (checks lim c calls) j = Some true -> nth_error (checks lim c calls) k = Some true).
    { clear - Sig Z. induction calls as [|[u s] calls IH]; intros c j k JK L Hs H; [simpl in L; lia|]. destruct s.
      - apply Sig; auto. intros v s Hv. inversion Hv. reflexivity.
      - cbn [checks] in *. unfold time_to_finish in *. rewrite Z in *. destruct j as [|j]; [discriminate|]. destruct k as [|k]; [lia|].
        cbn [nth_error] in *. apply (IH c j k); auto; [lia|simpl in L; lia|intros i; exact (Hs (S i))]. }
    eapply G; eauto.
  - assert (N : ~ (lim == 0)%Q) by (intros E; apply Qeq_bool_iff in E; congruence).
    assert (G : forall calls c j k, j <= k -> k < length calls -> ordered (previous_time c) (map fst calls) ->
      (forall i u v s, nth_error calls i = Some (u, true) -> nth_error calls (S i) = Some (v, s) -> s = true) ->
      nth_error (checks lim c calls) j = Some true -> nth_error (checks lim c calls) k = Some true).
    { clear - Sig Late N. induction calls as [|[u s] calls IH]; intros c j k JK L O Hs H; [simpl in L; lia|]. destruct s.
      - apply Sig; auto. intros v s Hv. inversion Hv. reflexivity.
      - destruct O as [O1 O2]. cbn [checks] in *. rewrite time_check in * by auto. destruct k as [|k].
        + assert (j = 0) as -> by lia. exact H.
        + cbn [nth_error]. destruct j as [|j].
          * cbn [nth_error] in H. assert (H1 : later (lim - u) (max_interval (advance c u) + 120) = true) by congruence. apply laterP in H1.
            apply Late; auto; [intros i; exact (Hs (S i))|simpl in L; lia].
          * cbn [nth_error] in H. apply (IH (advance c u) j k); auto; [lia|simpl in L; lia|intros i; exact (Hs (S i))]. }
    exact (G calls start_clock j k JK L O Hs H).
Qed.
Print Assumptions C83_stays.
Example C83_stays_example : ordered 0 [100; 300; 500]%Q /\ checks 0 start_clock [(100, false); (300, true); (500, true)]%Q = [false; true; true].
Proof. split; [simpl; repeat split; lra|reflexivity]. Qed.

(** Without a limit (also with the limit "0") and without a signal there is always time. *)
Theorem C83_no_limit : forall calls, Forall (fun c => snd c = false) calls ->
  checks 0 start_clock calls = map (fun _ => false) calls.
Proof.
  intros calls F. generalize start_clock. induction F as [|[t s] calls H F IH]; intros c; [reflexivity|]. simpl in H. subst s.
  cbn [checks]. unfold time_to_finish. cbn [Qeq_bool map]. simpl. now rewrite IH.
Qed.
Print Assumptions C83_no_limit.
Example C83_no_limit_example : setup_timelimit (str "0") = Limit 0 /\ checks 0 start_clock [(1000000, false)]%Q = [false].
Proof. split; reflexivity. Qed.

(** The time before the first check is taken for the length of a round: if it is more than half of the
    limit the program ends at the first check, however short the rounds are. *)
Theorem C83_start_refuted : forall lim t, (0 < lim)%Q -> (lim < 2 * t + 120)%Q ->
  checks lim start_clock [(t, false)] = [true].
Proof.
  intros lim t H1 H2. assert (N : ~ (lim == 0)%Q) by lra. cbn [checks]. rewrite time_check by auto. f_equal. apply laterP.
  unfold advance. cbn [max_interval previous_time start_clock]. destruct (Qlt_le_dec 0 (t - 0)); lra.
Qed.
Print Assumptions C83_start_refuted.
Example C83_start_refuted_example : checks 36000 start_clock [(18000, false)]%Q = [true].
Proof. reflexivity. Qed.
