From Coq Require Import QArith Lqa String.
From Verif Require Import Common SrcbufModel WordsModel CmdargsModel DecimalModel InputSpec InputProofs7 TimelimitModel TimelimitSpec.
Open Scope list_scope.
Open Scope nat_scope.

Definition no_digit (e : text) : Prop := match e with [] => True | c :: _ => ~ (48 <= c <= 57)%Z end.
Lemma number_nonneg : forall d, digits d -> (0 <= number_of d)%Z.
Proof.
  intros d [_ F]. unfold number_of. enough (G : forall v, (0 <= v)%Z -> (0 <= fold_left (fun v c => (10 * v + (c - 48))%Z) d v)%Z) by (apply G; lia).
  induction F; intros v Hv; cbn [fold_left]; auto. apply IHF. lia.
Qed.
Lemma scan_field : forall t v e, field t v -> no_digit e -> scan_u (t ++ e) = Number v e.
Proof.
  intros t v e (D & E & B) N.
  assert (F : Forall (fun c => isdigit c = true) t).
  { destruct D as [_ F]. eapply Forall_impl; [|exact F]. intros c H. cbv beta in H. unfold isdigit. apply andb_true_iff. split; lia. }
  assert (N' : match e with [] => True | c :: _ => isdigit c = false end).
  { destruct e as [|c e]; auto. unfold isdigit. simpl in N. destruct (48 <=? c)%Z eqn:E1; [|reflexivity]. destruct (c <=? 57)%Z eqn:E2; [|reflexivity]. exfalso. apply N. lia. }
  assert (S : take_sign (skip_space (t ++ e)) = (false, t ++ e)).
  { destruct D as [Nt Ft]. destruct t as [|c t]; [now elim Nt|]. apply Forall_cons_iff in Ft as [Ft _]. cbv beta in Ft. cbn [app skip_space].
    rewrite not_space by lia. unfold take_sign.
    assert ((c =? 45)%Z = false) as -> by lia. assert ((c =? 43)%Z = false) as -> by lia. reflexivity. }
  unfold scan_u. rewrite S, (take_digits_all t e 0%Z 0 F N'), horner. fold (number_of t). rewrite E.
  pose proof (number_nonneg t D) as P. rewrite E in P. destruct D as [Nt _].
  replace (0 + length t =? 0) with false by (symmetry; apply Nat.eqb_neq; destruct t; [now elim Nt|simpl; lia]).
  replace ((0 <=? v) && (v <? 2 ^ 32))%Z with true; [reflexivity|]. symmetry. apply andb_true_iff. split; [apply Z.leb_le|apply Z.ltb_lt]; assumption.
Qed.
(** A number with a sign, also one that is too large. *)
Lemma scan_signed : forall b (neg : bool) t e, Forall (fun c => isspace c = true) b -> digits t -> no_digit e ->
  scan_u (b ++ (if neg then 45%Z else 43%Z) :: t ++ e) =
  let v := if neg then (- number_of t)%Z else number_of t in
  if ((0 <=? v) && (v <? 2 ^ 32))%Z then Number v e else Beyond.
Proof.
  intros b neg t e Hb D N.
  assert (F : Forall (fun c => isdigit c = true) t).
  { destruct D as [_ F]. eapply Forall_impl; [|exact F]. intros c H. cbv beta in H. unfold isdigit. apply andb_true_iff. split; lia. }
  assert (N' : match e with [] => True | c :: _ => isdigit c = false end).
  { destruct e as [|c e]; auto. unfold isdigit. simpl in N. destruct (48 <=? c)%Z eqn:E1; [|reflexivity]. destruct (c <=? 57)%Z eqn:E2; [|reflexivity]. exfalso. apply N. lia. }
  assert (S : take_sign (skip_space (b ++ (if neg then 45%Z else 43%Z) :: t ++ e)) = (neg, t ++ e)).
  { induction Hb as [|c b Hc Hb IH]; [now destruct neg|]. cbn [app skip_space]. now rewrite Hc. }
  unfold scan_u. rewrite S, (take_digits_all t e 0%Z 0 F N'), horner. fold (number_of t). destruct D as [Nt _].
  replace (0 + length t =? 0) with false by (symmetry; apply Nat.eqb_neq; destruct t; [now elim Nt|simpl; lia]).
  reflexivity.
Qed.
Lemma scan_large : forall t e, digits t -> no_digit e -> (2 ^ 32 <= number_of t)%Z -> scan_u (t ++ e) = Beyond.
Proof.
  intros t e D N B.
  assert (F : Forall (fun c => isdigit c = true) t).
  { destruct D as [_ F]. eapply Forall_impl; [|exact F]. intros c H. cbv beta in H. unfold isdigit. apply andb_true_iff. split; lia. }
  assert (N' : match e with [] => True | c :: _ => isdigit c = false end).
  { destruct e as [|c e]; auto. unfold isdigit. simpl in N. destruct (48 <=? c)%Z eqn:E1; [|reflexivity]. destruct (c <=? 57)%Z eqn:E2; [|reflexivity]. exfalso. apply N. lia. }
  assert (S : take_sign (skip_space (t ++ e)) = (false, t ++ e)).
  { destruct D as [Nt Ft]. destruct t as [|c t]; [now elim Nt|]. apply Forall_cons_iff in Ft as [Ft _]. cbv beta in Ft. cbn [app skip_space].
    rewrite not_space by lia. unfold take_sign.
    assert ((c =? 45)%Z = false) as -> by lia. assert ((c =? 43)%Z = false) as -> by lia. reflexivity. }
  unfold scan_u. rewrite S, (take_digits_all t e 0%Z 0 F N'), horner. fold (number_of t). destruct D as [Nt _].
  replace (0 + length t =? 0) with false by (symmetry; apply Nat.eqb_neq; destruct t; [now elim Nt|simpl; lia]).
  replace (number_of t <? 2 ^ 32)%Z with false by (symmetry; apply Z.ltb_ge; assumption). now rewrite andb_false_r.
Qed.
Lemma scan_stop : forall t v e seps, field t v -> no_digit e ->
  match e, seps with d :: _, c :: _ => c <> d | _, _ => True end -> scan_list (t ++ e) seps = Some [v].
Proof.
  intros t v e seps F N H. destruct seps as [|c seps]; cbn [scan_list]; rewrite (scan_field t v e F N); auto.
  destruct e as [|d e]; auto. destruct (Z.eqb_spec c d); [contradiction|reflexivity].
Qed.
Lemma scan_next : forall t v c e seps, field t v -> ~ (48 <= c <= 57)%Z ->
  scan_list (t ++ c :: e) (c :: seps) = match scan_list e seps with Some l => Some (v :: l) | None => None end.
Proof. intros t v c e seps F N. cbn [scan_list]. rewrite (scan_field t v (c :: e) F N), Z.eqb_refl. reflexivity. Qed.

Lemma setup_s : forall ts s e, field ts s -> no_digit e -> match e with [] => True | c :: _ => c <> 58%Z /\ c <> 45%Z end ->
  setup_timelimit (ts ++ e) = Limit s.
Proof.
  intros ts s e F N H. unfold setup_timelimit.
  rewrite !(scan_stop ts s e) by (auto; destruct e; auto; intuition congruence). f_equal. lia.
Qed.
Lemma setup_ms : forall tm ts m s e, field tm m -> field ts s -> no_digit e -> match e with [] => True | c :: _ => c <> 58%Z end ->
  setup_timelimit (tm ++ 58%Z :: ts ++ e) = Limit (60 * m + s).
Proof.
  intros tm ts m s e Fm Fs N H. unfold setup_timelimit.
  rewrite (scan_stop tm m (58%Z :: ts ++ e) [45; 58; 58]%Z) by (auto; simpl; lia).
  rewrite !(scan_next tm m) by (auto; lia). rewrite !(scan_stop ts s e) by (auto; destruct e; auto; congruence). f_equal. lia.
Qed.
Lemma setup_hms : forall th tm ts h m s e, field th h -> field tm m -> field ts s -> no_digit e ->
  setup_timelimit (th ++ 58%Z :: tm ++ 58%Z :: ts ++ e) = Limit (3600 * h + 60 * m + s).
Proof.
  intros th tm ts h m s e Fh Fm Fs N. unfold setup_timelimit.
  rewrite (scan_stop th h (58%Z :: _) [45; 58; 58]%Z) by (auto; simpl; lia).
  rewrite (scan_next th h 58), (scan_next tm m 58) by (auto; lia). rewrite (scan_stop ts s e) by (auto; destruct e; auto). f_equal. lia.
Qed.
Lemma setup_dhms : forall td th tm ts d h m s e, field td d -> field th h -> field tm m -> field ts s -> no_digit e ->
  setup_timelimit (td ++ 45%Z :: th ++ 58%Z :: tm ++ 58%Z :: ts ++ e) = Limit (86400 * d + 3600 * h + 60 * m + s).
Proof.
  intros td th tm ts d h m s e Fd Fh Fm Fs N. unfold setup_timelimit.
  rewrite (scan_next td d 45), (scan_next th h 58), (scan_next tm m 58) by (auto; lia). rewrite (scan_stop ts s e) by (auto; destruct e; auto). f_equal. lia.
Qed.
(** Days and hours, without minutes or seconds. *)
Lemma setup_short : forall td e d, field td d ->
  (exists th h, field th h /\ (e = th \/ exists tm m, field tm m /\ e = th ++ 58%Z :: tm)) ->
  setup_timelimit (td ++ 45%Z :: e) = Limit d.
Proof.
  intros td e d Fd (th & h & Fh & E). unfold setup_timelimit.
  rewrite (scan_next td d 45 e [58; 58]%Z Fd) by lia.
  assert (G : exists l, scan_list e [58; 58]%Z = Some l /\ length l < 3).
  { destruct E as [->|(tm & m & Fm & ->)].
    - exists [h]. split; [|simpl; lia]. rewrite <- (app_nil_r th). apply scan_stop; simpl; auto.
    - exists [h; m]. split; [|simpl; lia]. rewrite (scan_next th h 58 tm [58]%Z Fh) by lia.
      rewrite <- (app_nil_r tm). rewrite (scan_stop tm m []); simpl; auto. }
  destruct G as (l & -> & L).
  rewrite !(scan_stop td d (45%Z :: e)) by (auto; simpl; lia).
  destruct l as [|a [|b [|c l]]]; simpl in L; try lia; f_equal; lia.
Qed.
(** The checks. *)
Lemma laterP : forall a b, later a b = true <-> (a < b)%Q.
Proof.
  intros a b. unfold later. rewrite negb_true_iff. destruct (Qle_bool b a) eqn:E.
  - apply Qle_bool_iff in E. split; [discriminate|]. intros H. lra.
  - split; auto. intros _. apply Qnot_le_lt. intros H. apply Qle_bool_iff in H. congruence.
Qed.
Lemma later_dec : forall a b, later a b = if Qlt_le_dec a b then true else false.
Proof.
  intros a b. destruct (Qlt_le_dec a b) as [H|H]; [now apply laterP|].
  destruct (later a b) eqn:E; auto. apply laterP in E. lra.
Qed.
Definition advance (c : clock) (t : Q) : clock :=
  mkClock (if Qlt_le_dec (max_interval c) (t - previous_time c) then t - previous_time c else max_interval c)%Q t.
Lemma time_check : forall lim c t, ~ (lim == 0)%Q ->
  time_to_finish lim c t false = (later (lim - t) (max_interval (advance c t) + 120), advance c t).
Proof.
  intros lim c t N. unfold time_to_finish. assert (Qeq_bool lim 0 = false) as ->.
  { destruct (Qeq_bool lim 0) eqn:E; auto. apply Qeq_bool_iff in E. contradiction. }
  cbv zeta. rewrite (later_dec (max_interval c)). unfold advance. cbn [max_interval]. destruct (Qlt_le_dec (max_interval c) _); reflexivity.
Qed.
Lemma checks_app : forall lim c calls k t, ~ (lim == 0)%Q -> nth_error calls k = Some (t, false) ->
  (forall j u s, j < k -> nth_error calls j = Some (u, s) -> s = false) ->
  nth_error (checks lim c calls) k = Some (later (lim - t) (longest (max_interval c) (previous_time c) (map fst (firstn (S k) calls)) + 120)).
Proof.
  intros lim c calls k t N. revert c calls. induction k as [|k IH]; intros c [|[u s] calls] H F; try discriminate.
  - simpl in H. inversion H; subst. cbn [checks]. rewrite (time_check lim c t N). reflexivity.
  - assert (s = false) as -> by (apply (F 0 u s); [lia|reflexivity]). cbn [checks]. rewrite (time_check lim c u N).
    cbn [nth_error]. rewrite (IH (advance c u) calls H).
    + reflexivity.
    + intros j v s' L Hj. apply (F (S j) v s'); [lia|exact Hj].
Qed.
Lemma finish_stays : forall lim c t1 t2, ~ (lim == 0)%Q -> (t1 <= t2)%Q -> previous_time c == t1 -> (lim - t1 < max_interval c + 120)%Q ->
  fst (time_to_finish lim c t2 false) = true /\
  previous_time (snd (time_to_finish lim c t2 false)) == t2 /\ (lim - t2 < max_interval (snd (time_to_finish lim c t2 false)) + 120)%Q.
Proof.
  intros lim c t1 t2 N L P H. rewrite time_check by auto. cbn [fst snd]. unfold advance. cbn [max_interval previous_time].
  assert (G : (lim - t2 < (if Qlt_le_dec (max_interval c) (t2 - previous_time c) then t2 - previous_time c else max_interval c) + 120)%Q).
  { destruct (Qlt_le_dec _ _); lra. }
  split; [now apply laterP|]. split; [reflexivity|exact G].
Qed.
