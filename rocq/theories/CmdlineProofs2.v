(** All flags in turn. *)
From Coq Require Import String.
From Verif Require Import Common CmdlineModel CmdlineSpec CmdlineProofs1.
Open Scope Z_scope.
Open Scope list_scope.

Lemma owned_snd : forall ws cur, map snd (owned cur ws) = ws.
Proof. induction ws as [|w ws IH]; intros cur; [reflexivity|]. cbn [owned map snd]. now rewrite IH. Qed.

(** The last flag-like word. *)
Fixpoint last_flag (cur : option string) (ws : list string) : option string :=
  match ws with [] => cur | w :: ws' => last_flag (if flag_like w then Some w else cur) ws' end.

Lemma owned_app : forall a b cur, owned cur (a ++ b) = owned cur a ++ owned (last_flag cur a) b.
Proof. induction a as [|w a IH]; intros b cur; [reflexivity|]. cbn [app owned last_flag]. now rewrite IH. Qed.

Lemma owned_start : forall ws cur, starts_with_flag ws -> owned cur ws = owned None ws.
Proof. intros [|w ws] cur H; [reflexivity|]. cbn in H. cbn [owned]. now rewrite H. Qed.

Definition keep (f : string) (q : option string * string) : bool := negb (belongs f q).

Lemma owned_keep : forall f ws cur cur0, cur = cur0 \/ cur = Some f ->
  owned cur0 (map snd (filter (keep f) (owned cur ws))) = filter (keep f) (owned cur ws).
Proof.
  intros f. induction ws as [|w ws IH]; intros cur cur0 H; [reflexivity|].
  cbn [owned filter]. set (cur' := if flag_like w then Some w else cur).
  destruct (keep f (cur', w)) eqn:E.
  - cbn [map snd owned].
    assert (Hc : (if flag_like w then Some w else cur0) = cur').
    { unfold cur' in *. destruct (flag_like w); [reflexivity|]. destruct H as [->| ->]; [reflexivity|].
      unfold keep, belongs in E. cbn [fst] in E. rewrite String.eqb_refl in E. discriminate. }
    rewrite Hc. f_equal. apply IH. now left.
  - apply IH. right. unfold keep, belongs in E. cbn [fst] in E. clearbody cur'. destruct cur' as [g|]; [|discriminate].
    destruct (String.eqb_spec g f) as [Eg|Eg]; [now rewrite Eg|discriminate].
Qed.

Lemma foreign_one : forall f ws, foreign [f] ws = map snd (filter (keep f) (owned None ws)).
Proof. intros. unfold foreign. f_equal. apply filter_ext. intros q. cbn [existsb]. unfold keep. now rewrite orb_false_r. Qed.

Lemma foreign_cons : forall f fs ws, foreign fs (foreign [f] ws) = foreign (f :: fs) ws.
Proof.
  intros f fs ws. rewrite foreign_one. unfold foreign. rewrite owned_keep by now left.
  f_equal. rewrite filter_filter. apply filter_ext. intros q. cbn [existsb]. unfold keep. destruct (belongs f q), (existsb (fun f0 => belongs f0 q) fs); reflexivity.
Qed.

Lemma arguments_foreign : forall f g ws, g <> f -> arguments g (foreign [f] ws) = arguments g ws.
Proof.
  intros f g ws H. rewrite foreign_one. unfold arguments. rewrite owned_keep by now left.
  f_equal. rewrite filter_filter. apply filter_ext. intros [c w]. unfold keep, belongs. cbn [fst snd].
  destruct c as [c|]; [|reflexivity]. destruct (String.eqb_spec c f) as [->|]; cbn [negb andb]; [|reflexivity].
  destruct (String.eqb_spec f g) as [->|]; [congruence|]. reflexivity.
Qed.

Lemma owned_flag : forall f ws cur, flag_like f = true -> (In f ws <-> In (Some f, f) (owned cur ws)).
Proof.
  intros f ws cur Hf. revert cur. induction ws as [|w ws IH]; intros cur; [reflexivity|].
  cbn [owned In]. rewrite (IH (if flag_like w then Some w else cur)). split.
  - intros [->|H]; [left; now rewrite Hf|now right].
  - intros [H|H]; [left|now right]. injection H as _ H. exact H.
Qed.

Lemma mem_In : forall f ws, mem f ws = true <-> In f ws.
Proof.
  intros f ws. unfold mem. rewrite existsb_exists. split.
  - intros [x [Hx E]]. apply String.eqb_eq in E. now subst.
  - intros H. exists f. split; [exact H|apply String.eqb_refl].
Qed.

Lemma mem_foreign : forall f g ws, flag_like g = true -> g <> f -> mem g (foreign [f] ws) = mem g ws.
Proof.
  intros f g ws Hg H. apply eq_true_iff_eq. rewrite !mem_In.
  rewrite (owned_flag g ws None Hg), (owned_flag g (foreign [f] ws) None Hg), foreign_one, owned_keep by now left.
  rewrite filter_In. unfold keep, belongs. cbn [fst]. destruct (String.eqb_spec g f); [congruence|]. tauto.
Qed.

(** Occurrences of a flag after another flag has been taken out. *)
Lemma foreign_occurrence : forall f g ws vals post, flag_like g = true -> g <> f ->
  occurrence g ws vals post -> occurrence g (foreign [f] ws) vals (foreign [f] post).
Proof.
  intros f g ws vals post Hg H [pre [-> [Hv Hp]]]. exists (foreign [f] pre). split; [|split; [exact Hv|]].
  - rewrite !foreign_one. rewrite owned_app, filter_app, map_app. f_equal.
    cbn [owned]. rewrite Hg. cbn [filter]. unfold keep at 1. unfold belongs. cbn [fst].
    destruct (String.eqb_spec g f); [congruence|]. cbn [negb map snd]. f_equal.
    rewrite owned_app, filter_app, map_app, (owned_start post) by exact Hp. f_equal.
    assert (Hlem : forall vs, Forall no_flag vs -> map snd (filter (keep f) (owned (Some g) vs)) = vs).
    { induction 1 as [|v vs Hv1 Hv2 IH]; [reflexivity|]. cbn [owned]. rewrite Hv1. cbn [filter]. unfold keep at 1. unfold belongs. cbn [fst].
      destruct (String.eqb_spec g f); [congruence|]. cbn [negb map snd]. now rewrite IH. }
    apply Hlem. exact Hv.
  - rewrite foreign_one. clear Hv. destruct post as [|w post]; [exact I|]. cbn [starts_with_flag] in Hp.
    assert (Hlem : forall ws' w, flag_like w = true -> starts_with_flag (map snd (filter (keep f) (owned None (w :: ws'))))).
    { induction ws' as [|x ws' IH]; intros w0 Hw.
      - cbn [owned filter]. destruct (keep f _); [exact Hw|exact I].
      - cbn [owned]. rewrite Hw. cbn [filter]. destruct (keep f (Some w0, w0)) eqn:E; [exact Hw|].
        assert (w0 = f). { unfold keep, belongs in E. cbn [fst] in E. destruct (String.eqb_spec w0 f); [assumption|discriminate]. }
        subst w0. destruct (flag_like x) eqn:Ex.
        + specialize (IH x Ex). cbn [owned] in IH. rewrite Ex in IH. cbn [filter] in IH. cbn [owned]. exact IH.
        + assert (E2 : keep f (Some f, x) = false) by (unfold keep, belongs; cbn [fst]; now rewrite String.eqb_refl).
          rewrite E2. specialize (IH f Hw). cbn [owned] in IH. rewrite Hw in IH. cbn [filter] in IH. rewrite E in IH. exact IH. }
    now apply Hlem.
Qed.

Lemma app_inj_length : forall A (a a' b b' : list A), a ++ b = a' ++ b' -> len a = len a' -> a = a' /\ b = b'.
Proof.
  induction a as [|x a IH]; intros [|y a'] b b' E H; try discriminate; [auto|].
  cbn [app] in E. injection E as -> E. injection H as H. destruct (IH _ _ _ E H) as [-> ->]. auto.
Qed.

Lemma filter_split_mid : forall A (P : A -> bool) l a x b, filter P l = a ++ x :: b ->
  exists l1 l2, l = l1 ++ x :: l2 /\ filter P l1 = a /\ filter P l2 = b.
Proof.
  intros A P. induction l as [|y l IH]; intros a x b H; [destruct a; discriminate|].
  cbn [filter] in H. destruct (P y) eqn:E.
  - destruct a as [|z a].
    + cbn [app] in H. injection H as -> H. exists [], l. auto.
    + cbn [app] in H. injection H as -> H. destruct (IH _ _ _ H) as [l1 [l2 [-> [H1 H2]]]].
      exists (z :: l1), l2. split; [reflexivity|]. cbn [filter]. rewrite E, H1. auto.
  - destruct (IH _ _ _ H) as [l1 [l2 [-> [H1 H2]]]]. exists (y :: l1), l2. split; [reflexivity|]. cbn [filter]. rewrite E. auto.
Qed.

Lemma occurrence_foreign : forall f g ws vals post', flag_like g = true -> g <> f ->
  occurrence g (foreign [f] ws) vals post' ->
  exists post, occurrence g ws vals post /\ post' = foreign [f] post.
Proof.
  intros f g ws vals post' Hg H [pre' [E [Hv Hp]]].
  (* the occurrence as words with owners *)
  assert (Eo : owned None (foreign [f] ws) = filter (keep f) (owned None ws)) by (rewrite foreign_one; apply owned_keep; now left).
  rewrite E in Eo. rewrite owned_app in Eo. cbn [owned] in Eo. rewrite Hg in Eo.
  symmetry in Eo. destruct (filter_split_mid _ _ _ _ _ _ Eo) as [l1 [l2 [El [H1 H2]]]].
  pose proof (owned_snd ws None) as Hws. rewrite El, map_app in Hws. cbn [map snd] in Hws.
  set (pre := map snd l1) in *. set (ws2 := map snd l2) in *.
  destruct (span_spec ws2) as [Es [Hv2 Hp2]].
  assert (Hocc : occurrence g ws (fst (span ws2)) (snd (span ws2))).
  { exists pre. split; [|split; [exact Hv2|exact Hp2]]. rewrite <- Hws. f_equal. f_equal. exact Es. }
  pose proof (foreign_occurrence f g ws _ _ Hg H Hocc) as Hfo.
  (* same words before it, so the same arguments *)
  assert (El2 : l2 = owned (Some g) ws2).
  { rewrite <- Hws in El. rewrite owned_app in El. cbn [owned] in El. rewrite Hg in El.
    assert (len (owned None pre) = len l1). { rewrite <- (map_length snd (owned None pre)), owned_snd. unfold pre. apply map_length. }
    apply app_inj_length in El; [|assumption]. destruct El as [_ El]. injection El as El. now symmetry. }
  assert (Erest : map snd (filter (keep f) l2) = vals ++ post').
  { rewrite H2. apply owned_snd. }
  destruct Hocc as [pr2 [Hw2 _]].
  assert (Evp : vals ++ post' = fst (span ws2) ++ foreign [f] (snd (span ws2))).
  { rewrite <- Erest, El2, Es at 1. rewrite foreign_one, owned_app, filter_app, map_app.
    rewrite (owned_start (snd (span ws2))) by exact Hp2. f_equal.
    assert (Hlem : forall vs, Forall no_flag vs -> map snd (filter (keep f) (owned (Some g) vs)) = vs).
    { induction 1 as [|v vs Hv1 Hv3 IH]; [reflexivity|]. cbn [owned]. rewrite Hv1. cbn [filter]. unfold keep at 1. unfold belongs. cbn [fst].
      destruct (String.eqb_spec g f); [congruence|]. cbn [negb map snd]. now rewrite IH. }
    apply Hlem. exact Hv2. }
  destruct Hfo as [pf [_ [_ Hpf]]].
  assert (Esp : span (vals ++ post') = (vals, post')) by now apply span_app.
  rewrite Evp, span_app in Esp by assumption. injection Esp as E1 E2.
  exists (snd (span ws2)). split; [|now symmetry].
  exists pre. split; [|split; [exact Hv|exact Hp2]]. rewrite <- Hws. f_equal. f_equal. rewrite <- E1. exact Es.
Qed.

(** The loop over the flags. *)
Fixpoint fill_ok (todo : argmap) (argv : list string) : bool :=
  match todo with
  | [] => true
  | (f, e) :: rest => ok_counts (e_number e) f argv && fill_ok rest (foreign [f] argv)
  end.

Definition filled (argv : list string) (q : string * entry) : string * entry :=
  (fst q, mkEntry (e_number (snd q)) (arguments (fst q) argv) (mem (fst q) argv)).

Lemma foreign_nil : forall ws, foreign [] ws = ws.
Proof.
  intros ws. unfold foreign. cbn [existsb negb]. rewrite filter_all by reflexivity. apply owned_snd.
Qed.

Lemma fill_run : forall todo argv, valid_flags todo ->
  fill todo argv = if fill_ok todo argv then Ok (map (filled argv) todo, foreign (map fst todo) argv) else Quit.
Proof.
  induction todo as [|[f e] todo IH]; intros argv [Hn Hf].
  - cbn [fill fill_ok map]. now rewrite foreign_nil.
  - cbn [map fst] in *. inversion Hn as [|? ? Hn1 Hn2]; subst. inversion Hf as [|? ? Hf1 Hf2]; subst.
    cbn [fill fill_ok]. rewrite (read_arg_vector_run f Hf1).
    destruct (ok_counts (e_number e) f argv); [|reflexivity]. cbn [andb].
    rewrite (IH (foreign [f] argv)) by (split; assumption).
    destruct (fill_ok todo (foreign [f] argv)); [|reflexivity].
    rewrite foreign_cons. f_equal. f_equal. unfold filled at 2. cbn [fst snd]. f_equal.
    apply map_ext_in. intros [g e'] Hg. unfold filled. cbn [fst snd].
    assert (Hin : In g (map fst todo)) by (apply in_map_iff; exists (g, e'); auto).
    assert (g <> f) by (intros ->; contradiction).
    rewrite Forall_forall in Hf2. rewrite arguments_foreign, mem_foreign by auto. reflexivity.
Qed.

Lemma fill_ok_spec : forall todo argv, valid_flags todo ->
  fill_ok todo argv = true <->
  (forall es f e ls, todo = es ++ (f, e) :: ls -> forall vals post, occurrence f argv vals post ->
     right_number (e_number e) vals \/ (vals = [] /\ foreign (map fst es) post = [])).
Proof.
  induction todo as [|[g d] todo IH]; intros argv [Hn Hf].
  - split; [|reflexivity]. intros _ es f e ls E. destruct es; discriminate.
  - cbn [map fst] in *. inversion Hn as [|? ? Hn1 Hn2]; subst. inversion Hf as [|? ? Hf1 Hf2]; subst.
    cbn [fill_ok]. rewrite andb_true_iff, (ok_counts_spec (e_number d) g Hf1), (IH (foreign [g] argv)) by (split; assumption).
    split.
    + intros [H1 H2] es f e ls E vals post Ho. destruct es as [|q es].
      * cbn [app] in E. injection E as -> -> ->. cbn [map]. rewrite foreign_nil. now apply H1.
      * cbn [app] in E. injection E as <- E.
        assert (Hin : In f (map fst todo)) by (rewrite E, map_app; apply in_or_app; right; left; reflexivity).
        assert (Hne : f <> g) by (intros ->; contradiction).
        assert (Hff : flag_like f = true) by (rewrite Forall_forall in Hf2; now apply Hf2).
        destruct (H2 es f e ls E vals (foreign [g] post)) as [Hr|[Hr1 Hr2]].
        { now apply foreign_occurrence. }
        { now left. }
        { right. split; [exact Hr1|]. cbn [map fst]. rewrite <- foreign_cons. exact Hr2. }
    + intros H. split.
      * intros vals post Ho. destruct (H [] g d todo eq_refl vals post Ho) as [Hr|[Hr1 Hr2]]; [now left|right].
        cbn [map] in Hr2. rewrite foreign_nil in Hr2. auto.
      * intros es f e ls E vals post' Ho.
        assert (Hin : In f (map fst todo)) by (rewrite E, map_app; apply in_or_app; right; left; reflexivity).
        assert (Hne : f <> g) by (intros ->; contradiction).
        assert (Hff : flag_like f = true) by (rewrite Forall_forall in Hf2; now apply Hf2).
        destruct (occurrence_foreign g f argv vals post' Hff Hne Ho) as [post [Ho2 ->]].
        destruct (H ((g, d) :: es) f e ls) with (vals := vals) (post := post) as [Hr|[Hr1 Hr2]].
        { cbn [app]. now rewrite E. }
        { exact Ho2. }
        { now left. }
        { right. split; [exact Hr1|]. rewrite foreign_cons. exact Hr2. }
Qed.

Lemma parse_run : forall declared argv, valid_flags declared ->
  initialise_args declared argv =
    if fill_ok declared argv && (len (foreign (map fst declared) argv) <=? 1)%nat
    then Ok (map (filled argv) declared) else Quit.
Proof.
  intros declared argv H. unfold initialise_args. rewrite (fill_run declared argv H).
  destruct (fill_ok declared argv); [|reflexivity]. cbn [andb].
  destruct (Nat.ltb_spec 1 (len (foreign (map fst declared) argv))), (Nat.leb_spec (len (foreign (map fst declared) argv)) 1); try lia; reflexivity.
Qed.

Lemma lookup_filled : forall declared argv f e, lookup (map (filled argv) declared) f = Some e ->
  exists d, In (f, d) declared /\ e = mkEntry (e_number d) (arguments f argv) (mem f argv).
Proof.
  induction declared as [|[g d] t IH]; intros argv f e H; [discriminate|].
  cbn [map lookup filled fst snd] in H. unfold filled at 1 in H. cbn [fst snd] in H.
  destruct (String.eqb_spec g f) as [->|].
  - injection H as <-. exists d. split; [now left|reflexivity].
  - destruct (IH _ _ _ H) as [d' [H1 H2]]. exists d'. split; [now right|exact H2].
Qed.

Lemma lookup_declared : forall declared argv f, In f (map fst declared) ->
  exists e, lookup (map (filled argv) declared) f = Some e.
Proof.
  induction declared as [|[g d] t IH]; intros argv f H; [contradiction|].
  cbn [map lookup fst] in *. unfold filled at 1. cbn [fst snd].
  destruct (String.eqb_spec g f) as [->|Hn]; [eexists; reflexivity|].
  destruct H as [H|H]; [congruence|]. now apply IH.
Qed.
