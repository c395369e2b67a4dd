(** The scan of the command line for one flag. *)
From Coq Require Import String.
From Verif Require Import Common CmdlineModel CmdlineSpec.
Open Scope Z_scope.
Open Scope list_scope.

Notation len := List.length.
Notation no_flag := (fun w => flag_like w = false).

Lemma mark_at : forall um b us, mark (len um) (um ++ b :: us) = Some (um ++ true :: us).
Proof. induction um as [|x um IH]; intros b us; cbn [len app mark]; [reflexivity|]. now rewrite IH. Qed.

Lemma nth_mid : forall (pre : list string) w ws, nth_error (pre ++ w :: ws) (len pre) = Some w.
Proof. intros. rewrite nth_error_app2 by lia. now rewrite Nat.sub_diag. Qed.

Lemma nth_end : forall (pre : list string) k, (len pre <= k)%nat -> nth_error pre k = None.
Proof. intros. now apply nth_error_None. Qed.

(** The words up to the next flag-like word. *)
Fixpoint span (ws : list string) : list string * list string :=
  match ws with
  | [] => ([], [])
  | w :: ws' => if flag_like w then ([], ws) else let '(a, b) := span ws' in (w :: a, b)
  end.

Lemma span_spec : forall ws, ws = fst (span ws) ++ snd (span ws) /\ Forall no_flag (fst (span ws)) /\ starts_with_flag (snd (span ws)).
Proof.
  induction ws as [|w ws IH]; cbn [span].
  - split; [reflexivity|]. split; [constructor|exact I].
  - destruct (flag_like w) eqn:E.
    + split; [reflexivity|]. split; [constructor|exact E].
    + destruct (span ws) as [a b]. cbn [fst snd] in *. destruct IH as [H1 [H2 H3]].
      split; [cbn [app]; now rewrite <- H1|]. split; [now constructor|exact H3].
Qed.

Lemma span_app : forall vals post, Forall no_flag vals -> starts_with_flag post -> span (vals ++ post) = (vals, post).
Proof.
  induction vals as [|v vals IH]; intros post Hv Hp.
  - cbn [app]. destruct post as [|w post]; [reflexivity|]. cbn [span]. cbn in Hp. now rewrite Hp.
  - inversion Hv as [|? ? H1 H2]; subst. cbn [app span]. rewrite H1, IH by assumption. reflexivity.
Qed.

Lemma take_values_run : forall vals argv pre post um us uargs n p fuel,
  argv = pre ++ vals ++ post -> len um = len pre -> (len vals <= len us)%nat ->
  Forall no_flag vals -> starts_with_flag post ->
  hd_error (vals ++ post) = Some p -> (len vals < fuel)%nat ->
  exists q,
    take_values fuel argv (len pre) (len um) (um ++ us) uargs n p =
      Ok ((len pre + len vals)%nat, (len um + len vals)%nat, um ++ repeat true (len vals) ++ skipn (len vals) us,
          uargs ++ vals, n + Z.of_nat (len vals), q) /\
    (match post with [] => flag_like q = false | w :: _ => q = w end).
Proof.
  induction vals as [|v vals IH]; intros argv pre post um us uargs n p fuel Ea Hk Hu Hv Hp Hh Hf.
  - cbn [len app repeat skipn]. rewrite !Nat.add_0_r, Z.add_0_r, app_nil_r. cbn [app] in Hh.
    destruct post as [|w post]; [discriminate|]. injection Hh as ->. cbn [starts_with_flag] in Hp.
    destruct fuel as [|fuel]; [inversion Hf|]. cbn [take_values]. rewrite Hp. exists p. split; reflexivity.
  - cbn [app hd_error] in Hh. injection Hh as ->. inversion Hv as [|? ? H1 H2]; subst.
    destruct fuel as [|fuel]; [inversion Hf|]. cbn [take_values]. rewrite H1.
    destruct us as [|b us]; [cbn [len] in Hu; lia|]. rewrite mark_at. cbn [len] in *.
    destruct (vals ++ post) as [|p' tl] eqn:E.
    + apply app_eq_nil in E. destruct E as [-> ->]. cbn [app].
      rewrite nth_end by (rewrite app_length; cbn; lia). exists p. cbn [len repeat skipn app].
      rewrite !Nat.add_1_r. change (Z.of_nat 1) with 1. split; [reflexivity|exact H1].
    + replace (pre ++ (p :: vals) ++ post) with ((pre ++ [p]) ++ vals ++ post) by (rewrite <- app_assoc; reflexivity).
      replace (S (len pre)) with (len (pre ++ [p])) by (rewrite app_length; cbn; lia).
      replace (S (len um)) with (len (um ++ [true])) by (rewrite app_length; cbn; lia).
      rewrite E. rewrite (nth_mid (pre ++ [p]) p' tl).
      replace (um ++ true :: us) with ((um ++ [true]) ++ us) by (rewrite <- app_assoc; reflexivity).
      rewrite <- E.
      destruct (IH ((pre ++ [p]) ++ vals ++ post) (pre ++ [p]) post (um ++ [true]) us (uargs ++ [p]) (n + 1) p' fuel
                  eq_refl) as [q [Hq Hq2]]; try assumption; try lia.
      { rewrite !app_length. cbn. lia. }
      { rewrite E. reflexivity. }
      exists q. split; [|exact Hq2]. rewrite Hq. f_equal.
      rewrite !app_length. cbn [len]. cbn [repeat skipn app]. rewrite <- !app_assoc. cbn [app].
      repeat match goal with |- (_, _) = (_, _) => f_equal end; lia.
Qed.

(** What the scan marks, collects and checks, by one pass over the words. *)
Fixpoint marks (f : string) (act : bool) (ws : list string) : list bool :=
  match ws with
  | [] => []
  | w :: ws' => let act' := if flag_like w then String.eqb w f else act in act' :: marks f act' ws'
  end.

Fixpoint collected (f : string) (act : bool) (ws : list string) : list string :=
  match ws with
  | [] => []
  | w :: ws' =>
      if flag_like w then collected f (String.eqb w f) ws'
      else if act then w :: collected f true ws' else collected f false ws'
  end.

Definition mem (f : string) (ws : list string) : bool := existsb (fun w => String.eqb w f) ws.

Fixpoint ok_counts (num : Z) (f : string) (ws : list string) : bool :=
  match ws with
  | [] => true
  | w :: ws' =>
      (if String.eqb w f then
         match ws' with [] => true | _ => (num <? 0) || (num =? Z.of_nat (len (fst (span ws')))) end
       else true) && ok_counts num f ws'
  end.

Section Scan.
Variable f : string.
Hypothesis Hf : flag_like f = true.

Lemma not_f : forall w, flag_like w = false -> String.eqb w f = false.
Proof. intros w H. destruct (String.eqb_spec w f) as [->|]; [congruence|reflexivity]. Qed.

Lemma ok_counts_app : forall num vals post, Forall no_flag vals -> ok_counts num f (vals ++ post) = ok_counts num f post.
Proof.
  intros num vals post H. induction H as [|v vals Hv H IH]; [reflexivity|].
  cbn [app ok_counts]. rewrite not_f by exact Hv. exact IH.
Qed.

Lemma mem_app : forall vals post, Forall no_flag vals -> mem f (vals ++ post) = mem f post.
Proof.
  intros vals post H. induction H as [|v vals Hv H IH]; [reflexivity|].
  unfold mem in *. cbn [app existsb]. rewrite not_f by exact Hv. exact IH.
Qed.

Lemma marks_app : forall vals post, Forall no_flag vals -> starts_with_flag post ->
  marks f true (vals ++ post) = repeat true (len vals) ++ marks f false post.
Proof.
  intros vals post H Hp. induction H as [|v vals Hv H IH].
  - cbn [len repeat app]. destruct post as [|w post]; [reflexivity|]. cbn in Hp. cbn [marks]. now rewrite Hp.
  - cbn [app len repeat marks]. rewrite Hv. now rewrite IH.
Qed.

Lemma collected_app : forall vals post, Forall no_flag vals -> starts_with_flag post ->
  collected f true (vals ++ post) = vals ++ collected f false post.
Proof.
  intros vals post H Hp. induction H as [|v vals Hv H IH].
  - cbn [app]. destruct post as [|w post]; [reflexivity|]. cbn in Hp. cbn [collected]. now rewrite Hp.
  - cbn [app collected]. rewrite Hv. now rewrite IH.
Qed.

Lemma scan_run : forall m ws num argv pre um us uargs pr fuel,
  (len ws <= m)%nat -> argv = pre ++ ws -> len um = len pre -> len us = len ws ->
  (Forall (fun b => b = false) us \/ (hd_error ws = Some f /\ Forall (fun b => b = false) (tl us))) ->
  (len ws < fuel)%nat ->
  scan fuel argv f num (len pre) (len um) (um ++ us) uargs pr =
    if ok_counts num f ws then Ok (um ++ marks f false ws, uargs ++ collected f false ws, pr || mem f ws)
    else Quit.
Proof.
  induction m as [|m IHm]; intros ws num argv pre um us uargs pr fuel Hm Ea Hk Hl Hu Hfu.
  - destruct ws; [|cbn in Hm; lia]. destruct us; [|discriminate]. subst argv.
    destruct fuel as [|fuel]; [inversion Hfu|]. cbn [scan]. rewrite nth_end by (rewrite app_nil_r; lia).
    cbn [ok_counts marks collected mem existsb]. unfold mem; cbn [existsb]; now rewrite !app_nil_r, orb_false_r.
  - destruct ws as [|w ws].
    { apply (IHm [] num argv pre um us uargs pr fuel); auto. cbn. lia. }
    destruct fuel as [|fuel]; [inversion Hfu|]. subst argv. cbn [scan]. rewrite nth_mid.
    destruct us as [|b us]; [discriminate|]. cbn [len] in *.
    destruct (String.eqb_spec w f) as [->|Hw].
    + rewrite mark_at.
      assert (Hus : Forall (fun b => b = false) us).
      { destruct Hu as [Hu|[_ Hu]]; [inversion Hu; assumption|exact Hu]. }
      cbn [ok_counts marks collected]. rewrite Hf, String.eqb_refl. unfold mem. cbn [existsb]. rewrite String.eqb_refl. cbn [orb].
      rewrite orb_true_r.
      replace (pre ++ f :: ws) with ((pre ++ [f]) ++ ws) by (rewrite <- app_assoc; reflexivity).
      replace (S (len pre)) with (len (pre ++ [f])) by (rewrite app_length; cbn; lia).
      destruct ws as [|p1 ws1].
      { rewrite nth_end by (rewrite app_nil_r; lia). destruct us; [|discriminate].
        cbn [ok_counts marks collected andb]. now rewrite app_nil_r. }
      rewrite nth_mid. remember (p1 :: ws1) as ws eqn:Ews.
      destruct (span_spec ws) as [Es [Hv Hp]]. set (vals := fst (span ws)) in *. set (post := snd (span ws)) in *.
      assert (Hle : len ws = (len vals + len post)%nat) by (rewrite Es, app_length; reflexivity).
      replace (um ++ true :: us) with ((um ++ [true]) ++ us) by (rewrite <- app_assoc; reflexivity).
      replace (S (len um)) with (len (um ++ [true])) by (rewrite app_length; cbn; lia).
      destruct (take_values_run vals ((pre ++ [f]) ++ ws) (pre ++ [f]) post (um ++ [true]) us uargs 0 p1
                  (S (len ((pre ++ [f]) ++ ws)))) as [q [Hq Hq2]].
      { now rewrite Es at 1. }
      { rewrite !app_length. cbn. lia. }
      { lia. }
      { exact Hv. }
      { exact Hp. }
      { rewrite <- Es, Ews. reflexivity. }
      { rewrite !app_length. lia. }
      rewrite Hq. rewrite Z.add_0_l.
      assert (Hsk : Forall (fun b => b = false) (skipn (len vals) us)).
      { apply Forall_forall. intros x Hx. rewrite Forall_forall in Hus. apply Hus.
        rewrite <- (firstn_skipn (len vals) us). apply in_or_app. now right. }
      assert (Hlen : len (skipn (len vals) us) = len post) by (rewrite skipn_length; lia).
      assert (Hchk : ((num <? 0) || (num =? Z.of_nat (len vals)))
                     = negb ((0 <=? num) && negb (num =? Z.of_nat (len vals)))).
      { destruct (Z.ltb_spec num 0), (Z.leb_spec 0 num), (Z.eqb_spec num (Z.of_nat (len vals))); cbn; lia || reflexivity. }
      replace (((num <? 0) || (num =? Z.of_nat (len vals))) && ok_counts num f ws)
        with (negb ((0 <=? num) && negb (num =? Z.of_nat (len vals))) && ok_counts num f post)
        by (rewrite Hchk; f_equal; rewrite Es at 1; symmetry; now apply ok_counts_app).
      replace (marks f true ws) with (repeat true (len vals) ++ marks f false post)
        by (rewrite Es at 1; symmetry; now apply marks_app).
      replace (collected f true ws) with (vals ++ collected f false post)
        by (rewrite Es at 1; symmetry; now apply collected_app).
      destruct (String.eqb_spec q f) as [->|Hqf].
      * (* stopped at the same flag *)
        destruct post as [|w post'] eqn:Epost; [congruence|]. subst w.
        destruct (skipn (len vals) us) as [|b' us'] eqn:Esk; [discriminate|].
        replace (((um ++ [true]) ++ repeat true (len vals) ++ b' :: us'))
          with (((um ++ [true]) ++ repeat true (len vals)) ++ b' :: us') by (rewrite <- app_assoc; reflexivity).
        replace (len (um ++ [true]) + len vals)%nat with (len ((um ++ [true]) ++ repeat true (len vals)))
          by (rewrite !app_length, repeat_length; reflexivity).
        rewrite mark_at.
        destruct ((0 <=? num) && negb (num =? Z.of_nat (len vals))); [reflexivity|]. cbn [negb andb].
        set (um3 := (um ++ [true]) ++ repeat true (len vals)).
        set (pre3 := (pre ++ [f]) ++ vals).
        replace (S (Nat.pred (len (pre ++ [f]) + len vals))) with (len pre3)
          by (unfold pre3; rewrite !app_length; cbn; lia).
        replace (S (Nat.pred (len um3))) with (len um3)
          by (unfold um3; rewrite !app_length, repeat_length; cbn; lia).
        rewrite (IHm (f :: post') num _ pre3 um3 (true :: us') (uargs ++ vals) true fuel).
        -- destruct (ok_counts num f (f :: post')); [|reflexivity].
           unfold um3. rewrite <- !app_assoc. reflexivity.
        -- cbn [len] in *. lia.
        -- unfold pre3. rewrite <- !app_assoc. f_equal. f_equal. exact Es.
        -- unfold um3, pre3. rewrite !app_length, repeat_length. cbn. lia.
        -- cbn [len] in *. lia.
        -- right. split; [reflexivity|]. inversion Hsk; assumption.
        -- cbn [len] in *. lia.
      * destruct ((0 <=? num) && negb (num =? Z.of_nat (len vals))); [reflexivity|]. cbn [negb andb].
        destruct post as [|g post'] eqn:Epost.
        -- (* end of the command line *)
           destruct fuel as [|fuel]; [lia|]. cbn [scan].
           rewrite nth_end by (rewrite !app_length; cbn [len] in *; lia).
           cbn [ok_counts marks collected mem existsb]. destruct (skipn (len vals) us); [|discriminate].
           rewrite !app_nil_r. rewrite <- app_assoc. reflexivity.
        -- subst q. cbn [starts_with_flag] in Hp.
           destruct (skipn (len vals) us) as [|b' us'] eqn:Esk; [discriminate|].
           assert (b' = false) by (inversion Hsk; assumption). subst b'.
           set (um3 := (um ++ [true]) ++ repeat true (len vals) ++ [false]).
           set (pre3 := (pre ++ [f]) ++ vals ++ [g]).
           replace (S (len (pre ++ [f]) + len vals)) with (len pre3)
             by (unfold pre3; rewrite !app_length; cbn; lia).
           replace (S (len (um ++ [true]) + len vals)) with (len um3)
             by (unfold um3; rewrite !app_length, repeat_length; cbn; lia).
           replace ((um ++ [true]) ++ repeat true (len vals) ++ false :: us') with (um3 ++ us')
             by (unfold um3; rewrite <- !app_assoc; reflexivity).
           rewrite (IHm post' num _ pre3 um3 us' (uargs ++ vals) true fuel).
           ++ cbn [ok_counts marks collected]. rewrite Hp.
              destruct (String.eqb_spec g f) as [|_]; [congruence|]. cbn [andb].
              destruct (ok_counts num f post'); [|reflexivity].
              unfold um3. rewrite <- !app_assoc. reflexivity.
           ++ cbn [len] in *. lia.
           ++ unfold pre3. rewrite <- !app_assoc. f_equal. f_equal. exact Es.
           ++ unfold um3, pre3. rewrite !app_length, repeat_length. cbn. lia.
           ++ cbn [len] in *. lia.
           ++ left. inversion Hsk; assumption.
           ++ cbn [len] in *. lia.
    + assert (Hus : Forall (fun b => b = false) (b :: us)).
      { destruct Hu as [Hu|[Hh _]]; [exact Hu|]. cbn in Hh. congruence. }
      inversion Hus as [|? ? Hb Hus']; subst b.
      assert (Ew : String.eqb w f = false) by now apply String.eqb_neq.
      replace (S (len pre)) with (len (pre ++ [w])) by (rewrite app_length; cbn; lia).
      replace (S (len um)) with (len (um ++ [false])) by (rewrite app_length; cbn; lia).
      replace (um ++ false :: us) with ((um ++ [false]) ++ us) by (rewrite <- app_assoc; reflexivity).
      rewrite (IHm ws num _ (pre ++ [w]) (um ++ [false]) us uargs pr fuel).
      * cbn [ok_counts marks collected]. unfold mem. cbn [existsb]. rewrite Ew. cbn [andb orb].
        replace (if flag_like w then false else false) with false by (destruct (flag_like w); reflexivity).
        replace (if flag_like w then collected f false ws else collected f false ws) with (collected f false ws)
          by (destruct (flag_like w); reflexivity).
        rewrite <- app_assoc. reflexivity.
      * lia.
      * rewrite <- app_assoc. reflexivity.
      * rewrite !app_length. cbn. lia.
      * lia.
      * now left.
      * lia.
Qed.

(** The one-pass functions in terms of the specification. *)
Definition act_of (cur : option string) : bool := match cur with Some g => String.eqb g f | None => false end.

Lemma collected_owned : forall ws cur,
  collected f (act_of cur) ws = map snd (filter (fun q => belongs f q && negb (flag_like (snd q))) (owned cur ws)).
Proof.
  induction ws as [|w ws IH]; intros cur; [reflexivity|]. cbn [collected owned filter snd].
  destruct (flag_like w) eqn:E.
  - cbn [negb]. rewrite andb_false_r. exact (IH (Some w)).
  - cbn [negb]. rewrite andb_true_r. change (belongs f (cur, w)) with (act_of cur).
    specialize (IH cur). destruct (act_of cur); cbn [map snd]; rewrite IH; reflexivity.
Qed.

Lemma compact_owned : forall ws cur,
  compact ws (marks f (act_of cur) ws) = map snd (filter (fun q => negb (belongs f q)) (owned cur ws)).
Proof.
  induction ws as [|w ws IH]; intros cur; [reflexivity|]. unfold compact in *. cbn [marks combine owned filter snd].
  set (cur' := if flag_like w then Some w else cur).
  replace (if flag_like w then String.eqb w f else act_of cur) with (act_of cur') by (unfold cur'; destruct (flag_like w); reflexivity).
  change (belongs f (cur', w)) with (act_of cur').
  specialize (IH cur'). destruct (act_of cur'); cbn [negb map fst snd]; rewrite IH; reflexivity.
Qed.

Lemma read_arg_vector_run : forall argv num,
  read_arg_vector argv f num =
    if ok_counts num f argv then Ok (arguments f argv, mem f argv, foreign [f] argv) else Quit.
Proof.
  intros argv num. unfold read_arg_vector.
  change 0%nat with (len (@nil string)) at 1. change 0%nat with (len (@nil bool)).
  change (map (fun _ : string => false) argv) with ([] ++ map (fun _ : string => false) argv).
  rewrite (scan_run (len argv) argv num argv [] [] (map (fun _ => false) argv) [] false).
  - destruct (ok_counts num f argv); [|reflexivity]. cbn [app orb]. f_equal. f_equal; [f_equal|].
    + apply (collected_owned argv None).
    + change false with (act_of None) at 1. rewrite compact_owned. unfold foreign. f_equal.
      apply filter_ext. intros q. cbn [existsb]. now rewrite orb_false_r.
  - lia.
  - reflexivity.
  - reflexivity.
  - apply map_length.
  - left. apply Forall_forall. intros b Hb. apply in_map_iff in Hb. destruct Hb as [? [<- _]]. reflexivity.
  - lia.
Qed.
End Scan.

Lemma ok_counts_spec : forall num f, flag_like f = true -> forall ws,
  ok_counts num f ws = true <->
  (forall vals post, occurrence f ws vals post -> right_number num vals \/ (vals = [] /\ post = [])).
Proof.
  intros num f Hf ws. induction ws as [|w ws IH].
  - split; [|reflexivity]. intros _ vals post [pre [E _]]. destruct pre; discriminate.
  - cbn [ok_counts]. rewrite andb_true_iff, IH. split.
    + intros [H1 H2] vals post [pre [E [Hv Hp]]]. destruct pre as [|x pre].
      * cbn [app] in E. injection E as -> ->. rewrite String.eqb_refl in H1.
        destruct (vals ++ post) as [|y l] eqn:E.
        { right. now apply app_eq_nil in E. }
        rewrite <- E in H1. rewrite span_app in H1 by assumption. cbn [fst] in H1. left. unfold right_number. lia.
      * cbn [app] in E. injection E as _ E. apply (H2 vals post). exists pre. auto.
    + intros H. split.
      * destruct (String.eqb_spec w f) as [->|]; [|reflexivity]. destruct ws as [|y l]; [reflexivity|].
        destruct (span_spec (y :: l)) as [Es [Hv Hp]].
        destruct (H (fst (span (y :: l))) (snd (span (y :: l)))) as [Hr|[H1 H2]].
        { exists []. split; [cbn [app]; f_equal; exact Es|]. auto. }
        { unfold right_number in Hr. destruct Hr; lia. }
        { rewrite H1, H2 in Es. discriminate. }
      * intros vals post [pre [E Hr]]. apply H. exists (w :: pre). split; [cbn [app]; now rewrite E|exact Hr].
Qed.
