(** Proofs about the preprocessor's command line. *)
From Coq Require Import String.
From Verif Require Import Common RandomModel RandomProofs1 SrcbufModel WordsModel WordsProofs1 CmdargsModel CmdargsSpec.
From Coq Require Import Permutation.
Open Scope nat_scope.
Open Scope list_scope.

Lemma equals_iff : forall a b, equals a b = true <-> a = b.
Proof. exact same_text_iff. Qed.

Lemma begins_iff : forall a b, begins a b = true <-> starts_with a b.
Proof.
  intros a b. unfold begins, starts_with. rewrite same_text_iff. split.
  - intros H. exists (skipn (List.length b) a). rewrite <- H at 1. symmetry. apply firstn_skipn.
  - intros [t ->]. rewrite firstn_app, firstn_all, Nat.sub_diag. apply app_nil_r.
Qed.

Lemma put_middle : forall (p : list text) x y q, put (List.length p) y (p ++ x :: q) = p ++ y :: q.
Proof. induction p as [|z p IH]; intros x y q; [reflexivity|]. cbn [List.length app put]. f_equal. apply IH. Qed.

Lemma shift_down_spec : forall rest p x, 0 < List.length x ->
  exists y, List.length y = List.length x /\
    shift_down (List.length rest) (List.length p + List.length x) (List.length x) (p ++ x ++ rest) = p ++ rest ++ y.
Proof.
  induction rest as [|r rest IH]; intros p x Hx.
  - exists x. rewrite app_nil_r. split; reflexivity.
  - destruct x as [|x0 x]; [cbn [List.length] in Hx; lia|].
    change (shift_down (List.length (r :: rest)) (List.length p + List.length (x0 :: x)) (List.length (x0 :: x)) (p ++ (x0 :: x) ++ r :: rest))
      with (shift_down (List.length rest) (List.length p + List.length (x0 :: x) + 1) (List.length (x0 :: x))
              (put (List.length p + List.length (x0 :: x) - List.length (x0 :: x))
                   (nth (List.length p + List.length (x0 :: x)) (p ++ (x0 :: x) ++ r :: rest) []) (p ++ (x0 :: x) ++ r :: rest))).
    replace (List.length p + List.length (x0 :: x) - List.length (x0 :: x)) with (List.length p) by lia.
    replace (nth (List.length p + List.length (x0 :: x)) (p ++ (x0 :: x) ++ r :: rest) []) with r.
    2:{ rewrite app_nth2 by lia. replace (List.length p + List.length (x0 :: x) - List.length p) with (List.length (x0 :: x)) by lia.
        rewrite app_nth2, Nat.sub_diag by lia. reflexivity. }
    cbn [app]. rewrite put_middle.
    destruct (IH (p ++ [r]) (x ++ [r])) as [y [Hy H]]; [rewrite app_length; cbn [List.length]; lia|].
    exists y. split; [rewrite Hy, app_length; cbn [List.length]; lia|].
    rewrite !app_length in H. cbn [List.length] in H. cbn [List.length].
    replace (List.length p + S (List.length x) + 1) with (List.length p + 1 + (List.length x + 1)) by lia.
    replace (S (List.length x)) with (List.length x + 1) by lia.
    rewrite <- !app_assoc in H. cbn [app] in H. exact H.
Qed.

Lemma move_spec : forall n done rest T, List.length rest < n ->
  exists kept moved, split_options rest kept moved /\
    move n (done ++ rest ++ T) (List.length done) (List.length done + List.length rest) = Some (done ++ kept ++ T ++ moved).
Proof.
  induction n as [|n IH]; intros done rest T Hn; [lia|].
  destruct rest as [|a rest].
  - exists [], []. split; [constructor|]. cbn [move List.length]. rewrite Nat.add_0_r, Nat.ltb_irrefl.
    cbn [app]. rewrite app_nil_r. reflexivity.
  - cbn [move]. replace (List.length done <? List.length done + List.length (a :: rest)) with true
      by (symmetry; apply Nat.ltb_lt; cbn [List.length]; lia).
    cbv zeta. replace (nth (List.length done) (done ++ (a :: rest) ++ T) []) with a.
    2:{ rewrite app_nth2, Nat.sub_diag by lia. reflexivity. }
    assert (Hin : include_or_define a \/ ~ include_or_define a).
    { unfold include_or_define. rewrite <- !begins_iff. destruct (begins a (str "-D")), (begins a (str "-I")); auto. right. intros [H|H]; discriminate H. }
    assert (Hio : begins a (str "-D") || begins a (str "-I") = true <-> include_or_define a).
    { unfold include_or_define. rewrite orb_true_iff, !begins_iff. reflexivity. }
    assert (How : equals a (str "-D") || equals a (str "-I") = true <-> option_word a).
    { unfold option_word. rewrite orb_true_iff, !equals_iff. reflexivity. }
    assert (Hone : (~ option_word a \/ rest = []) ->
      exists kept moved, split_options (a :: rest) kept moved /\
        (if begins a (str "-D") || begins a (str "-I") then
          move n (put (List.length (done ++ (a :: rest) ++ T) - 1) a
             (shift_down (List.length (done ++ (a :: rest) ++ T) - (List.length done + 1)) (List.length done + 1) 1 (done ++ (a :: rest) ++ T)))
             (List.length done) (List.length done + List.length (a :: rest) - 1)
         else move n (done ++ (a :: rest) ++ T) (List.length done + 1) (List.length done + List.length (a :: rest))) =
        Some (done ++ kept ++ T ++ moved)).
    { intros Hc. destruct (begins a (str "-D") || begins a (str "-I")) eqn:E.
      - assert (Hi : include_or_define a) by (apply Hio; reflexivity).
        destruct (shift_down_spec (rest ++ T) done [a]) as [y [Hy Hs]]; [cbn [List.length]; lia|].
        destruct y as [|y0 [|y1 y]]; cbn [List.length] in Hy; try lia.
        destruct (IH done rest (T ++ [a])) as [kept [moved [H1 H2]]]; [cbn [List.length] in Hn; lia|].
        exists kept, (a :: moved). split; [apply split_one; assumption|].
        replace (List.length (done ++ (a :: rest) ++ T) - (List.length done + 1)) with (List.length (rest ++ T))
          by (rewrite !app_length; cbn [List.length]; lia).
        change (done ++ (a :: rest) ++ T) with (done ++ [a] ++ (rest ++ T)).
        change (List.length [a]) with 1 in Hs. rewrite Hs.
        replace (List.length (done ++ [a] ++ rest ++ T) - 1) with (List.length (done ++ rest ++ T))
          by (rewrite !app_length; cbn [List.length]; lia).
        replace (done ++ (rest ++ T) ++ [y0]) with ((done ++ rest ++ T) ++ y0 :: []) by (rewrite <- !app_assoc; reflexivity).
        rewrite put_middle.
        replace ((done ++ rest ++ T) ++ [a]) with (done ++ rest ++ T ++ [a]) by (rewrite <- !app_assoc; reflexivity).
        replace (List.length done + List.length (a :: rest) - 1) with (List.length done + List.length rest) by (cbn [List.length]; lia).
        rewrite H2. f_equal. rewrite <- !app_assoc. reflexivity.
      - assert (Hi : ~ include_or_define a) by (intros H; apply Hio in H; congruence).
        destruct (IH (done ++ [a]) rest T) as [kept [moved [H1 H2]]]; [cbn [List.length] in Hn; lia|].
        exists (a :: kept), moved. split; [apply split_other; assumption|].
        rewrite app_length in H2. cbn [List.length] in H2. rewrite <- !app_assoc in H2. cbn [app] in H2. cbn [app List.length].
        replace (List.length done + S (List.length rest)) with (List.length done + 1 + List.length rest) by lia. exact H2. }
    destruct (equals a (str "-D") || equals a (str "-I")) eqn:Ew.
    + assert (Hw : option_word a) by (apply How; reflexivity). rewrite andb_true_r.
      destruct rest as [|v rest].
      * replace (List.length done + 1 <? List.length done + List.length [a]) with false
          by (symmetry; apply Nat.ltb_ge; cbn [List.length]; lia).
        apply Hone. right. reflexivity.
      * replace (List.length done + 1 <? List.length done + List.length (a :: v :: rest)) with true
          by (symmetry; apply Nat.ltb_lt; cbn [List.length]; lia).
        replace (nth (List.length done + 1) (done ++ (a :: v :: rest) ++ T) []) with v.
        2:{ rewrite app_nth2 by lia. replace (List.length done + 1 - List.length done) with 1 by lia. reflexivity. }
        destruct (shift_down_spec (rest ++ T) done [a; v]) as [y [Hy Hs]]; [cbn [List.length]; lia|].
        destruct y as [|y0 [|y1 [|y2 y]]]; cbn [List.length] in Hy; try lia.
        destruct (IH done rest (T ++ [a; v])) as [kept [moved [H1 H2]]]; [cbn [List.length] in Hn; lia|].
        exists kept, (a :: v :: moved). split; [apply split_two; assumption|].
        replace (List.length (done ++ (a :: v :: rest) ++ T) - (List.length done + 2)) with (List.length (rest ++ T))
          by (rewrite !app_length; cbn [List.length]; lia).
        change (done ++ (a :: v :: rest) ++ T) with (done ++ [a; v] ++ (rest ++ T)).
        change (List.length [a; v]) with 2 in Hs. rewrite Hs.
        replace (List.length (done ++ [a; v] ++ rest ++ T) - 2) with (List.length (done ++ rest ++ T))
          by (rewrite !app_length; cbn [List.length]; lia).
        replace (done ++ (rest ++ T) ++ [y0; y1]) with ((done ++ rest ++ T) ++ y0 :: [y1]) by (rewrite <- !app_assoc; reflexivity).
        rewrite put_middle.
        replace (List.length (done ++ [a; v] ++ rest ++ T) - 1) with (List.length ((done ++ rest ++ T) ++ [a]))
          by (rewrite !app_length; cbn [List.length]; lia).
        replace ((done ++ rest ++ T) ++ [a; y1]) with (((done ++ rest ++ T) ++ [a]) ++ y1 :: []) by (rewrite <- !app_assoc; reflexivity).
        rewrite put_middle.
        replace (((done ++ rest ++ T) ++ [a]) ++ [v]) with (done ++ rest ++ T ++ [a; v]) by (rewrite <- !app_assoc; reflexivity).
        replace (List.length done + List.length (a :: v :: rest) - 2) with (List.length done + List.length rest) by (cbn [List.length]; lia).
        rewrite H2. f_equal. rewrite <- !app_assoc. reflexivity.
    + rewrite andb_false_r. apply Hone. left. intros H. apply How in H. congruence.
Qed.

(** *** The first loop *)

Lemma known_std_iff : forall a,
  equals a (str "-std=c++17") || equals a (str "-std=c++20") || equals a (str "-std=c++23") || equals a (str "-std=c++26") = true <-> known_std a.
Proof. intros a. unfold known_std. rewrite !orb_true_iff, !equals_iff. cbn [In]. intuition congruence. Qed.

Lemma last_default : forall (l : list text) d d', l <> [] -> last l d = last l d'.
Proof.
  induction l as [|x l IH]; intros d d' H; [congruence|]. destruct l as [|y l]; [reflexivity|].
  change (last (y :: l) d = last (y :: l) d'). apply IH. discriminate.
Qed.

Lemma last_cons : forall (l : list text) a d, last (a :: l) d = last l a.
Proof. intros [|y l] a d; [reflexivity|]. change (last (y :: l) d = last (y :: l) a). apply last_default. discriminate. Qed.

Definition all_known (args : list text) : Prop := forall a, In a args -> is_std a = true -> known_std a.

Lemma ddash_not_std : is_std (str "--") = false. Proof. reflexivity. Qed.

Lemma scan_spec : forall args i loc c s,
  match scan args i loc c s with
  | None => ~ all_known args
  | Some (loc', c', s') =>
      all_known args /\ c' = last (filter is_std args) c /\
      (s' = (match filter is_std args with [] => s | _ => skipn 6 c' end)) /\
      (~ In (str "--") args /\ loc' = loc \/
       exists before after, args = before ++ str "--" :: after /\ ~ In (str "--") after /\ loc' = Some (i + List.length before))
  end.
Proof.
  induction args as [|a args IH]; intros i loc c s; cbn [scan].
  - split; [intros a []|]. split; [reflexivity|]. split; [reflexivity|]. left. split; [intros []|reflexivity].
  - destruct (equals a (str "--")) eqn:E.
    + apply equals_iff in E. subst a. specialize (IH (i + 1) (Some i) c s).
      destruct (scan args (i + 1) (Some i) c s) as [[[loc' c'] s']|].
      * destruct IH as [H1 [H2 [H3 H4]]]. split; [intros a [<-|Hin] Hs; [discriminate Hs|apply H1; assumption]|].
        cbn [filter]. rewrite ddash_not_std. split; [exact H2|]. split; [exact H3|]. right.
        destruct H4 as [[H4 H5]|[before [after [H4 [H5 H6]]]]].
        -- exists [], args. split; [reflexivity|]. split; [exact H4|]. rewrite H5. cbn [List.length]. f_equal. lia.
        -- exists (str "--" :: before), after. split; [rewrite H4; reflexivity|]. split; [exact H5|]. rewrite H6. cbn [List.length]. f_equal. lia.
      * intros H. apply IH. intros a Ha. apply H. right. exact Ha.
    + assert (Hne : a <> str "--") by (intros H; apply equals_iff in H; congruence).
      assert (Hloc : forall loc', (~ In (str "--") args /\ loc' = loc \/ (exists before after, args = before ++ str "--" :: after /\ ~ In (str "--") after /\ loc' = Some (i + 1 + List.length before))) ->
         (~ In (str "--") (a :: args) /\ loc' = loc \/ (exists before after, a :: args = before ++ str "--" :: after /\ ~ In (str "--") after /\ loc' = Some (i + List.length before)))).
      { intros loc' [[H4 H5]|[before [after [H4 [H5 H6]]]]].
        - left. split; [|exact H5]. intros [Hc|Hc]; [congruence|exact (H4 Hc)].
        - right. exists (a :: before), after. split; [rewrite H4; reflexivity|]. split; [exact H5|]. rewrite H6. cbn [List.length]. f_equal. lia. }
      change (begins a (str "-std")) with (is_std a). cbn [filter]. destruct (is_std a) eqn:Es.
      * destruct (equals a (str "-std=c++17") || equals a (str "-std=c++20") || equals a (str "-std=c++23") || equals a (str "-std=c++26")) eqn:Ek.
        -- apply known_std_iff in Ek. specialize (IH (i + 1) loc a (skipn 6 a)).
           destruct (scan args (i + 1) loc a (skipn 6 a)) as [[[loc' c'] s']|].
           ++ destruct IH as [H1 [H2 [H3 H4]]]. split; [intros b [<-|Hin] Hs; [exact Ek|apply H1; assumption]|].
              split; [rewrite last_cons; exact H2|]. split; [|apply Hloc; exact H4].
              rewrite H3. destruct (filter is_std args) eqn:Ef; [|reflexivity]. rewrite H2. reflexivity.
           ++ intros H. apply IH. intros b Hb. apply H. right. exact Hb.
        -- intros H. assert (Hk : known_std a) by (apply H; [left; reflexivity|exact Es]). apply known_std_iff in Hk. congruence.
      * specialize (IH (i + 1) loc c s). destruct (scan args (i + 1) loc c s) as [[[loc' c'] s']|].
        -- destruct IH as [H1 [H2 [H3 H4]]]. split; [intros b [<-|Hin] Hs; [congruence|apply H1; assumption]|].
           split; [exact H2|]. split; [exact H3|]. apply Hloc. exact H4.
        -- intros H. apply IH. intros b Hb. apply H. right. exact Hb.
Qed.

Lemma handle_spec : forall args,
  match handle_cmdline_args args with
  | None => ~ all_known args
  | Some (av, s) =>
      all_known args /\
      (exists before after kept moved, cut_at_ddash args before after /\ split_options before kept moved /\
         av = map Some (kept ++ str "--" :: after ++ moved ++ [chosen_std args; str "-DHILAPP"]) ++ [None]) /\
      s = (match filter is_std args with [] => str "c++17" | _ => skipn 6 (chosen_std args) end)
  end.
Proof.
  intros args. unfold handle_cmdline_args. pose proof (scan_spec args 0 None (str "-std=c++17") (str "c++17")) as H.
  destruct (scan args 0 None (str "-std=c++17") (str "c++17")) as [[[loc c] s]|]; [|exact H].
  cbn [bind]. destruct H as [H1 [H2 [H3 H4]]]. fold (chosen_std args) in H2. subst c.
  destruct H4 as [[H4 H5]|[before [after [H4 [H5 H6]]]]].
  - subst loc. destruct (move_spec (List.length (args ++ [str "--"]) + 1) [] args [str "--"]) as [kept [moved [G1 G2]]].
    { rewrite app_length. cbn [List.length]. lia. }
    cbn [List.length app Nat.add] in G2. rewrite G2. cbn [bind]. split; [exact H1|]. split; [|exact H3].
    exists args, [], kept, moved. split; [split; [intros []|right; split; [exact H4|split; reflexivity]]|].
    split; [exact G1|]. f_equal. f_equal. rewrite <- app_assoc. reflexivity.
  - rewrite H6. destruct (move_spec (List.length args + 1) [] before (str "--" :: after)) as [kept [moved [G1 G2]]].
    { rewrite H4, app_length. cbn [List.length]. lia. }
    cbn [List.length app Nat.add] in G2. cbn [Nat.add]. rewrite <- H4 in G2. rewrite G2. cbn [bind]. split; [exact H1|]. split; [|exact H3].
    exists before, after, kept, moved. split; [split; [exact H5|left; exact H4]|].
    split; [exact G1|]. f_equal. f_equal. rewrite <- app_assoc. cbn [app]. rewrite <- app_assoc. reflexivity.
Qed.

Lemma split_facts : forall l kept moved, split_options l kept moved ->
  Permutation l (kept ++ moved) /\ (forall a, In a kept -> ~ include_or_define a).
Proof.
  intros l kept moved H. induction H as [|a v l kept moved Ha H [IH1 IH2]|a l kept moved Ha Hc H [IH1 IH2]|a l kept moved Ha H [IH1 IH2]].
  - split; [constructor|intros a []].
  - split; [|exact IH2]. change (a :: v :: moved) with ([a; v] ++ moved). rewrite app_assoc.
    apply (Permutation_trans (l' := [a; v] ++ kept ++ moved)); [cbn [app]; do 2 constructor; exact IH1|].
    rewrite app_assoc. apply Permutation_app_tail. apply Permutation_app_comm.
  - split; [|exact IH2]. apply Permutation_cons_app. exact IH1.
  - split; [cbn [app]; constructor; exact IH1|]. intros b [<-|Hb]; [exact Ha|apply IH2; exact Hb].
Qed.

Lemma split_function : forall l k1 m1 k2 m2, split_options l k1 m1 -> split_options l k2 m2 -> k1 = k2 /\ m1 = m2.
Proof.
  assert (Hw : forall a, option_word a -> include_or_define a).
  { intros a [->| ->]; [left|right]; exists []; reflexivity. }
  intros l k1 m1 k2 m2 H. revert k2 m2.
  induction H as [|a v l kept moved Ha H IH|a l kept moved Ha Hc H IH|a l kept moved Ha H IH]; intros k2 m2 G.
  - inversion G; subst; split; reflexivity.
  - inversion G as [|? ? ? ? ? Ga G'|? ? ? ? Ga Gc G'|? ? ? ? Ga G']; subst.
    + destruct (IH _ _ G') as [-> ->]. split; reflexivity.
    + destruct Gc as [Gc|Gc]; [contradiction|discriminate Gc].
    + exfalso. apply Ga. apply Hw. exact Ha.
  - inversion G as [|? ? ? ? ? Ga G'|? ? ? ? Ga Gc G'|? ? ? ? Ga G']; subst.
    + destruct Hc as [Hc|Hc]; [contradiction|discriminate Hc].
    + destruct (IH _ _ G') as [-> ->]. split; reflexivity.
    + contradiction.
  - inversion G as [|? ? ? ? ? Ga G'|? ? ? ? Ga Gc G'|? ? ? ? Ga G']; subst.
    + exfalso. apply Ha. apply Hw. exact Ga.
    + contradiction.
    + destruct (IH _ _ G') as [-> ->]. split; reflexivity.
Qed.
