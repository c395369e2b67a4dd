(** Programs reading a file. *)
From Coq Require Import String.
From Verif Require Import Common SrcbufModel WordsModel WordsProofs1 CmdargsModel DecimalModel InputModel InputSpec
  InputProofs1 InputProofs2 InputProofs3 InputProofs4 InputProofs5.
Open Scope list_scope.
Open Scope nat_scope.

Section Programs.
Context {T : Type}.
Variable value : text -> option T.
Variable number : text -> bool.

Lemma perform_rel : forall c x y, eqv x y -> rel eqv (perform value number c x) (perform value number c y).
Proof.
  intros [key|key|n key|key|key items] x y H; unfold perform;
    [eapply rel_bind; [apply get_value_rel, H|]|eapply rel_bind; [apply get_list_rel, H|]|eapply rel_bind; [apply get_vector_rel, H|]
    |eapply rel_bind; [apply get_complex_rel, H|]|eapply rel_bind; [apply get_item_rel, H|]];
    intros a x1 y1 H1; simpl; auto.
Qed.
Lemma perform_all_rel : forall cs x y, eqv x y -> rel eqv (perform_all value number cs x) (perform_all value number cs y).
Proof.
  induction cs as [|c cs IH]; intros x y H; [simpl; auto|]. cbn [perform_all].
  eapply rel_bind; [apply perform_rel, H|]. intros a x1 y1 H1.
  eapply rel_bind; [apply IH, H1|]. intros l x2 y2 H2. simpl. auto.
Qed.
Lemma new_eqv : forall f g first cmd, significant f = significant g ->
  match cmd with Some l => Nat.even (length l) = true | None => True end ->
  eqv (new_input f first cmd) (new_input g first cmd).
Proof.
  intros f g first cmd S E. unfold eqv, view, new_input, open, wf, paired, eff, rest. simpl. rewrite S.
  repeat split; auto. destruct cmd; auto.
Qed.
End Programs.

(** The arguments which are not used yet. *)
Definition live (qs : list (text * text)) : list (text * text) := filter (fun p => negb (same_text (fst p) used_flag)) qs.
Lemma same_text_dec : forall a b, same_text a b = if list_eq_dec Z.eq_dec a b then true else false.
Proof.
  intros a b. destruct (list_eq_dec Z.eq_dec a b) as [->|N]; [now apply same_text_iff|].
  destruct (same_text a b) eqn:E; auto. apply same_text_iff in E. congruence.
Qed.
Lemma override_take : forall key qs, key <> used_flag ->
  match take (live qs) key with
  | None => override (flat qs) key = Ok (None, flat qs)
  | Some (v, ps1) => exists qs', override (flat qs) key = Ok (Some v, flat qs') /\ live qs' = ps1
  end.
Proof.
  intros key qs N. induction qs as [|[k v] qs IH]; [reflexivity|].
  cbn [flat flat_map fst snd app override]. fold (flat qs). unfold live in *. cbn [filter fst].
  rewrite (same_text_dec k key). destruct (list_eq_dec Z.eq_dec k key) as [->|Nk].
  - rewrite (same_text_dec key used_flag). destruct (list_eq_dec Z.eq_dec key used_flag); [congruence|]. cbn [negb take].
    destruct (list_eq_dec Z.eq_dec key key); [|congruence].
    exists ((used_flag, v) :: qs). split; [reflexivity|]. reflexivity.
  - destruct (same_text k used_flag) eqn:Eu; cbn [negb take].
    + destruct (take (filter _ qs) key) as [[w t]|].
      * destruct IH as (qs' & -> & L). cbn [bind]. exists ((k, v) :: qs'). split; [reflexivity|]. cbn [filter fst]. rewrite Eu. exact L.
      * rewrite IH. reflexivity.
    + destruct (list_eq_dec Z.eq_dec k key); [congruence|].
      destruct (take (filter _ qs) key) as [[w t]|].
      * destruct IH as (qs' & -> & L). cbn [bind]. exists ((k, v) :: qs'). split; [reflexivity|]. cbn [filter fst]. rewrite Eu. cbn [negb]. now rewrite L.
      * rewrite IH. reflexivity.
Qed.
Lemma all_used_live : forall qs, all_used (flat qs) = true <-> live qs = [].
Proof.
  induction qs as [|[k v] qs IH]; [split; reflexivity|]. cbn [flat flat_map fst snd app all_used]. fold (flat qs).
  unfold live in *. cbn [filter fst]. destruct (same_text k used_flag); cbn [negb andb].
  - exact IH.
  - split; discriminate.
Qed.

Lemma handle_key_arg : forall x key ws l r t v a, wf x -> view x = l :: r -> plain l -> plain key -> spelled ws key -> ws <> [] ->
  has_key ws l t -> i_first x = true -> override (eff x) key = Ok (Some v, a) ->
  exists y, handle_key x key = Ok (true, y) /\ wf y /\ view y = norm v r /\ i_args y = a /\ i_first y = true.
Proof.
  intros x key ws l r t v a W V Pl Pk Sk N K F O. unfold handle_key. pose proof (remove_whitespaceP x W) as P. rewrite V in P.
  destruct P as (x1 & -> & A & R & W1 & S & Tl & Nl). cbn [bind]. rewrite (spelled_nonempty ws key Sk N).
  rewrite has_wordsE by auto. rewrite R.
  destruct (key_skip_has ws l key t Sk N Pl Pk Tl K) as (k & -> & Ek & Lk). cbn [bind].
  set (x2 := set_start x1 (i_start x1 + k)).
  assert (E2 : same_args x2 x) by exact A.
  assert (Ef : eff x2 = eff x) by apply (same_args_eff _ _ E2).
  unfold scan_cmdline. assert (F2 : i_first x2 = true) by (destruct E2 as (_ & -> & _); exact F). rewrite F2.
  cbv zeta. fold (eff x2). rewrite Ef, O. cbn [bind]. eexists. split; [reflexivity|]. split; [|split; [|split]]; auto.
  - unfold wf. cbn [set_line i_line i_start]. rewrite app_length. lia.
  - unfold view, rest. cbn [set_line i_line i_start i_file]. rewrite skipn_length_app.
    transitivity (norm (32%Z :: v) (significant (i_file x1))); [reflexivity|]. rewrite S. unfold norm. reflexivity.
Qed.

Lemma line_token : forall ws l t, Forall word ws -> Forall no_comma_quote ws -> ws <> [] -> has_key ws l t ->
  exists u, token l = Some u /\ u <> [44%Z].
Proof.
  intros ws l t F C N [B K]. destruct ws as [|w ws]; [congruence|]. inversion F; inversion C; subst.
  apply begins_cons in B as (p & -> & B). exists w.
  assert (S : stop p).
  { destruct ws as [|w2 ws].
    - subst p. destruct K as [K|[u E]].
      + destruct t; auto.
      + simpl in E. subst w. exfalso. apply Forall_app in H5 as [_ H5]. inversion H5; subst. lia.
    - destruct B as (g & l2 & Ng & Bg & -> & _). destruct g; [congruence|]. simpl. inversion Bg; auto. }
  split; [apply (token_item w w p); auto; constructor; auto|].
  intros ->. inversion H5; subst. lia.
Qed.
Lemma entry_key : forall ws ts ls, entry ws ts ls -> exists l r t, ls = l :: r /\ has_key ws l t.
Proof.
  intros ws ts ls (k & g & l & r & -> & B & Ng & Bg & _). do 3 eexists. split; [reflexivity|]. split.
  - instantiate (1 := g ++ l). clear - B. remember [] as n eqn:En. induction B; subst.
    + rewrite app_nil_r. constructor.
    + rewrite <- !app_assoc. constructor; auto.
  - left. destruct g; [congruence|]. simpl. inversion Bg; auto.
Qed.

Section Files.
Context {T : Type}.
Variable value : text -> option T.
Variable number : text -> bool.

Lemma served_next : forall ps cs ls ans ps', served value ps cs ls ans ps' -> next_line ls.
Proof.
  induction 1; [exact I| | |assumption].
  - destruct H as (Sk & N & C & _). destruct (entry_key _ _ _ H2) as (l0 & r0 & t & -> & K).
    simpl. exact (line_token ws _ t (spelled_words _ _ Sk) C N K).
  - destruct H as (Sk & N & C & _). simpl. exact (line_token ws _ t (spelled_words _ _ Sk) C N H2).
Qed.
Lemma perform_absent : forall c x y, handle_key x (key_of c) = Ok (false, y) -> perform value number c x = Ok (Failed, y).
Proof.
  intros [k|k|n k|k|k items] x y H; cbn [key_of] in H; cbn [perform]; unfold get_list, get_vector, get_complex, get_item, get_value;
    rewrite H; reflexivity.
Qed.

Lemma perform_values : forall c key x y t ts e ls r l, asks c key (S (length ts)) -> handle_key x key = Ok (true, y) -> wf y ->
  view y = (t ++ e) :: ls ++ r -> tail ts e ls -> Forall2 (means value) (t :: ts) l -> quiet y [] -> quiet y (str ",") ->
  Forall plain (e :: ls) -> next_line r ->
  exists z, perform value number c x = Ok (Values l, z) /\ at_text z y r.
Proof.
  intros c key x y t ts e ls r l A H W V Tl F Q1 Q2 P Nx. inversion F; subst.
  destruct (get_item_token value y t y0 e _ W V H2 (tail_stop _ _ _ Tl)) as (x1 & E1 & A1 & Et).
  pose proof (get_valueE value _ _ _ _ _ _ H E1 Et) as G. assert (A1' := A1). destruct A1' as (W1 & S1 & V1).
  destruct c as [k|k|n k|k|k items]; simpl in A; try contradiction; cbn [perform].
  - destruct A as [-> A]. destruct ts; [|discriminate]. inversion H4; subst. inversion Tl; subst.
    rewrite G. cbn [bind]. exists x1. split; auto. rewrite norm_blanks in A1 by auto. exact A1.
  - subst k. unfold get_list. rewrite G. cbn [bind].
    destruct (get_moreP value ts (S (left_over x1)) x1 e ls r l' Tl H4 W1 V1 (same_eff_quiet _ _ _ S1 Q1) Nx) as (x2 & -> & A2).
    { pose proof (meas_left_over x1) as M. unfold meas in M. rewrite V1, cv_norm in M.
      assert (length ts <= cnt e + cv (ls ++ r)).
      { clear - Tl. induction Tl; simpl; try lia.
        - rewrite cnt_app. simpl. rewrite !cnt_app. lia.
        - rewrite cnt_app. simpl. rewrite !cnt_app. lia. }
      lia. }
    cbn [bind]. exists x2. split; auto. eapply at_trans; eauto.
  - destruct A as [-> A]. subst n. unfold get_vector. rewrite G. cbn [bind]. simpl Nat.sub. rewrite Nat.sub_0_r.
    destruct (get_restP value ts x1 e ls r l' Tl H4 W1 V1 (same_eff_quiet _ _ _ S1 Q2) P) as (x2 & -> & A2).
    cbn [bind]. exists x2. split; auto. eapply at_trans; eauto.
Qed.

(** The state while the calls are performed. *)
Definition tracks (x : input) (ps : list (text * text)) : Prop :=
  i_first x = true /\ exists qs, eff x = flat qs /\ live qs = ps.
Definition holds (first : bool) (x : input) (ps : list (text * text)) : Prop := if first then tracks x ps else i_first x = false /\ ps = [].
Lemma take_none : forall ps key, Forall (fun p => fst p <> key) ps -> take ps key = None.
Proof.
  induction ps as [|[k v] ps IH]; intros key F; auto. inversion F; subst. simpl in *.
  destruct (list_eq_dec Z.eq_dec k key); [congruence|]. now rewrite IH.
Qed.
Lemma tracks_quiet : forall x ps key, tracks x ps -> key <> used_flag -> take ps key = None -> quiet x key.
Proof.
  intros x ps key (F & qs & E & L) N H. right. pose proof (override_take key qs N) as O. rewrite L, H in O. rewrite E. exact O.
Qed.
Lemma take_keys : forall (P : text -> Prop) ps key v ps', take ps key = Some (v, ps') -> Forall (fun p => P (fst p)) ps -> Forall (fun p => P (fst p)) ps'.
Proof.
  intros P. induction ps as [|[k w] ps IH]; intros key v ps' H F; [discriminate|]. inversion F; subst. simpl in H.
  destruct (list_eq_dec Z.eq_dec k key); [inversion H; subst; auto|].
  destruct (take ps key) as [[u t]|] eqn:E; [|discriminate]. inversion H; subst. constructor; eauto.
Qed.

Lemma servedP : forall ps cs ls ans ps', served value ps cs ls ans ps' ->
  forall first x, wf x -> view x = ls -> Forall plain ls -> holds first x ps ->
  Forall (fun p => fst p <> [] /\ fst p <> str ",") ps ->
  exists z, perform_all value number cs x = Ok (ans, z) /\ view z = [] /\ wf z /\ holds first z ps'.
Proof.
  induction 1; intros first x W V P K Nk.
  - exists x. simpl. auto.
  - destruct H as (Sk & Nw & Cw & Pk & Nh).
    destruct (entry_key _ _ _ H2) as (l0 & r0 & t & E0 & HK).
    assert (Nu : key <> used_flag) by (intros ->; apply Nh; simpl; auto).
    assert (Qk : forall k, k <> used_flag -> take ps k = None -> quiet x k).
    { intros k Nk0 Tk. destruct first; [eapply tracks_quiet; eauto|left; apply K]. }
    apply Forall_app in P as [Pls Pr].
    assert (V0 : view x = l0 :: (r0 ++ r)) by (rewrite V, E0; reflexivity).
    assert (Pl0 : plain l0) by (subst ls; now inversion Pls).
    destruct H2 as (k & g & l1 & r1 & El & B & Ng & Bg & Li).
    rewrite El in E0. inversion E0; subst l0 r0. clear E0.
    assert (HK' : has_key ws (k ++ g ++ l1) (g ++ l1)).
    { split.
      - clear - B. remember [] as n eqn:En. induction B; subst.
        + rewrite app_nil_r. constructor.
        + rewrite <- !app_assoc. constructor; auto.
      - left. destruct g; [congruence|]. simpl. inversion Bg; auto. }
    destruct (handle_key_found x key ws _ _ _ W V0 Pl0 Pk Sk Nw HK' (Qk _ Nu H1)) as (y & Ey & Ay).
    apply listed_tail in Li as (t1 & ts1 & e & ls1 & -> & E1 & Tl). inversion E1; subst l1 r1.
    assert (Hm : exists v, item t1 v) by (inversion H3; subst; match goal with Hx : means _ _ _ |- _ => apply Hx end).
    destruct Hm as [v1 It]. destruct (item_trim t1 v1 e It) as [Ti Ni].
    assert (Vy : view y = (t1 ++ e) :: ls1 ++ r).
    { destruct Ay as (_ & _ & ->). unfold norm. rewrite trim_blanks, Ti by auto. destruct (t1 ++ e); [now elim Ni|reflexivity]. }
    destruct Ay as (Wy & Sy & _).
    assert (Pe : Forall plain (e :: ls1)).
    { subst ls. inversion Pls; subst. constructor; auto. apply plain_app in Pl0 as [_ P0]. apply plain_app in P0 as [_ P0].
      now apply plain_app in P0 as [_ P0]. }
    assert (Tn : take ps [] = None) by (apply take_none; eapply Forall_impl; [|exact Nk]; intros p Hp; apply Hp).
    assert (Tc : take ps (str ",") = None) by (apply take_none; eapply Forall_impl; [|exact Nk]; intros p Hp; apply Hp).
    destruct (perform_values c key x y t1 ts1 e ls1 r l H0 Ey Wy Vy Tl H3) as (z & Ez & Az); auto.
    { eapply same_eff_quiet; [exact Sy|]. apply Qk; auto. discriminate. }
    { eapply same_eff_quiet; [exact Sy|]. apply Qk; auto. discriminate. }
    { eapply served_next; eauto. }
    cbn [perform_all]. rewrite Ez. cbn [bind].
    assert (Sz : same_eff z x) by (eapply same_eff_trans; [apply Az|exact Sy]).
    destruct (IHserved first z) as (w & Ew & Vw & Ww & Kw); auto; try apply Az.
    { destruct Sz as [Se Sf]. destruct first; [destruct K as (F & qs & Eq & Lq)|destruct K as [F ->]].
      - split; [congruence|]. exists qs. split; congruence.
      - split; [congruence|reflexivity]. }
    rewrite Ew. cbn [bind]. exists w. auto.
  - destruct H as (Sk & Nw & Cw & Pk & Nh).
    assert (Nu : key <> used_flag) by (intros ->; apply Nh; simpl; auto).
    inversion P as [|? ? Pl Pr]; subst.
    destruct first; [destruct K as (F & qs & Eq & Lq)|destruct K as [_ ->]; discriminate].
    pose proof (override_take key qs Nu) as O. rewrite Lq, H1 in O. destruct O as (qs' & O & L'). rewrite <- Eq in O.
    destruct (handle_key_arg x key ws line r t v _ W V Pl Pk Sk Nw H2 F O) as (y & Ey & Wy & Vy & Ay & Fy).
    assert (Ky : tracks y ps1).
    { split; auto. exists qs'. split; auto. unfold eff. rewrite Ay. destruct qs' as [|[? ?] ?]; [|reflexivity]. exfalso.
      clear - O Eq. destruct (eff x) as [|k0 [|v0 t0]]; simpl in O.
      - discriminate.
      - destruct (same_text k0 key); discriminate.
      - destruct (same_text k0 key); [discriminate|]. destruct (override t0 key) as [[? ?]| | |]; discriminate. }
    apply listed_tail in H3 as (t1 & ts1 & e & ls1 & -> & E1 & Tl). inversion E1; subst.
    assert (Hm : exists v, item t1 v) by (inversion H5; subst; match goal with Hx : means _ _ _ |- _ => apply Hx end).
    destruct Hm as [v1 It]. destruct (item_trim t1 v1 e It) as [Ti Ni].
    assert (Vy' : view y = (t1 ++ e) :: [] ++ r).
    { rewrite Vy. unfold norm. rewrite H3. destruct (t1 ++ e); [now elim Ni|reflexivity]. }
    assert (Nk1 : Forall (fun p => fst p <> [] /\ fst p <> str ",") (live qs')).
    { apply (take_keys (fun k => k <> [] /\ k <> str ",") _ _ _ _ H1 Nk). }
    assert (Tn : take (live qs') [] = None) by (apply take_none; eapply Forall_impl; [|exact Nk1]; intros p Hp; apply Hp).
    assert (Tc : take (live qs') (str ",") = None) by (apply take_none; eapply Forall_impl; [|exact Nk1]; intros p Hp; apply Hp).
    destruct (perform_values c key x y t1 ts1 e [] r l H0 Ey Wy Vy' Tl H5) as (z & Ez & Az); auto.
    { eapply tracks_quiet; eauto. discriminate. }
    { eapply tracks_quiet; eauto. discriminate. }
    { constructor; [|constructor]. apply plain_trim in H4. rewrite H3 in H4. now apply plain_app in H4 as [_ H4]. }
    { eapply served_next; eauto. }
    cbn [perform_all]. rewrite Ez. cbn [bind].
    destruct (IHserved true z) as (w & Ew & Vw & Ww & Kw); auto; try apply Az.
    { destruct Az as (_ & [Se Sf] & _). destruct Ky as (F1 & qs1 & E2 & L1). split; [congruence|]. exists qs1. split; congruence. }
    rewrite Ew. cbn [bind]. exists w. auto.
  - destruct H as (Sk & Nw & Cw & Pk & Nh).
    destruct (handle_key_missing x (key_of c) ws W Pk Sk Nw) as (y & Ey & Wy & Ay & Vy).
    { intros l r Vx. rewrite V in Vx. split; [rewrite Vx in P; now inversion P|]. intros t. eapply H0; eauto. }
    cbn [perform_all]. rewrite (perform_absent _ _ _ Ey). cbn [bind].
    destruct (IHserved first y) as (w & Ew & Vw & Ww & Kw); auto; try congruence.
    { destruct (same_args_eff _ _ Ay) as [Se Sf]. destruct first; [destruct K as (F & qs & Eq & Lq)|destruct K as [F E]].
      - split; [congruence|]. exists qs. split; congruence.
      - split; [congruence|assumption]. }
    rewrite Ew. cbn [bind]. exists w. auto.
Qed.
End Files.
