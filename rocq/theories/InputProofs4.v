(** The comparison of a key with the beginning of a line. *)
From Coq Require Import String.
From Verif Require Import Common SrcbufModel WordsModel WordsProofs1 CmdargsModel DecimalModel InputModel InputSpec InputProofs1 InputProofs2.
Open Scope list_scope.
Open Scope nat_scope.

Lemma plain_app : forall a b, plain (a ++ b) <-> plain a /\ plain b.
Proof. intros. apply Forall_app. Qed.
Lemma plain_trim : forall s, plain s -> plain (trim s).
Proof. induction s; simpl; auto. intros H. destruct (isspace a); auto. inversion H; auto. Qed.
Lemma c_str_plain : forall s, plain s -> c_str s = s.
Proof.
  induction s; simpl; intros H; auto. inversion H; subst.
  replace (a =? 0)%Z with false by lia. now rewrite IHs.
Qed.
Lemma trim_word : forall w r, word w -> trim (w ++ r) = w ++ r.
Proof. intros w r [N V]. destruct w; [congruence|]. inversion V; subst. simpl. now rewrite H1. Qed.
Lemma begins_visible : forall ws l r, Forall word ws -> begins ws l r -> trim l = l.
Proof. intros ws l r F B. destruct B; inversion F; subst; now apply trim_word. Qed.
Lemma spelled_words : forall ws key, spelled ws key -> Forall word ws.
Proof. induction 1; repeat constructor; auto; apply H0. Qed.
Lemma spelled_trim : forall ws key, spelled ws key -> spelled ws (trim key).
Proof.
  destruct 1.
  - rewrite trim_nil by auto. constructor. constructor.
  - rewrite trim_blanks, trim_word by auto. apply (spelled_last []); auto. constructor.
  - rewrite trim_blanks, trim_word by auto. apply (spelled_more []); auto. constructor.
Qed.

Lemma last_default : forall (w : text) a b, w <> [] -> last w a = last w b.
Proof. induction w; intros; [congruence|]. destruct w; auto. apply IHw. discriminate. Qed.
(** The stop of the comparison of a word. *)
Definition gap (e : text) : Prop := match e with [] => True | c :: _ => isspace c = true end.
Lemma skip_equal_word : forall w p e a sp, visible w -> gap e ->
  skip_equal (w ++ p) (w ++ e) a sp = (p, e, last w a, match w with [] => sp | _ => false end).
Proof.
  induction w as [|c w IH]; intros p e a sp V G.
  - simpl. destruct p as [|x p]; [reflexivity|]. destruct e as [|b e]; [reflexivity|]. simpl in *.
    rewrite G, andb_false_r. reflexivity.
  - inversion V; subst. simpl app. cbn [skip_equal]. rewrite Z.eqb_refl, H1. simpl.
    rewrite IH by auto. destruct w; [reflexivity|]. now rewrite (last_default (z :: w) c a).
Qed.
Lemma skip_equal_other : forall w p e a sp, visible w -> plain w -> (forall p1, p <> w ++ p1) ->
  exists p1 q1 a1 sp1, skip_equal p (w ++ e) a sp = (p1, q1, a1, sp1) /\ q1 <> [] /\
    isspace (char_at q1) = false /\ (char_at p1 =? char_at q1)%Z = false.
Proof.
  induction w as [|c w IH]; intros p e a sp V P H.
  - exfalso. now apply (H p).
  - inversion V; inversion P; subst. destruct p as [|x p].
    + simpl. do 4 eexists. split; [reflexivity|]. split; [discriminate|]. cbn [char_at app]. split; auto. apply Z.eqb_neq. auto.
    + simpl. destruct (x =? c)%Z eqn:E; simpl.
      * rewrite H2. simpl. apply Z.eqb_eq in E. subst. apply IH; auto. intros p1 Hp. apply (H p1). now subst.
      * do 4 eexists. split; [reflexivity|]. split; [discriminate|]. simpl. auto.
Qed.

Lemma last_comma : forall w, w <> [] -> ((last w 0 =? 44)%Z = true <-> exists u, w = u ++ [44%Z]).
Proof.
  intros w N. split.
  - intros H. apply Z.eqb_eq in H. exists (removelast w). rewrite (app_removelast_last 0%Z N) at 1. now rewrite H.
  - intros [u ->]. now rewrite last_last.
Qed.

Definition accept (p : text) (a : Z) (sp : bool) : bool :=
  sp || (char_at p =? 0)%Z || isspace (char_at p) || (a =? 44)%Z || (char_at p =? 44)%Z.

Lemma accept_end : forall w p, word w -> plain p -> (accept p (last w 0%Z) false = true <-> key_end [w] p).
Proof.
  intros w p [N V] P. unfold accept, key_end. simpl. rewrite orb_true_iff, (orb_true_iff _ (last w 0 =? 44)%Z), last_comma by auto.
  destruct p as [|c p]; simpl.
  - intuition auto.
  - inversion P; subst. replace (c =? 0)%Z with false by lia. simpl. rewrite Z.eqb_eq. intuition auto.
Qed.

Lemma begins_cons : forall w ws p r, begins (w :: ws) p r ->
  exists p1, p = w ++ p1 /\ match ws with [] => p1 = r | _ => exists g l, g <> [] /\ blanks g /\ p1 = g ++ l /\ begins ws l r end.
Proof.
  intros w ws p r H. inversion H; subst.
  - exists r. auto.
  - exists (g ++ l). split; auto. destruct ws; [inversion H6|]. exists g, l. auto.
Qed.

Lemma spelled_cons : forall w ws q, spelled (w :: ws) q -> trim q = q ->
  exists e, q = w ++ e /\ gap e /\
    match ws with [] => blanks e | _ => exists g key, g <> [] /\ blanks g /\ e = g ++ key /\ spelled ws key end.
Proof.
  intros w ws q Sq Tq.
  inversion Sq; subst.
    - rewrite trim_blanks, trim_word in Tq by auto. assert (s = []) as ->.
      { apply (f_equal (@length Z)) in Tq. rewrite !app_length in Tq. destruct s; auto. simpl in Tq. lia. }
      exists e. repeat split; auto. destruct e; simpl; auto. match goal with Hb : blanks (_ :: _) |- _ => now inversion Hb end.
    - rewrite trim_blanks, trim_word in Tq by auto. assert (s = []) as ->.
      { apply (f_equal (@length Z)) in Tq. rewrite !app_length in Tq. destruct s; auto. simpl in Tq. lia. }
      exists (g ++ key). split; auto. split.
      + destruct g; [congruence|]. simpl. match goal with Hb : blanks (_ :: _) |- _ => now inversion Hb end.
      + destruct ws; [congruence|]. eauto 8.
Qed.

Lemma word_loopP : forall ws n p q a sp, spelled ws q -> ws <> [] -> length p < n -> trim q = q -> trim p = p -> plain p -> plain q ->
  exists p' q' a' sp', word_loop n p q a sp = Some (p', q', a', sp') /\
    if match trim q' with [] => accept p' a' sp' | _ => false end
    then exists r, has_key ws p r /\ trim p' = trim r
    else forall r, ~ has_key ws p r.
Proof.
  induction ws as [|w ws IH]; intros n p q a sp Sq N Hn Tq Tp Pp Pq; [congruence|].
  assert (Hw : word w) by (apply spelled_words in Sq; now inversion Sq).
  assert (Q := spelled_cons w ws q Sq Tq).
  destruct Q as (e & -> & Ge & He). clear Sq.
  apply plain_app in Pq as [Pw Pe].
  destruct n as [|n]; [lia|].
  destruct p as [|x p].
  { destruct w as [|c w]; [now destruct Hw|]. simpl. do 4 eexists. split; [reflexivity|].
    assert (Hc : isspace c = false) by (destruct Hw as [_ V]; now inversion V).
    simpl. rewrite Hc. intros r [B _]. apply begins_cons in B as (p1 & B & _). discriminate. }
  assert (Wl : exists c w', w = c :: w') by (destruct w; [now destruct Hw|eauto]).
  remember (x :: p) as p0 eqn:Ep0.
  assert (L : word_loop (S n) p0 (w ++ e) a sp =
    let '(p1, q1, last1, sp1) := skip_equal p0 (w ++ e) a sp in
    let both := isspace (char_at q1) && isspace (char_at p1) in
    let p2 := if both then skip_space p1 else p1 in
    let q2 := if both then skip_space q1 else q1 in
    let sp2 := if both then true else sp1 in
    if (char_at p2 =? char_at q2)%Z then word_loop n p2 q2 last1 sp2 else Some (p2, q2, last1, sp2)).
  { subst p0. destruct Wl as (c & w' & ->). reflexivity. }
  rewrite L. clear L.
  assert (D : (exists p1, p0 = w ++ p1) \/ (forall p1, p0 <> w ++ p1)).
  { destruct (list_eq_dec Z.eq_dec (firstn (length w) p0) w) as [E|E].
    - left. exists (skipn (length w) p0). rewrite <- E at 1. symmetry. apply firstn_skipn.
    - right. intros p1 Hp. apply E. subst p0. rewrite Hp, firstn_app, firstn_all, Nat.sub_diag. simpl. apply app_nil_r. }
  destruct D as [[p1 Dp]|D].
  2:{ destruct (skip_equal_other w p0 e a sp) as (p1 & q1 & a1 & sp1 & -> & Nq & Bq & C); auto; [apply Hw|].
      cbv zeta. rewrite Bq. simpl. rewrite C. do 4 eexists. split; [reflexivity|].
      destruct q1 as [|b q1]; [congruence|]. simpl in *. rewrite Bq.
      intros r [B _]. apply begins_cons in B as (p2 & B & _). now apply (D p2). }
  rewrite Dp. rewrite skip_equal_word by (auto; apply Hw).
  replace (match w with [] => sp | _ => false end) with false by (destruct Wl as (c & w' & ->); reflexivity).
  rewrite (last_default w a 0) by apply Hw.
  assert (Pp1 : plain p1) by (rewrite Dp in Pp; apply plain_app in Pp; apply Pp).
  assert (Lp : length p1 < n).
  { apply (f_equal (@length Z)) in Dp. rewrite app_length in Dp. destruct Wl as (c & w' & ->). simpl in *. lia. }
  clear Dp Ep0 Pp Tp Hn p0 x p. cbv zeta. change skip_space with trim.
  destruct ws as [|w2 ws].
  - (* the last word *)
    destruct e as [|b e].
    + change (isspace (char_at [])) with false. cbn [andb].
      assert (R : match trim [] with [] => accept p1 (last w 0%Z) false | _ => false end = accept p1 (last w 0%Z) false) by reflexivity.
      assert (G : if accept p1 (last w 0%Z) false then exists r, has_key [w] (w ++ p1) r /\ trim p1 = trim r else forall r, ~ has_key [w] (w ++ p1) r).
      { destruct (accept p1 _ false) eqn:Ea.
        - apply accept_end in Ea; auto. exists p1. split; auto. split; auto. constructor.
        - intros r [B K]. apply begins_cons in B as (p2 & B & ->). apply app_inv_head in B as <-.
          apply accept_end in K; auto. congruence. }
      destruct (_ =? _)%Z eqn:C.
      * destruct p1 as [|c p1]; [|simpl in C; inversion Pp1; subst; lia].
        destruct n; [simpl in Lp; lia|]. simpl. do 4 eexists. split; [reflexivity|]. exact G.
      * do 4 eexists. split; [reflexivity|]. exact G.
    + simpl in Ge. change (isspace (char_at (b :: e))) with (isspace b). rewrite Ge. cbn [andb].
      assert (Te : trim (b :: e) = []) by now apply trim_nil.
      destruct (isspace (char_at p1)) eqn:Bp.
      * rewrite Te. assert (G : exists r, has_key [w] (w ++ p1) r /\ trim (trim p1) = trim r).
        { exists p1. split; [|apply trim_idem]. split; [constructor|]. left. destruct p1; auto. }
        destruct (_ =? _)%Z eqn:C.
        -- destruct (trim p1) as [|c t] eqn:Et.
           ++ destruct n; [lia|]. simpl. do 4 eexists. split; [reflexivity|]. exact G.
           ++ destruct n; [lia|]. simpl. do 4 eexists. split; [reflexivity|]. exact G.
        -- do 4 eexists. split; [reflexivity|]. exact G.
      * assert (C : (char_at p1 =? char_at (b :: e))%Z = false).
        { apply Z.eqb_neq. intros E. cbn [char_at app] in E. rewrite E in Bp. congruence. }
        cbv iota. rewrite C. do 4 eexists. split; [reflexivity|]. rewrite Te.
        destruct (accept p1 _ false) eqn:Ea.
        -- apply accept_end in Ea; auto. exists p1. split; auto. split; auto. constructor.
        -- intros r [B K]. apply begins_cons in B as (p2 & B & ->). apply app_inv_head in B as <-.
           apply accept_end in K; auto. congruence.
  - (* more words *)
    destruct He as (g & key & Ng & Bg & -> & Sk). destruct g as [|b g]; [congruence|].
    assert (Bb : isspace b = true) by now inversion Bg.
    assert (Te : trim ((b :: g) ++ key) = trim key) by now apply trim_blanks.
    assert (Sk' := spelled_trim _ _ Sk).
    assert (Hw2 : word w2) by (apply spelled_words in Sk; now inversion Sk).
    assert (Nk : exists c t, trim key = c :: t).
    { destruct (trim key) as [|c t] eqn:E; eauto. exfalso. inversion Sk'; subst.
      - destruct s; [|discriminate]. destruct w2; [now destruct Hw2|discriminate].
      - destruct s; [|discriminate]. destruct w2; [now destruct Hw2|discriminate]. }
    destruct Nk as (kc & kt & Ek).
    assert (Pk : plain (trim key)).
    { apply plain_app in Pe as [_ Pe]. now apply plain_trim. }
    change (isspace (char_at ((b :: g) ++ key))) with (isspace b). rewrite Bb. cbn [andb].
    destruct (isspace (char_at p1)) eqn:Bp.
    + destruct p1 as [|c p1]; [discriminate|]. simpl in Bp.
      rewrite Te.
      assert (K : forall r, has_key (w :: w2 :: ws) (w ++ c :: p1) r <-> has_key (w2 :: ws) (trim (c :: p1)) r).
      { intros r. unfold has_key. split; intros [B K]; split; auto.
        - apply begins_cons in B as (p2 & B & g2 & l & N2 & B2 & E2 & B3). apply app_inv_head in B. subst p2.
          rewrite E2, trim_blanks by auto.
          rewrite (begins_visible _ _ _ (spelled_words _ _ Sk) B3). auto.
        - assert (E : exists g2, g2 <> [] /\ blanks g2 /\ c :: p1 = g2 ++ trim (c :: p1)).
          { exists (firstn (spaces (c :: p1)) (c :: p1)). split; [|split].
            - simpl. rewrite Bp. discriminate.
            - clear. generalize (c :: p1). induction l as [|y l IH]; simpl; [constructor|].
              destruct (isspace y) eqn:E; simpl; [now constructor|constructor].
            - rewrite <- trim_spaces. symmetry. apply firstn_skipn. }
          destruct E as (g2 & N2 & B2 & ->). now apply begins_more. }
      destruct (_ =? _)%Z eqn:C.
      * assert (Lt : length (trim (c :: p1)) < n) by (pose proof (trim_length (c :: p1)); lia).
        destruct (IH n (trim (c :: p1)) (trim key) (last w 0%Z) true Sk' ltac:(discriminate) Lt (trim_idem _) (trim_idem _) (plain_trim _ Pp1) Pk)
          as (p' & q' & a' & sp' & El & R).
        rewrite El. do 4 eexists. split; [reflexivity|].
        destruct (match trim q' with [] => _ | _ => _ end).
        -- destruct R as (r & R & E). exists r. split; auto. now apply K.
        -- intros r R'. apply K in R'. now apply (R r).
      * do 4 eexists. split; [reflexivity|]. rewrite trim_idem, Ek.
        intros r R'. apply K in R'. destruct R' as [B _]. rewrite Ek in C.
        apply begins_cons in B as (p2 & B & _). rewrite B in C.
        assert (exists t2, trim key = w2 ++ t2) as [t2 E2].
        { apply spelled_cons in Sk'; [|apply trim_idem]. destruct Sk' as (e2 & E2 & _). eauto. }
        rewrite Ek in E2. destruct w2 as [|y w2]; [now destruct Hw2|]. simpl in *. inversion E2; subst.
        rewrite Z.eqb_refl in C. discriminate.
    + assert (C : (char_at p1 =? char_at ((b :: g) ++ key))%Z = false).
      { apply Z.eqb_neq. intros E. cbn [char_at app] in E. rewrite E in Bp. congruence. }
      cbv iota. rewrite C. do 4 eexists. split; [reflexivity|]. rewrite Te, Ek.
      intros r [B _]. apply begins_cons in B as (p2 & B & g2 & l & N2 & B2 & E2 & B3). apply app_inv_head in B. subst.
      destruct g2 as [|y g2]; [congruence|]. inversion B2; subst. simpl in Bp. congruence.
Qed.

Lemma key_skipP : forall ws s key, spelled ws key -> ws <> [] -> plain s -> plain key -> trim s = s ->
  match key_skip s key with
  | Some k => exists r, has_key ws s r /\ skipn k s = trim r
  | None => forall r, ~ has_key ws s r
  end.
Proof.
  intros ws s key Sk N Ps Pk T. unfold key_skip. cbv zeta. rewrite !c_str_plain by auto.
  change skip_space with trim. rewrite T.
  destruct (word_loopP ws (S (length s)) s (trim key) 0%Z false) as (p & q & a & sp & E & R); auto using spelled_trim, trim_idem, plain_trim.
  rewrite E. fold (accept p a sp). destruct (trim q); [|exact R]. destruct (accept p a sp); [|exact R].
  destruct R as (r & R & Et). exists r. split; auto. rewrite Et.
  assert (exists u, s = u ++ trim r) as [u Eu].
  { destruct R as [B _]. clear - B. assert (exists u, s = u ++ r) as [u ->].
    { induction B; [eauto|]. destruct IHB as [u ->]. exists (w ++ g ++ u). now rewrite !app_assoc. }
    exists (u ++ firstn (spaces r) r). rewrite <- app_assoc, <- trim_spaces, firstn_skipn. reflexivity. }
  rewrite Eu at 1 2. rewrite app_length, Nat.add_sub, skipn_app, skipn_all, Nat.sub_diag. reflexivity.
Qed.
Lemma begins_det : forall ws s r r', Forall word ws -> begins ws s r -> begins ws s r' -> r = r'.
Proof.
  induction ws as [|w ws IH]; intros s r r' F B B'; [inversion B|]. inversion F; subst.
  apply begins_cons in B as (p & -> & B), B' as (p' & E & B'). apply app_inv_head in E. subst p'.
  destruct ws as [|w2 ws]; [congruence|].
  destruct B as (g & l & _ & Bg & E & B), B' as (g' & l' & _ & Bg' & E' & B').
  assert (l = l').
  { transitivity (trim p).
    - now rewrite E, trim_blanks, (begins_visible _ _ _ H2 B) by auto.
    - now rewrite E', trim_blanks, (begins_visible _ _ _ H2 B') by auto. }
  subst l'. eapply IH; eauto.
Qed.
Lemma key_skip_has : forall ws s key r, spelled ws key -> ws <> [] -> plain s -> plain key -> trim s = s -> has_key ws s r ->
  exists k, key_skip s key = Some k /\ skipn k s = trim r /\ k <= length s.
Proof.
  intros ws s key r Sk N Ps Pk T H. pose proof (key_skipP ws s key Sk N Ps Pk T) as P.
  destruct (key_skip s key) as [k|] eqn:E.
  - exists k. split; auto. split; [|eapply key_skip_le; eauto]. destruct P as (r' & H' & ->). f_equal.
    destruct H as [H _], H' as [H' _]. exact (begins_det _ _ _ _ (spelled_words _ _ Sk) H' H).
  - exfalso. eapply P; eauto.
Qed.
