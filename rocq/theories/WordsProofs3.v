(** Proofs about remove_X. *)
From Verif Require Import Common SrcbufModel WordsModel WordsSpec WordsProofs1 WordsProofs2.
Open Scope nat_scope.

Lemma letters_join : forall ws, Forall (fun w => plain w /\ w <> []) ws -> letters (join [blank] ws) = concat ws.
Proof.
  induction ws as [|w ws IH]; intros H; [reflexivity|]. inversion H as [|? ? [Hp Hw] Hws]; subst.
  destruct ws as [|x ws].
  - cbn [join concat]. rewrite app_nil_r. apply plain_letters. exact Hp.
  - rewrite join_cons by discriminate. rewrite !letters_app, (plain_letters w Hp), (IH Hws). reflexivity.
Qed.

Lemma letters_clean : forall s, letters (remove_extra_whitespace s) = letters s.
Proof.
  intros s. rewrite remove_extra_spec, letters_join by (apply (words_good (length s)); lia). apply (words_letters (length s)). lia.
Qed.

Lemma spaces_nth : forall sp i, letters sp = [] -> i < length sp -> nth i sp 0%Z <> 43%Z.
Proof.
  induction sp as [|c sp IH]; intros i H Hi; [cbn [length] in Hi; lia|]. unfold letters in H. cbn [filter] in H.
  destruct (isspace c) eqn:E; [|discriminate H]. destruct i as [|i]; cbn [nth].
  - intros ->. discriminate E.
  - apply IH; [exact H|]. cbn [length] in Hi. lia.
Qed.

Lemma skipn_add : forall {A : Type} (b a : nat) (l : list A), skipn b (skipn a l) = skipn (b + a) l.
Proof.
  intros A b. induction a as [|a IH]; intros l; [rewrite Nat.add_0_r; reflexivity|].
  rewrite Nat.add_succ_r. destruct l as [|x l]; cbn [skipn]; [apply skipn_nil|apply IH].
Qed.

(** The text that is left when X and the blank behind it are cut off. *)
Definition after_X (r : text) : text := skip_space (tl r).

Lemma skip_space_id : forall p, no_space_first p -> skip_space p = p.
Proof. intros [|c p] H; [reflexivity|]. cbn [no_space_first] in H. cbn [skip_space]. rewrite H. reflexivity. Qed.

Lemma remove_X_cases : forall s r, remove_extra_whitespace s = 88%Z :: r ->
  exists i, skipn i (88%Z :: r) = after_X (88%Z :: r) /\ (i = 1 \/ i = 2) /\ no_space_first (after_X (88%Z :: r)) /\
    (nth i s 0%Z = 43%Z -> char_at (after_X (88%Z :: r)) = 43%Z) /\
    (if (1 <? length (88%Z :: r)) && isspace (nth 1 (88%Z :: r) 0%Z) then 2 else 1) = i /\
    (after_X (88%Z :: r) <> [] -> i < length (88%Z :: r)).
Proof.
  intros s r Hr. pose proof (remove_extra_spec s) as Hs. rewrite Hr in Hs.
  destruct (words s) as [|w ws] eqn:Ew; [discriminate Hs|].
  destruct (words_cons s w ws Ew) as [sp [rest [H1 [H2 [H3 [H4 [H5 H6]]]]]]].
  destruct w as [|x w]; [congruence|].
  assert (Hx : x = 88%Z).
  { destruct ws; [|rewrite join_cons in Hs by discriminate]; cbn [join app] in Hs; injection Hs as Hs _; congruence. }
  subst x. destruct w as [|c w].
  - destruct ws as [|w2 ws].
    + cbn [join] in Hs. injection Hs as ->. exists 1. split; [reflexivity|]. split; [left; reflexivity|]. split; [exact I|].
      split; [|split; [reflexivity|intros H; exfalso; apply H; reflexivity]].
      rewrite H1. intros H. exfalso.
      assert (Hl : letters rest = []) by (apply words_nil; exact H5).
      destruct (le_lt_dec (length sp) 1) as [Hle|Hgt].
      * destruct sp as [|c sp].
        -- cbn [app nth] in H. destruct rest as [|c rest]; [cbn [nth] in H; discriminate H|].
           apply (spaces_nth (c :: rest) 0 Hl); [cbn [length]; lia|exact H].
        -- destruct sp as [|c' sp]; [|cbn [length] in Hle; lia]. cbn [app nth] in H. discriminate H.
      * rewrite app_nth1 in H by lia. apply (spaces_nth sp 1 H2 Hgt H).
    + destruct (words_cons rest w2 ws H5) as [sp2 [r2 [G1 [G2 [G3 [G4 _]]]]]].
      destruct w2 as [|c w2]; [congruence|]. assert (Hc : isspace c = false) by (inversion G3; assumption).
      assert (Hsp2 : sp2 <> []).
      { intros ->. cbn [app] in G1. destruct H6 as [H6|[c' [t' [H6 H7]]]]; rewrite H6 in G1; [discriminate G1|].
        injection G1 as -> _. congruence. }
      assert (Er : exists u, r = blank :: c :: u).
      { rewrite join_cons in Hs by discriminate. cbn [app] in Hs. apply (f_equal (@tl Z)) in Hs. cbn [tl] in Hs.
        destruct ws as [|w3 ws]; [|rewrite (join_cons _ _ (w3 :: ws)) in Hs by discriminate]; cbn [join app] in Hs; eexists; exact Hs. }
      destruct Er as [u ->]. exists 2. unfold after_X. cbn [tl].
      assert (Ev : skip_space (blank :: c :: u) = c :: u) by (cbn [skip_space]; change (isspace blank) with true; rewrite Hc; reflexivity).
      rewrite Ev. split; [reflexivity|]. split; [right; reflexivity|]. split; [exact Hc|]. split; [|split; [reflexivity|intros _; cbn [length]; lia]].
      intros H. cbn [char_at]. rewrite H1, G1 in H.
      destruct sp as [|s0 sp].
      * destruct sp2 as [|t0 sp2]; [congruence|]. cbn [app nth] in H. destruct sp2 as [|t1 sp2].
        -- cbn [app nth] in H. exact H.
        -- exfalso. cbn [app nth] in H. apply (spaces_nth (t0 :: t1 :: sp2) 1 G2); [cbn [length]; lia|exact H].
      * exfalso. destruct sp as [|s1 sp].
        -- destruct sp2 as [|t0 sp2]; [congruence|]. cbn [app nth] in H.
           apply (spaces_nth (t0 :: sp2) 0 G2); [cbn [length]; lia|exact H].
        -- destruct sp as [|s2 sp]; cbn [app nth] in H; [discriminate H|].
           apply (spaces_nth (s0 :: s1 :: s2 :: sp) 2 H2); [cbn [length]; lia|exact H].
  - assert (Hc : isspace c = false) by (inversion H3 as [|? ? _ H3']; inversion H3'; assumption).
    assert (Er : exists u, r = c :: u).
    { destruct ws; [|rewrite join_cons in Hs by discriminate]; cbn [join app] in Hs; injection Hs as Hs; eexists; exact Hs. }
    destruct Er as [u ->]. exists 1. unfold after_X. cbn [tl].
    rewrite (skip_space_id (c :: u) Hc). split; [reflexivity|]. split; [left; reflexivity|]. split; [exact Hc|].
    split; [|split; [cbn [nth]; rewrite Hc, andb_false_r; reflexivity|intros _; cbn [length]; lia]].
    intros H. cbn [char_at]. rewrite H1 in H. destruct sp as [|s0 sp]; [cbn [app nth] in H; exact H|].
    exfalso. destruct sp as [|s1 sp]; cbn [app nth] in H; [discriminate H|].
    apply (spaces_nth (s0 :: s1 :: sp) 1 H2); [cbn [length]; lia|exact H].
Qed.

Lemma letters_skip : forall p, letters (skip_space p) = letters p.
Proof. intros p. destruct (skip_space_spec p) as [a [H1 [H2 _]]]. rewrite H1 at 2. rewrite letters_app, H2. reflexivity. Qed.

Lemma letters_first : forall p c, letters p = c -> no_space_first p -> char_at p = char_at c.
Proof. intros [|x p] c <- H; [reflexivity|]. unfold letters. cbn [filter]. cbn [no_space_first] in H. rewrite H. reflexivity. Qed.

Lemma remove_X_spec : forall s,
  (char_at (letters s) <> 88%Z -> remove_X s = (remove_extra_whitespace s, false)) /\
  (forall d, letters s = 88%Z :: d ->
     snd (remove_X s) = true /\
     (letters (fst (remove_X s)) = d \/ (char_at d = 43%Z /\ letters (fst (remove_X s)) = tl d)) /\
     (remove_extra_whitespace s = s -> char_at d = 43%Z -> letters (fst (remove_X s)) = tl d)).
Proof.
  intros s. pose proof (letters_clean s) as Hl.
  assert (Hf : no_space_first (remove_extra_whitespace s)).
  { rewrite remove_extra_spec. pose proof (words_good (length s) s (Nat.le_refl _)) as Hg.
    destruct (words s) as [|w ws]; [exact I|]. inversion Hg as [|? ? [Hp Hw] _]; subst.
    destruct w as [|c w]; [congruence|]. inversion Hp as [|? ? Hc _]; subst.
    destruct ws; [|rewrite join_cons by discriminate]; cbn [join app]; exact Hc. }
  pose proof (letters_first _ _ Hl Hf) as Hc. split.
  - intros H. unfold remove_X. destruct (remove_extra_whitespace s) as [|c r] eqn:E; [reflexivity|].
    cbn [char_at] in Hc. destruct (Z.eqb_spec c 88) as [->|]; [congruence|]. reflexivity.
  - intros d Hd. rewrite Hd in Hc. cbn [char_at] in Hc. unfold remove_X.
    destruct (remove_extra_whitespace s) as [|c r] eqn:E; [discriminate Hc|]. cbn [char_at] in Hc. subst c.
    rewrite Z.eqb_refl. cbn [negb]. cbv zeta. destruct (remove_X_cases s r E) as [i [H1 [H2 [H3 [H4 [H5 H6]]]]]].
    change (1 + 1) with 2. rewrite H5.
    assert (Hv : letters (after_X (88%Z :: r)) = d).
    { unfold after_X. rewrite letters_skip. cbn [tl]. rewrite Hd in Hl. unfold letters in Hl at 1. cbn [filter] in Hl.
      change (isspace 88) with false in Hl. cbn [negb] in Hl. injection Hl as Hl. exact Hl. }
    pose proof (letters_first _ _ Hv H3) as Hcd.
    destruct ((i <? length (88%Z :: r)) && (nth i s 0 =? 43)%Z) eqn:E1; cbn [fst snd].
    + apply andb_prop in E1. destruct E1 as [E1 E2]. apply Z.eqb_eq in E2. apply H4 in E2.
      destruct (after_X (88%Z :: r)) as [|c v] eqn:Ev; [discriminate E2|]. cbn [char_at] in E2. clear Hcd. subst c.
      assert (Hd' : d = 43%Z :: letters v) by (rewrite <- Hv; reflexivity).
      assert (Hg : letters (skipn (if (i + 1 <? length (88%Z :: r)) && isspace (nth (i + 1) (88%Z :: r) 0%Z) then i + 2 else i + 1) (88%Z :: r)) = tl d).
      { assert (Hs1 : skipn (i + 1) (88%Z :: r) = v) by (replace (i + 1) with (1 + i) by lia; rewrite <- skipn_add, H1; reflexivity).
        assert (Hn1 : nth (i + 1) (88%Z :: r) 0%Z = char_at v).
        { rewrite <- (firstn_skipn (i + 1) (88%Z :: r)), Hs1. apply Nat.ltb_lt in E1.
          assert (Hlen : length (firstn (i + 1) (88%Z :: r)) = i + 1) by (rewrite firstn_length; lia).
          rewrite app_nth2 by lia. rewrite Hlen, Nat.sub_diag. destruct v; reflexivity. }
        destruct ((i + 1 <? length (88%Z :: r)) && isspace (nth (i + 1) (88%Z :: r) 0%Z)) eqn:E3.
        - apply andb_prop in E3. destruct E3 as [_ E3]. rewrite Hn1 in E3.
          replace (i + 2) with (1 + (i + 1)) by lia. rewrite <- skipn_add, Hs1, Hd'. destruct v as [|c v]; [discriminate E3|].
          cbn [char_at] in E3. cbn [skipn tl]. unfold letters. cbn [filter]. rewrite E3. reflexivity.
        - rewrite Hs1, Hd'. reflexivity. }
      split; [reflexivity|]. split; [right; split; [rewrite Hd'; reflexivity|exact Hg]|]. intros _ _. exact Hg.
    + split; [reflexivity|]. rewrite H1. split; [left; exact Hv|]. intros Hs Hp. exfalso.
      rewrite Hp in Hcd. assert (Hne : after_X (88%Z :: r) <> []) by (intros Hn; rewrite Hn in Hcd; discriminate Hcd).
      pose proof (H6 Hne) as Hi. replace (i <? length (88%Z :: r)) with true in E1 by (symmetry; apply Nat.ltb_lt; exact Hi).
      cbn [andb] in E1. apply Z.eqb_neq in E1. apply E1. rewrite <- Hs. rewrite <- (firstn_skipn i (88%Z :: r)), H1.
      rewrite app_nth2 by (rewrite firstn_length; lia). rewrite firstn_length. replace (i - Nat.min i (length (88%Z :: r))) with 0 by lia.
      destruct (after_X (88%Z :: r)); [discriminate Hcd|exact Hcd].
Qed.
