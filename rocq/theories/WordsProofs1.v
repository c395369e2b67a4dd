(** Proofs about the searches and the matching of words. *)
From Verif Require Import Common SrcbufModel WordsModel WordsSpec.
Open Scope nat_scope.

Lemma same_text_iff : forall a b, same_text a b = true <-> a = b.
Proof.
  induction a as [|x a IH]; intros [|y b]; cbn [same_text]; split; intros H; try discriminate H; try reflexivity.
  - apply andb_prop in H. destruct H as [H1 H2]. apply Z.eqb_eq in H1. apply IH in H2. congruence.
  - injection H as -> ->. rewrite Z.eqb_refl. apply IH. reflexivity.
Qed.

Lemma match_at_occurs : forall s p i, i <= length s -> (match_at s p i = true <-> occurs s p i).
Proof.
  intros s p i Hi. unfold match_at. rewrite same_text_iff. split.
  - intros H. exists (firstn i s), (skipn (length p) (skipn i s)). split.
    + transitivity (firstn i s ++ skipn i s); [symmetry; apply firstn_skipn|]. f_equal.
      rewrite <- (firstn_skipn (length p) (skipn i s)) at 1. rewrite H. reflexivity.
    + rewrite firstn_length. lia.
  - intros [a [b [-> <-]]]. rewrite skipn_app, skipn_all, Nat.sub_diag. cbn [skipn app].
    rewrite firstn_app, firstn_all, Nat.sub_diag. cbn [firstn]. apply app_nil_r.
Qed.

Lemma occurs_bound : forall s p i, occurs s p i -> i + length p <= length s.
Proof. intros s p i [a [b [-> <-]]]. rewrite !app_length. lia. Qed.

Lemma find_up_spec : forall s p n i k, i + n <= S (length s) ->
  (find_up s p n i = Some k <-> (i <= k < i + n /\ occurs s p k /\ forall j, i <= j < k -> ~ occurs s p j)).
Proof.
  intros s p n. induction n as [|n IH]; intros i k Hn; cbn [find_up].
  - split; [discriminate|]. intros [H _]. lia.
  - destruct (match_at s p i) eqn:E.
    + assert (Ho : occurs s p i) by (apply match_at_occurs; [lia|exact E]). split.
      * intros H. injection H as <-. split; [lia|]. split; [exact Ho|]. intros j Hj. lia.
      * intros [H1 [H2 H3]]. destruct (Nat.eq_dec i k) as [->|Hne]; [reflexivity|]. exfalso. apply (H3 i); [lia|exact Ho].
    + assert (Ho : ~ occurs s p i) by (intros Hc; apply match_at_occurs in Hc; [congruence|lia]).
      rewrite IH by lia. split.
      * intros [H1 [H2 H3]]. split; [lia|]. split; [exact H2|]. intros j Hj.
        destruct (Nat.eq_dec i j) as [<-|Hne]; [exact Ho|]. apply H3. lia.
      * intros [H1 [H2 H3]]. destruct (Nat.eq_dec i k) as [<-|Hne]; [contradiction|].
        split; [lia|]. split; [exact H2|]. intros j Hj. apply H3. lia.
Qed.

Lemma find_spec : forall s p pos k, find s p pos = Some k <-> nearest s p pos false k.
Proof.
  intros s p pos k. unfold find, nearest. destruct (le_lt_dec pos (S (length s))) as [Hle|Hgt].
  - rewrite find_up_spec by lia. split.
    + intros [H1 [H2 H3]]. split; [exact H2|]. split; [lia|]. intros j Ha Hb. apply H3. lia.
    + intros [H1 [H2 H3]]. pose proof (occurs_bound _ _ _ H1). split; [lia|]. split; [exact H1|].
      intros j Hj. apply H3; lia.
  - replace (S (length s) - pos) with 0 by lia. cbn [find_up]. split; [discriminate|].
    intros [H1 [H2 _]]. pose proof (occurs_bound _ _ _ H1). lia.
Qed.

Lemma find_down_spec : forall s p i k, i <= length s ->
  (find_down s p i = Some k <-> (k <= i /\ occurs s p k /\ forall j, k < j -> j <= i -> ~ occurs s p j)).
Proof.
  intros s p i. induction i as [|i IH]; intros k Hi; cbn [find_down].
  - destruct (match_at s p 0) eqn:E.
    + apply match_at_occurs in E; [|lia]. split.
      * intros H. injection H as <-. split; [lia|]. split; [exact E|]. intros; lia.
      * intros [H _]. f_equal. lia.
    + assert (Ho : ~ occurs s p 0) by (intros Hc; apply match_at_occurs in Hc; [congruence|lia]).
      split; [discriminate|]. intros [H1 [H2 _]]. replace k with 0 in H2 by lia. contradiction.
  - destruct (match_at s p (S i)) eqn:E.
    + apply match_at_occurs in E; [|lia]. split.
      * intros H. injection H as <-. split; [lia|]. split; [exact E|]. intros; lia.
      * intros [H1 [H2 H3]]. destruct (Nat.eq_dec k (S i)) as [->|Hne]; [reflexivity|].
        exfalso. apply (H3 (S i)); [lia|lia|exact E].
    + assert (Ho : ~ occurs s p (S i)) by (intros Hc; apply match_at_occurs in Hc; [congruence|lia]).
      rewrite IH by lia. split.
      * intros [H1 [H2 H3]]. split; [lia|]. split; [exact H2|]. intros j Ha Hb.
        destruct (Nat.eq_dec j (S i)) as [->|Hne]; [exact Ho|]. apply H3; lia.
      * intros [H1 [H2 H3]]. destruct (Nat.eq_dec k (S i)) as [->|Hne]; [contradiction|].
        split; [lia|]. split; [exact H2|]. intros j Ha Hb. apply H3; lia.
Qed.

Lemma rfind_spec : forall s p pos k, rfind s p pos = Some k <-> nearest s p pos true k.
Proof.
  intros s p pos k. unfold rfind, nearest. destruct (length p <=? length s) eqn:E.
  - apply Nat.leb_le in E. rewrite find_down_spec by lia. split.
    + intros [H1 [H2 H3]]. split; [exact H2|]. split; [lia|]. intros j Ha Hb Hc.
      pose proof (occurs_bound _ _ _ Hc). apply (H3 j); [lia|lia|exact Hc].
    + intros [H1 [H2 H3]]. pose proof (occurs_bound _ _ _ H1). split; [lia|]. split; [exact H1|].
      intros j Ha Hb. apply H3; lia.
  - apply Nat.leb_gt in E. split; [discriminate|]. intros [H1 _]. pose proof (occurs_bound _ _ _ H1). lia.
Qed.

Lemma isword_0 : isword 0 = false. Proof. reflexivity. Qed.

Lemma word_starts_nth : forall s i, i <= length s ->
  ((0 <? i) && isword (nth (i - 1) s 0%Z) = false <-> word_starts s i).
Proof.
  intros s i Hi. unfold word_starts. split.
  - intros H a c b -> Ha. destruct i as [|i]; [lia|]. cbn [Nat.ltb Nat.leb andb] in H.
    replace (S i - 1) with (length a) in H by lia. rewrite nth_middle in H. exact H.
  - intros H. destruct i as [|i]; [reflexivity|]. cbn [Nat.ltb Nat.leb andb].
    replace (S i - 1) with i by lia. destruct (nth_split s 0%Z (n := i)) as [a [b [E Ha]]]; [lia|].
    apply (H a _ b E). lia.
Qed.

Lemma word_ends_nth : forall s i, isword (nth i s 0%Z) = false <-> word_ends s i.
Proof.
  intros s i. unfold word_ends. split.
  - intros H a c b -> <-. rewrite nth_middle in H. exact H.
  - intros H. destruct (le_lt_dec (length s) i) as [Hge|Hlt]; [rewrite nth_overflow by lia; reflexivity|].
    destruct (nth_split s 0%Z (n := i)) as [a [b [E Ha]]]; [lia|]. apply (H a _ b E Ha).
Qed.

Lemma find_word_spec : forall s p pos reverse i, (Z.of_nat (length s) < 2 ^ 31)%Z ->
  (find_word s p pos reverse = Some i <->
   (nearest s p pos reverse i /\ word_starts s i /\ (word_ends s (i + length p) \/ i + length p + 1 = length s))).
Proof.
  intros s p pos reverse i Hs. unfold find_word.
  assert (Hf : forall k, (if reverse then rfind s p pos else find s p pos) = Some k <-> nearest s p pos reverse k).
  { intros k. destruct reverse; [apply rfind_spec|apply find_spec]. }
  destruct (if reverse then rfind s p pos else find s p pos) as [k|].
  2:{ split; [discriminate|]. intros [H _]. apply Hf in H. discriminate H. }
  assert (Hk : nearest s p pos reverse k) by (apply Hf; reflexivity).
  assert (Huniq : nearest s p pos reverse i -> i = k) by (intros H; apply Hf in H; congruence).
  pose proof (occurs_bound _ _ _ (proj1 Hk)) as Hb.
  assert (Hlim : if (Z.of_nat k <? (Z.of_nat (length s) - Z.of_nat (length p) - 1) mod 2 ^ 64)%Z
                 then k + length p + 1 <> length s else k + length p = length s \/ k + length p + 1 = length s).
  { change (2 ^ 64)%Z with 18446744073709551616%Z. change (2 ^ 31)%Z with 2147483648%Z in Hs.
    destruct (Nat.eq_dec (length p) (length s)) as [E|E].
    - rewrite E. replace (Z.of_nat (length s) - Z.of_nat (length s) - 1)%Z with (18446744073709551615 + (-1) * 18446744073709551616)%Z by lia.
      rewrite Z.mod_add by lia. rewrite Z.mod_small by lia. destruct (Z.ltb_spec (Z.of_nat k) 18446744073709551615); lia.
    - rewrite Z.mod_small by lia. destruct (Z.ltb_spec (Z.of_nat k) (Z.of_nat (length s) - Z.of_nat (length p) - 1)); lia. }
  destruct ((0 <? k) && isword (nth (k - 1) s 0%Z)) eqn:E1.
  { split; [discriminate|]. intros [H1 [H2 _]]. apply Huniq in H1. subst k.
    apply word_starts_nth in H2; [congruence|lia]. }
  apply word_starts_nth in E1; [|lia].
  destruct ((Z.of_nat k <? (Z.of_nat (length s) - Z.of_nat (length p) - 1) mod 2 ^ 64)%Z) eqn:E2.
  - cbn [andb].
    destruct (isword (nth (k + length p) s 0%Z)) eqn:E3.
    + split; [discriminate|]. intros [H1 [_ [H2|H2]]]; apply Huniq in H1; subst k; [|lia].
      apply word_ends_nth in H2. congruence.
    + split.
      * intros H. injection H as <-. split; [exact Hk|]. split; [exact E1|]. left. apply word_ends_nth. exact E3.
      * intros [H _]. apply Huniq in H. congruence.
  - cbn [andb]. split.
    + intros H. injection H as <-. split; [exact Hk|]. split; [exact E1|]. destruct Hlim as [He|He]; [left|right; exact He].
      apply word_ends_nth. rewrite nth_overflow by lia. reflexivity.
    + intros [H _]. apply Huniq in H. congruence.
Qed.

(** *** contains_word_list *)

Lemma c_str_id : forall s, no_zero s -> c_str s = s.
Proof.
  induction s as [|c s IH]; intros H; [reflexivity|]. cbn [c_str].
  destruct (c =? 0)%Z eqn:E; [apply Z.eqb_eq in E; exfalso; apply H; left; exact E|].
  f_equal. apply IH. intros Hin. apply H. right. exact Hin.
Qed.

Lemma letters_app : forall a b, letters (a ++ b) = letters a ++ letters b.
Proof. intros. apply filter_app. Qed.

Lemma skip_space_spec : forall p, exists a, p = a ++ skip_space p /\ letters a = [] /\ no_space_first (skip_space p).
Proof.
  induction p as [|c p [a [H1 [H2 H3]]]]; [exists []; repeat split|]. cbn [skip_space].
  destruct (isspace c) eqn:E.
  - exists (c :: a). split; [cbn [app]; congruence|]. split; [|exact H3]. unfold letters. cbn [filter]. rewrite E. exact H2.
  - exists []. split; [reflexivity|]. split; [reflexivity|]. exact E.
Qed.

Lemma skip_same_spec : forall p q, exists a, p = a ++ fst (skip_same p q) /\ q = a ++ snd (skip_same p q) /\
  (p <> [] -> q <> [] -> char_at p = char_at q -> 0 < length a).
Proof.
  induction p as [|x p IH]; intros [|y q]; cbn [skip_same fst snd].
  - exists []. repeat split. congruence.
  - exists []. repeat split. congruence.
  - exists []. repeat split. congruence.
  - destruct (x =? y)%Z eqn:E.
    + apply Z.eqb_eq in E. subst y. destruct (IH q) as [a [H1 [H2 _]]]. exists (x :: a).
      cbn [app]. split; [congruence|]. split; [congruence|]. intros _ _ _. cbn [length]. lia.
    + exists []. cbn [app fst snd]. split; [reflexivity|]. split; [reflexivity|]. intros _ _ H. apply Z.eqb_neq in E. contradiction.
Qed.

Definition first_letter_differs (p q : text) : Prop :=
  match letters p, letters q with
  | _, [] => False
  | [], _ => True
  | x :: _, y :: _ => x <> y
  end.

Lemma no_zero_app : forall a b, no_zero (a ++ b) -> no_zero a /\ no_zero b.
Proof. intros a b H. split; intros Hin; apply H; apply in_app_iff; [left|right]; exact Hin. Qed.

Lemma char_first_letter : forall p, no_space_first p -> no_zero p -> letters p = [] -> p = [].
Proof.
  intros [|c p] H1 _ H2; [reflexivity|]. cbn [no_space_first] in H1. unfold letters in H2. cbn [filter] in H2.
  rewrite H1 in H2. discriminate H2.
Qed.

Lemma match_words_spec : forall n p q, length p + length q < n -> no_zero p -> no_zero q ->
  exists a b p1 q1, match_words n p q = Some (p1, q1) /\ p = a ++ p1 /\ q = b ++ q1 /\ letters a = letters b /\
    (letters q1 = [] \/ first_letter_differs p1 q1).
Proof.
  induction n as [|n IH]; intros p q Hn Hp Hq; [lia|].
  change (match_words (S n) p q) with
    (match p, q with
      | [], _ | _, [] => Some (p, q)
      | _, _ =>
          let p1 := skip_space p in
          let q1 := skip_space q in
          if (char_at p1 =? char_at q1)%Z then let '(p2, q2) := skip_same p1 q1 in match_words n p2 q2
          else Some (p1, q1)
      end).
  destruct p as [|x p].
  { exists [], [], [], q. split; [reflexivity|]. split; [reflexivity|]. split; [reflexivity|]. split; [reflexivity|].
    unfold first_letter_differs. change (letters []) with (@nil Z). destruct (letters q); [left; reflexivity|right; exact I]. }
  destruct q as [|y q].
  { exists [], [], (x :: p), []. split; [reflexivity|]. split; [reflexivity|]. split; [reflexivity|]. split; [reflexivity|].
    left. reflexivity. }
  cbv zeta. remember (x :: p) as P eqn:HP. remember (y :: q) as Q eqn:HQ.
  destruct (skip_space_spec P) as [a0 [HPa [Ha Hfp]]]. destruct (skip_space_spec Q) as [b0 [HQb [Hb Hfq]]].
  set (p1 := skip_space P) in *. set (q1 := skip_space Q) in *.
  assert (Hp1 : no_zero p1) by (rewrite HPa in Hp; apply no_zero_app in Hp; tauto).
  assert (Hq1 : no_zero q1) by (rewrite HQb in Hq; apply no_zero_app in Hq; tauto).
  assert (HlP : length P = length a0 + length p1) by (rewrite HPa at 1; apply app_length).
  assert (HlQ : length Q = length b0 + length q1) by (rewrite HQb at 1; apply app_length).
  destruct (char_at p1 =? char_at q1)%Z eqn:E.
  - apply Z.eqb_eq in E. destruct (skip_same_spec p1 q1) as [d [Hd1 [Hd2 Hd3]]].
    destruct (skip_same p1 q1) as [p2 q2] eqn:Es. cbn [fst snd] in Hd1, Hd2.
    assert (Hl1 : length p1 = length d + length p2) by (rewrite Hd1; apply app_length).
    assert (Hl2 : length q1 = length d + length q2) by (rewrite Hd2; apply app_length).
    destruct (Nat.eq_dec (length d) 0) as [Hz|Hz].
    + (* one of them is at its end, and hence the other *)
      assert (Hn1 : p1 = [] \/ q1 = []).
      { destruct p1 as [|u p1']; [left; reflexivity|]. destruct q1 as [|v q1']; [right; reflexivity|].
        exfalso. assert (0 < length d) by (apply Hd3; [discriminate|discriminate|exact E]). lia. }
      assert (Hboth : p1 = [] /\ q1 = []).
      { destruct Hn1 as [Hn1|Hn1]; rewrite Hn1 in E; cbn [char_at] in E.
        - split; [exact Hn1|]. destruct q1 as [|v q1']; [reflexivity|]. cbn [char_at] in E. exfalso. apply Hq1. left. symmetry. exact E.
        - split; [|exact Hn1]. destruct p1 as [|v p1']; [reflexivity|]. cbn [char_at] in E. exfalso. apply Hp1. left. exact E. }
      destruct Hboth as [Hpe Hqe].
      assert (Hp2 : p2 = []) by (destruct p2; [reflexivity|exfalso; rewrite Hpe in Hl1; cbn [length] in Hl1; lia]).
      assert (Hq2 : q2 = []) by (destruct q2; [reflexivity|exfalso; rewrite Hqe in Hl2; cbn [length] in Hl2; lia]).
      subst p2 q2. destruct n as [|n]; [subst P Q; cbn [length] in Hn; lia|].
      exists P, Q, [], []. split; [reflexivity|]. split; [rewrite app_nil_r; reflexivity|]. split; [rewrite app_nil_r; reflexivity|].
      split; [|left; reflexivity]. rewrite HPa, HQb, Hpe, Hqe, !app_nil_r, Ha, Hb. reflexivity.
    + destruct (IH p2 q2) as [a [b [p3 [q3 [H1 [H2 [H3 [H4 H5]]]]]]]].
      * lia.
      * rewrite Hd1 in Hp1. apply no_zero_app in Hp1. tauto.
      * rewrite Hd2 in Hq1. apply no_zero_app in Hq1. tauto.
      * exists (a0 ++ d ++ a), (b0 ++ d ++ b), p3, q3. split; [exact H1|].
        split; [rewrite HPa, Hd1, H2, <- !app_assoc; reflexivity|].
        split; [rewrite HQb, Hd2, H3, <- !app_assoc; reflexivity|].
        split; [rewrite !letters_app, Ha, Hb, H4; reflexivity|exact H5].
  - apply Z.eqb_neq in E. exists a0, b0, p1, q1. split; [reflexivity|]. split; [exact HPa|]. split; [exact HQb|].
    split; [congruence|]. destruct q1 as [|v q1']; [left; reflexivity|]. right. unfold first_letter_differs.
    cbn [no_space_first] in Hfq. unfold letters. cbn [filter]. rewrite Hfq. cbn [negb].
    destruct p1 as [|u p1']; [exact I|]. cbn [no_space_first] in Hfp. cbn [filter]. rewrite Hfp. cbn [negb]. exact E.
Qed.

Lemma contains_yes : forall line lst r, no_zero line -> no_zero lst ->
  contains_word_list line lst = Some (Some r) ->
  exists a, line = a ++ r /\ letters a = letters lst /\ no_space_first r.
Proof.
  intros line lst r Hl Hq H. unfold contains_word_list in H. rewrite (c_str_id line Hl), (c_str_id lst Hq) in H.
  destruct (match_words_spec (S (length line + length lst)) line lst) as [a [b [p1 [q1 [H1 [H2 [H3 [H4 H5]]]]]]]]; [lia|exact Hl|exact Hq|].
  rewrite H1 in H. cbn [bind] in H. destruct (skip_space q1) eqn:E; [|discriminate H]. injection H as <-.
  destruct (skip_space_spec p1) as [a1 [Ha1 [Ha2 Ha3]]]. destruct (skip_space_spec q1) as [b1 [Hb1 [Hb2 _]]].
  rewrite E, app_nil_r in Hb1.
  exists (a ++ a1). split; [rewrite H2, Ha1 at 1; rewrite <- app_assoc; reflexivity|]. split; [|exact Ha3].
  rewrite letters_app, Ha2, app_nil_r, H3, letters_app, Hb1, Hb2, app_nil_r. exact H4.
Qed.

Lemma contains_some : forall line lst, no_zero line -> no_zero lst ->
  (exists r, contains_word_list line lst = Some (Some r)) \/
  (contains_word_list line lst = Some None /\ ~ exists t, letters line = letters lst ++ t).
Proof.
  intros line lst Hl Hq. unfold contains_word_list. rewrite (c_str_id line Hl), (c_str_id lst Hq).
  destruct (match_words_spec (S (length line + length lst)) line lst) as [a [b [p1 [q1 [H1 [H2 [H3 [H4 H5]]]]]]]]; [lia|exact Hl|exact Hq|].
  rewrite H1. cbn [bind]. destruct (skip_space q1) as [|c t] eqn:E; [left; eexists; reflexivity|].
  right. split; [reflexivity|]. intros [t' Ht]. rewrite H2, H3, !letters_app, H4, <- app_assoc in Ht.
  apply app_inv_head in Ht. destruct (skip_space_spec q1) as [b1 [Hb1 [Hb2 Hb3]]].
  assert (Hq1 : letters q1 <> []).
  { rewrite Hb1, letters_app, Hb2, E. rewrite E in Hb3. cbn [no_space_first] in Hb3. unfold letters. cbn [app filter]. rewrite Hb3. discriminate. }
  destruct H5 as [H5|H5]; [contradiction|]. unfold first_letter_differs in H5. rewrite Ht in H5.
  destruct (letters q1) as [|y q']; [contradiction|]. cbn [app] in H5. apply H5. reflexivity.
Qed.

(** Two ways to cut off the same letters differ only in white space. *)
Lemma cut_unique : forall a r b s, a ++ r = b ++ s -> letters a = letters b -> no_space_first r -> no_space_first s -> r = s.
Proof.
  induction a as [|x a IH]; intros r b s H Hl Hr Hs.
  - destruct b as [|y b]; [exact H|]. cbn [app] in H. subst r. cbn [no_space_first] in Hr.
    unfold letters in Hl. cbn [filter] in Hl. rewrite Hr in Hl. discriminate Hl.
  - destruct b as [|y b].
    + cbn [app] in H. subst s. cbn [no_space_first] in Hs. unfold letters in Hl. cbn [filter] in Hl. rewrite Hs in Hl. discriminate Hl.
    + cbn [app] in H. injection H as -> H. apply (IH r b s H); [|exact Hr|exact Hs].
      unfold letters in Hl. cbn [filter] in Hl. destruct (negb (isspace y)); [injection Hl as Hl|]; exact Hl.
Qed.

Lemma contains_iff : forall line lst r, no_zero line -> no_zero lst ->
  (contains_word_list line lst = Some (Some r) <->
   (exists a, line = a ++ r /\ letters a = letters lst) /\ no_space_first r).
Proof.
  intros line lst r Hl Hq. split.
  - intros H. destruct (contains_yes line lst r Hl Hq H) as [a [H1 [H2 H3]]]. split; [exists a; split; assumption|exact H3].
  - intros [[a [H1 H2]] H3]. destruct (contains_some line lst Hl Hq) as [[r' Hr']|[_ Hno]].
    + rewrite Hr'. destruct (contains_yes line lst r' Hl Hq Hr') as [a' [H1' [H2' H3']]].
      do 2 f_equal. apply (cut_unique a' r' a r); [congruence|congruence|exact H3'|exact H3].
    + exfalso. apply Hno. exists (letters r). rewrite H1, letters_app, H2. reflexivity.
Qed.
