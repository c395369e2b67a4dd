(** Proofs about the words and lines of a text. *)
From Verif Require Import Common SrcbufModel WordsModel WordsSpec WordsProofs1.
Open Scope nat_scope.

Definition plain (w : text) : Prop := Forall (fun c => isspace c = false) w.

Lemma plain_letters : forall w, plain w -> letters w = w.
Proof.
  induction w as [|c w IH]; intros H; [reflexivity|]. inversion H as [|? ? Hc Hw]; subst.
  unfold letters. cbn [filter]. rewrite Hc. cbn [negb]. f_equal. apply IH. exact Hw.
Qed.

Lemma flush_some : forall w, w <> [] -> flush w = [w].
Proof. intros [|c w] H; [congruence|reflexivity]. Qed.

Lemma words_from_cons : forall s w, w <> [] ->
  exists x r, s = x ++ r /\ plain x /\ words_from w s = (w ++ x) :: words r /\ (r = [] \/ exists c t, r = c :: t /\ isspace c = true).
Proof.
  induction s as [|c s IH]; intros w Hw; cbn [words_from].
  - exists [], []. rewrite (app_nil_r w). split; [reflexivity|]. split; [constructor|]. split; [apply flush_some; exact Hw|left; reflexivity].
  - destruct (isspace c) eqn:E.
    + exists [], (c :: s). rewrite (app_nil_r w), (flush_some w Hw). split; [reflexivity|]. split; [constructor|].
      split; [|right; exists c, s; split; [reflexivity|exact E]].
      unfold words. cbn [words_from]. rewrite E. reflexivity.
    + destruct (IH (w ++ [c])) as [x [r [H1 [H2 [H3 H4]]]]]; [destruct w; discriminate|].
      exists (c :: x), r. cbn [app]. split; [congruence|]. split; [constructor; assumption|].
      split; [rewrite H3, <- app_assoc; reflexivity|exact H4].
Qed.

Lemma words_cons : forall s x ws, words s = x :: ws ->
  exists sp r, s = sp ++ x ++ r /\ letters sp = [] /\ plain x /\ x <> [] /\ words r = ws /\
    (r = [] \/ exists c t, r = c :: t /\ isspace c = true).
Proof.
  induction s as [|c s IH]; intros x ws H; [discriminate H|].
  unfold words in H. cbn [words_from] in H. destruct (isspace c) eqn:E.
  - cbn [flush app] in H. destruct (IH x ws H) as [sp [r [H1 [H2 [H3 [H4 H5]]]]]].
    exists (c :: sp), r. split; [cbn [app]; congruence|]. split; [|split; [exact H3|split; [exact H4|exact H5]]].
    unfold letters. cbn [filter]. rewrite E. exact H2.
  - cbn [app] in H. destruct (words_from_cons s [c]) as [y [r [H1 [H2 [H3 H4]]]]]; [discriminate|].
    rewrite H3 in H. injection H as <- <-. exists [], r. cbn [app]. split; [congruence|].
    split; [reflexivity|]. split; [constructor; assumption|]. split; [discriminate|]. split; [reflexivity|exact H4].
Qed.

Lemma words_nil : forall s, words s = [] -> letters s = [].
Proof.
  induction s as [|c s IH]; intros H; [reflexivity|]. unfold words in H. cbn [words_from] in H. unfold letters. cbn [filter].
  destruct (isspace c) eqn:E; [apply IH; exact H|]. cbn [app] in H.
  destruct (words_from_cons s [c]) as [y [r [_ [_ [H3 _]]]]]; [discriminate|]. rewrite H3 in H. discriminate H.
Qed.

Lemma words_letters : forall n s, length s <= n -> concat (words s) = letters s.
Proof.
  induction n as [|n IH]; intros s Hn.
  - destruct s; [reflexivity|cbn [length] in Hn; lia].
  - destruct (words s) as [|x ws] eqn:E; [symmetry; apply words_nil; exact E|].
    destruct (words_cons s x ws E) as [sp [r [H1 [H2 [H3 [H4 [H5 _]]]]]]].
    rewrite H1, !letters_app, H2, (plain_letters x H3). cbn [concat app]. f_equal. rewrite <- H5. apply IH.
    rewrite H1, !app_length in Hn. destruct x; [congruence|]. cbn [length] in Hn. lia.
Qed.

Lemma words_good : forall n s, length s <= n -> Forall (fun w => plain w /\ w <> []) (words s).
Proof.
  induction n as [|n IH]; intros s Hn.
  - destruct s; [constructor|cbn [length] in Hn; lia].
  - destruct (words s) as [|x ws] eqn:E; [constructor|].
    destruct (words_cons s x ws E) as [sp [r [H1 [H2 [H3 [H4 [H5 _]]]]]]].
    constructor; [split; assumption|]. rewrite <- H5. apply IH.
    rewrite H1, !app_length in Hn. destruct x; [congruence|]. cbn [length] in Hn. lia.
Qed.

Lemma words_skip : forall a s, letters a = [] -> words (a ++ s) = words s.
Proof.
  induction a as [|c a IH]; intros s H; [reflexivity|]. unfold letters in H. cbn [filter] in H.
  destruct (isspace c) eqn:E; [|discriminate H]. cbn [app]. unfold words. cbn [words_from]. rewrite E. apply IH. exact H.
Qed.

Lemma words_prefix : forall ws s w, words s = ws ++ w ->
  exists a r, s = a ++ r /\ letters a = concat ws /\ no_space_first r /\ words r = w.
Proof.
  induction ws as [|x ws IH]; intros s w H.
  - destruct (skip_space_spec s) as [a [H1 [H2 H3]]]. exists a, (skip_space s). split; [exact H1|].
    split; [exact H2|]. split; [exact H3|]. rewrite <- (words_skip a (skip_space s) H2), <- H1. exact H.
  - cbn [app] in H. destruct (words_cons s x (ws ++ w) H) as [sp [r [H1 [H2 [H3 [H4 [H5 _]]]]]]].
    destruct (IH r w H5) as [a [r' [G1 [G2 [G3 G4]]]]]. exists (sp ++ x ++ a), r'.
    split; [rewrite H1, G1, <- !app_assoc; reflexivity|]. split; [|split; [exact G3|exact G4]].
    rewrite !letters_app, H2, (plain_letters x H3), G2. reflexivity.
Qed.

Lemma contains_words : forall line lst w, no_zero line -> no_zero lst -> words line = words lst ++ w ->
  exists r, contains_word_list line lst = Some (Some r) /\ words r = w.
Proof.
  intros line lst w Hl Hq H. destruct (words_prefix (words lst) line w H) as [a [r [H1 [H2 [H3 H4]]]]].
  exists r. split; [|exact H4]. apply contains_iff; [exact Hl|exact Hq|]. split; [|exact H3].
  exists a. split; [exact H1|]. rewrite H2. apply (words_letters (length lst)). lia.
Qed.

(** *** remove_extra_whitespace *)

Lemma join_cons : forall sep w ws, ws <> [] -> join sep (w :: ws) = w ++ sep ++ join sep ws.
Proof. intros sep w [|x ws] H; [congruence|reflexivity]. Qed.

Lemma words_from_not_nil : forall s w, w <> [] -> words_from w s <> [].
Proof. intros s w Hw. destruct (words_from_cons s w Hw) as [x [r [_ [_ [H _]]]]]. rewrite H. discriminate. Qed.

Lemma squeeze_spec : forall s,
  (forall out, exists t, squeeze s true out = out ++ join [blank] (words s) ++ t /\ (t = [] \/ t = [blank]) /\ (words s = [] -> t = [])) /\
  (forall w out, w <> [] -> exists t, squeeze s false (out ++ w) = out ++ join [blank] (words_from w s) ++ t /\ (t = [] \/ t = [blank])).
Proof.
  induction s as [|c s [IH1 IH2]].
  - split; intros.
    + exists []. cbn. rewrite app_nil_r. split; [reflexivity|]. split; [left; reflexivity|intros; reflexivity].
    + exists []. cbn [squeeze words_from]. rewrite (flush_some w H). cbn [join]. rewrite app_nil_r. split; [reflexivity|left; reflexivity].
  - split.
    + intros out. cbn [squeeze]. unfold words. cbn [words_from]. destruct (isspace c) eqn:E; cbn [negb].
      * cbn [flush app]. apply IH1.
      * cbn [app]. destruct (IH2 [c] out) as [t [H1 H2]]; [discriminate|]. exists t. split; [exact H1|]. split; [exact H2|].
        intros H. exfalso. exact (words_from_not_nil s [c] ltac:(discriminate) H).
    + intros w out Hw. cbn [squeeze words_from]. destruct (isspace c) eqn:E; cbn [negb].
      * rewrite (flush_some w Hw). cbn [app]. destruct (IH1 ((out ++ w) ++ [blank])) as [t [H1 [H2 H3]]].
        fold (words s). destruct (words s) as [|x ws] eqn:Ew.
        -- rewrite (H3 eq_refl) in H1. exists [blank]. rewrite H1. cbn [join app]. rewrite app_nil_r, <- app_assoc. split; [reflexivity|right; reflexivity].
        -- exists t. rewrite H1, (join_cons _ w (x :: ws)) by discriminate. rewrite <- !app_assoc. split; [reflexivity|exact H2].
      * destruct (IH2 (w ++ [c]) out) as [t [H1 H2]]; [destruct w; discriminate|]. exists t. split; [|exact H2].
        rewrite <- app_assoc. exact H1.
Qed.

Lemma join_last : forall ws, Forall (fun w => plain w /\ w <> []) ws -> ws <> [] ->
  exists J c, join [blank] ws = J ++ [c] /\ isspace c = false.
Proof.
  induction ws as [|w ws IH]; intros H Hne; [congruence|]. inversion H as [|? ? [Hp Hw] Hws]; subst.
  destruct ws as [|x ws].
  - cbn [join]. destruct (exists_last Hw) as [w' [c E]]. exists w', c. split; [exact E|].
    unfold plain in Hp. rewrite Forall_forall in Hp. apply Hp. rewrite E. apply in_app_iff. right. left. reflexivity.
  - destruct IH as [J [c [E Hc]]]; [exact Hws|discriminate|]. exists (w ++ [blank] ++ J), c. split; [|exact Hc].
    rewrite join_cons by discriminate. rewrite E, <- !app_assoc. reflexivity.
Qed.

Lemma remove_extra_spec : forall s, remove_extra_whitespace s = join [blank] (words s).
Proof.
  intros s. unfold remove_extra_whitespace. destruct (squeeze_spec s) as [H _]. destruct (H []) as [t [H1 [H2 H3]]].
  rewrite H1. cbn [app]. destruct (words s) as [|x ws] eqn:E.
  - rewrite (H3 eq_refl). reflexivity.
  - destruct (join_last (words s)) as [J [c [HJ Hc]]]; [apply (words_good (length s)); lia|rewrite E; discriminate|].
    rewrite E in HJ. rewrite HJ.
    assert (Hb : (c =? blank)%Z = false) by (apply Z.eqb_neq; intros ->; discriminate Hc).
    destruct H2 as [->| ->].
    + rewrite app_nil_r, last_last, Hb, andb_false_r. reflexivity.
    + rewrite last_last, removelast_last, Z.eqb_refl. destruct ((0 <? length ((J ++ [c]) ++ [blank]))) eqn:E0; [reflexivity|].
      apply Nat.ltb_ge in E0. rewrite !app_length in E0. cbn [length] in E0. lia.
Qed.

Lemma remove_all_spec : forall s, remove_all_whitespace s = concat (words s).
Proof.
  intros s. rewrite (words_letters (length s)) by lia. induction s as [|c s IH]; [reflexivity|].
  cbn [remove_all_whitespace]. unfold letters. cbn [filter]. destruct (isspace c); cbn [negb]; [exact IH|f_equal; exact IH].
Qed.

(** *** Lines *)

Definition one_line (l : text) : Prop := ~ In newline l.

Lemma lines_cases : forall s,
  (one_line s /\ lines s = [s]) \/ (exists l s', s = l ++ newline :: s' /\ one_line l /\ lines s = l :: lines s').
Proof.
  induction s as [|c s IH]; [left; split; [intros []|reflexivity]|]. cbn [lines]. destruct (c =? newline)%Z eqn:E.
  - apply Z.eqb_eq in E. subst c. right. exists [], s. split; [reflexivity|]. split; [intros []|reflexivity].
  - apply Z.eqb_neq in E. destruct IH as [[H1 H2]|[l [s' [H1 [H2 H3]]]]].
    + left. rewrite H2. split; [|reflexivity]. intros [Hc|Hin]; [congruence|exact (H1 Hin)].
    + right. exists (c :: l), s'. rewrite H3. split; [cbn [app]; congruence|]. split; [|reflexivity].
      intros [Hc|Hin]; [congruence|exact (H2 Hin)].
Qed.

Lemma occurs_nth : forall s (c : Z) i, occurs s [c] i -> nth_error s i = Some c.
Proof. intros s c i [a [b [-> <-]]]. rewrite nth_error_app2, Nat.sub_diag by lia. reflexivity. Qed.

Lemma find_newline_none : forall d x, one_line x -> find (d ++ x) [newline] (length d) = None.
Proof.
  intros d x Hx. destruct (find (d ++ x) [newline] (length d)) as [k|] eqn:E; [|reflexivity].
  apply find_spec in E. destruct E as [H1 [H2 _]]. apply occurs_nth in H1. rewrite nth_error_app2 in H1 by lia.
  exfalso. apply Hx. apply (nth_error_In _ _ H1).
Qed.

Lemma find_newline_some : forall d l s, one_line l -> find (d ++ l ++ newline :: s) [newline] (length d) = Some (length d + length l).
Proof.
  intros d l s Hl. apply find_spec. split.
  - exists (d ++ l), s. split; [rewrite <- app_assoc; reflexivity|apply app_length].
  - split; [lia|]. intros j Ha Hb Hc. apply occurs_nth in Hc. rewrite nth_error_app2 in Hc by lia.
    rewrite nth_error_app1 in Hc by lia. apply Hl. apply (nth_error_In _ _ Hc).
Qed.

Lemma firstn_exact : forall {A : Type} (a b : list A), firstn (length a) (a ++ b) = a.
Proof. intros. rewrite firstn_app, firstn_all, Nat.sub_diag. apply app_nil_r. Qed.
Lemma skipn_exact : forall {A : Type} (a b : list A), skipn (length a) (a ++ b) = b.
Proof. intros. rewrite skipn_app, skipn_all, Nat.sub_diag. reflexivity. Qed.

Lemma comment_one_line : forall l, one_line l -> one_line (comment ++ l).
Proof. intros l H Hin. apply in_app_iff in Hin. destruct Hin as [Hin|Hin]; [|exact (H Hin)]. cbn in Hin. unfold newline in Hin. intuition lia. Qed.

Lemma comment_loop_spec : forall n s d, length s + 2 <= n ->
  comment_loop n (d ++ comment ++ s) (length d) = Some (d ++ join [newline] (map (app comment) (lines s))).
Proof.
  induction n as [|n IH]; intros s d Hn; [lia|].
  change (comment_loop (S n) (d ++ comment ++ s) (length d)) with
    (if length d <? length (d ++ comment ++ s) then
        match find (d ++ comment ++ s) [newline] (length d) with
        | None => Some (d ++ comment ++ s)
        | Some k => comment_loop n (firstn (k + 1) (d ++ comment ++ s) ++ comment ++ skipn (k + 1) (d ++ comment ++ s)) (k + 1)
        end
      else Some (d ++ comment ++ s)).
  replace (length d <? length (d ++ comment ++ s)) with true
    by (symmetry; apply Nat.ltb_lt; rewrite !app_length; change (length comment) with 6; lia).
  destruct (lines_cases s) as [[H1 H2]|[l [s' [H1 [H2 H3]]]]].
  - rewrite find_newline_none by (apply comment_one_line; exact H1). rewrite H2. reflexivity.
  - rewrite H1 at 1. rewrite (app_assoc comment l), find_newline_some by (apply comment_one_line; exact H2).
    assert (E : d ++ comment ++ s = (d ++ (comment ++ l) ++ [newline]) ++ s') by (rewrite H1, <- !app_assoc; reflexivity).
    assert (L : length d + length (comment ++ l) + 1 = length (d ++ (comment ++ l) ++ [newline])) by (rewrite !app_length; cbn [length]; lia).
    rewrite E, L, firstn_exact, skipn_exact, IH.
    + rewrite H3. cbn [map]. rewrite join_cons.
      * rewrite <- !app_assoc. reflexivity.
      * destruct (lines_cases s') as [[_ G]|[? [? [_ [_ G]]]]]; rewrite G; discriminate.
    + rewrite H1, app_length in Hn. cbn [length] in Hn. lia.
Qed.

Lemma comment_string_spec : forall s, comment_string s = Some (join [newline] (map (app comment) (lines s))).
Proof. intros s. unfold comment_string. apply (comment_loop_spec (length s + 2) s []). lia. Qed.

Lemma initial_app_newline : forall l, one_line l -> remove_initial_whitespace (l ++ [newline]) = remove_initial_whitespace l ++ [newline].
Proof.
  induction l as [|c l IH]; intros H; [reflexivity|]. cbn [app remove_initial_whitespace]. destruct (istab c); [|reflexivity].
  apply IH. intros Hin. apply H. right. exact Hin.
Qed.

Lemma count_initial : forall c l, istab c = false -> count_of c (remove_initial_whitespace l) = count_of c l.
Proof.
  intros c. induction l as [|x l IH]; intros Hc; [reflexivity|]. cbn [remove_initial_whitespace]. destruct (istab x) eqn:E; [|reflexivity].
  rewrite IH by exact Hc. unfold count_of. cbn [filter]. destruct (Z.eqb_spec c x) as [->|]; [congruence|reflexivity].
Qed.

Lemma count_app_newline : forall c l, (c =? newline)%Z = false -> count_of c (l ++ [newline]) = count_of c l.
Proof. intros c l H. unfold count_of. rewrite filter_app. cbn [filter]. rewrite H, app_nil_r. reflexivity. Qed.

Lemma indent_loop_spec : forall n t p res lev i, length t + 2 <= n -> i < length (p ++ t) ->
  indent_loop n (p ++ t) res lev (length p) i = Some (res ++ join [newline] (indent_lines (depths lev (lines t)) (lines t))).
Proof.
  induction n as [|n IH]; intros t p res lev i Hn Hi; [lia|]. cbn [indent_loop].
  replace (i <? length (p ++ t)) with true by (symmetry; apply Nat.ltb_lt; exact Hi). cbv zeta.
  destruct (lines_cases t) as [[H1 H2]|[l [t' [H1 [H2 H3]]]]].
  - rewrite find_newline_none by exact H1. rewrite skipn_exact, H2. cbn [depths indent_lines join]. unfold indent_line.
    rewrite count_initial by reflexivity. reflexivity.
  - subst t. rewrite find_newline_some by exact H2. rewrite skipn_exact, H3.
    replace (length p + length l - length p + 1) with (length (l ++ [newline])) by (rewrite app_length; cbn [length]; lia).
    replace (l ++ newline :: t') with ((l ++ [newline]) ++ t') by (rewrite <- app_assoc; reflexivity).
    rewrite firstn_exact. rewrite (initial_app_newline l H2).
    rewrite !count_app_newline by reflexivity. rewrite !count_initial by reflexivity.
    replace (p ++ (l ++ [newline]) ++ t') with ((p ++ l ++ [newline]) ++ t') by (rewrite <- !app_assoc; reflexivity).
    replace (length p + length l + 1) with (length (p ++ l ++ [newline])) by (rewrite !app_length; cbn [length]; lia).
    rewrite IH.
    + cbn [depths indent_lines]. rewrite join_cons.
      * unfold indent_line. rewrite <- !app_assoc. reflexivity.
      * destruct (lines_cases t') as [[_ G]|[? [? [_ [_ G]]]]]; rewrite G; discriminate.
    + rewrite app_length in Hn. cbn [length] in Hn. lia.
    + rewrite !app_length. cbn [length]. lia.
Qed.

Lemma indent_string_spec : forall s, indent_string s = Some (join [newline] (indent_lines (depths 0 (lines s)) (lines s))).
Proof.
  intros [|c s]; [reflexivity|]. unfold indent_string. apply (indent_loop_spec (length (c :: s) + 2) (c :: s) []); cbn [app length]; lia.
Qed.

Lemma lines_join : forall s, join [newline] (lines s) = s.
Proof.
  induction s as [|c s IH]; [reflexivity|]. cbn [lines].
  assert (Hne : lines s <> []) by (destruct (lines_cases s) as [[_ G]|[? [? [_ [_ G]]]]]; rewrite G; discriminate).
  destruct (c =? newline)%Z eqn:E.
  - apply Z.eqb_eq in E. subst c. rewrite join_cons by exact Hne. cbn [app]. rewrite IH. reflexivity.
  - destruct (lines s) as [|l ls]; [congruence|]. destruct ls as [|l' ls].
    + cbn [join] in *. congruence.
    + rewrite join_cons in * by discriminate. cbn [app]. f_equal. exact IH.
Qed.

Lemma clean_name_spec : forall s, length (clean_name s) = length s /\ Forall (fun c => isword c = true) (clean_name s) /\
  (Forall (fun c => isword c = true) s -> clean_name s = s).
Proof.
  intros s. split; [apply map_length|]. split.
  - apply Forall_map. apply Forall_forall. intros c _. unfold clean_char. destruct (isword c) eqn:E; [exact E|].
    repeat match goal with |- context [if ?b then _ else _] => destruct b; [reflexivity|] end. reflexivity.
  - intros H. unfold clean_name. rewrite <- (map_id s) at 2. apply map_ext_in. intros c Hc. rewrite Forall_forall in H.
    unfold clean_char. rewrite (H c Hc). reflexivity.
Qed.
