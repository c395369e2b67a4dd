(** Replacing names, item by item. *)
From Verif Require Import Common SrcbufModel WordsModel TokensModel TokensSpec.
Open Scope nat_scope.

Lemma same_text_eq a : forall b, same_text a b = true <-> a = b.
Proof.
  induction a as [|x a IH]; intros [|y b]; simpl; split; try easy.
  - intros H. apply andb_true_iff in H as [H1 H2]. apply Z.eqb_eq in H1. apply IH in H2. now subst.
  - intros [= -> ->]. rewrite Z.eqb_refl. simpl. now apply IH.
Qed.

Lemma substitute_ok ab w : let '(x, k) := substitute ab w in renamed ab w x k.
Proof.
  enough (H : forall l1, ~ In w (map fst l1) -> let '(x, k) := substitute ab w in renamed (l1 ++ ab) w x k)
    by exact (H [] (fun F => F)).
  induction ab as [|[a b] ab IH]; intros l1 H; simpl.
  - apply renamed_not. now rewrite app_nil_r.
  - destruct (same_text w a) eqn:E.
    + apply same_text_eq in E as <-. now apply renamed_to with l1 ab.
    + specialize (IH (l1 ++ [(a, b)])). rewrite <- app_assoc in IH. apply IH.
      rewrite map_app, in_app_iff. simpl. intros [F|[F|[]]]; [easy|].
      subst. assert (same_text w w = true) by now apply same_text_eq. congruence.
Qed.

Lemma take_name_app w rest : Forall name_char w -> (forall c r, rest = c :: r -> isword c = false) ->
  take_name (w ++ rest) = (w, rest).
Proof.
  intros H R. induction H as [|c w Hc H IH]; simpl.
  - destruct rest as [|c r]; [easy|]. simpl. now rewrite (R c r eq_refl).
  - unfold name_char in Hc. now rewrite Hc, IH.
Qed.

Lemma take_line_app w rest : ~ In 10%Z w -> (rest = [] \/ exists r, rest = 10%Z :: r) ->
  take_line (w ++ rest) = (w, rest).
Proof.
  intros H R. induction w as [|c w IH]; simpl.
  - destruct R as [->|[r ->]]; easy.
  - destruct (c =? 10)%Z eqn:E.
    + apply Z.eqb_eq in E. exfalso. apply H. now left.
    + rewrite IH; [easy|]. intros F. apply H. now right.
Qed.

Lemma take_comment_app w rest : (forall u v, w <> u ++ [42%Z; 47%Z] ++ v) ->
  take_comment (w ++ [42%Z; 47%Z] ++ rest) = Some (w ++ [42%Z; 47%Z], rest).
Proof.
  induction w as [|c w IH]; intros H; [easy|].
  change (take_comment ((c :: w) ++ [42%Z; 47%Z] ++ rest)) with
    (if (c =? 42)%Z && (char_at (w ++ [42%Z; 47%Z] ++ rest) =? 47)%Z && negb (length (w ++ [42%Z; 47%Z] ++ rest) =? 0)
     then Some ([c; 47%Z], tl (w ++ [42%Z; 47%Z] ++ rest))
     else do wr <- take_comment (w ++ [42%Z; 47%Z] ++ rest); Some (c :: fst wr, snd wr)).
  replace ((c =? 42)%Z && (char_at (w ++ [42%Z; 47%Z] ++ rest) =? 47)%Z) with false.
  - cbn [andb]. rewrite IH; [easy|]. intros u v E. apply (H (c :: u) v). now rewrite E.
  - symmetry. apply andb_false_iff. destruct (c =? 42)%Z eqn:E1; [right|now left].
    apply Z.eqb_eq in E1. destruct w as [|d w]; [easy|]. simpl.
    apply Z.eqb_neq. intros ->. apply (H [] w). now subst.
Qed.

Definition string_text (w : list (bool * Z)) : text := concat (map (fun ec => escape (fst ec) (snd ec)) w).
Lemma take_string_app w rest : (forall c, In (false, c) w -> c <> 34%Z /\ c <> 92%Z) ->
  take_string false (string_text w ++ [34%Z] ++ rest) = (string_text w ++ [34%Z], rest).
Proof.
  induction w as [|[e c] w IH]; intros H; [easy|].
  assert (IH' := IH (fun d F => H d (or_intror F))). clear IH.
  change (string_text ((e, c) :: w)) with (escape e c ++ string_text w). rewrite <- !app_assoc.
  destruct e.
  - change (take_string false (escape true c ++ string_text w ++ [34%Z] ++ rest)) with
      (let '(w', r) := (let '(w', r) := take_string false (string_text w ++ [34%Z] ++ rest) in (c :: w', r)) in (92%Z :: w', r)).
    now rewrite IH'.
  - destruct (H c (or_introl eq_refl)) as [H1 H2].
    change (take_string false (escape false c ++ string_text w ++ [34%Z] ++ rest)) with
      (if (c =? 34)%Z then ([c], string_text w ++ [34%Z] ++ rest)
       else let '(w', r) := take_string (c =? 92)%Z (string_text w ++ [34%Z] ++ rest) in (c :: w', r)).
    apply Z.eqb_neq in H1, H2. now rewrite H1, H2, IH'.
Qed.

Lemma digit_range c : isdigit c = true -> (48 <= c <= 57)%Z.
Proof. unfold isdigit. intros H. apply andb_true_iff in H as [H1 H2]. apply Z.leb_le in H1, H2. lia. Qed.

Lemma digit_no_name c : isdigit c = true -> starts_name c = false.
Proof.
  intros H. apply digit_range in H. unfold starts_name, isalpha.
  rewrite (proj2 (Z.leb_gt 65 c)), (proj2 (Z.leb_gt 97 c)), (proj2 (Z.eqb_neq c 95)) by lia. easy.
Qed.

Lemma skip_digit post c t : isdigit c = true -> skip_round post c t = Some ([c], t).
Proof.
  intros H. apply digit_range in H. unfold skip_round.
  rewrite (proj2 (Z.eqb_neq c 47)), (proj2 (Z.eqb_neq c 35)), (proj2 (Z.eqb_neq c 34)), (proj2 (Z.eqb_neq c 39)) by lia.
  easy.
Qed.

Lemma no_word_no_name c : isword c = false -> starts_name c = false.
Proof.
  unfold isword, isalnum, starts_name. intros H. apply orb_false_iff in H as [H1 H2].
  apply orb_false_iff in H1 as [_ H1]. now rewrite H1, H2.
Qed.

Section Loop.
Variables (ab : list (text * text)) (post : text).

(** The loop on the text l, with enough fuel, gives x and k. *)
Definition gives (l x : text) (k : nat) : Prop :=
  forall n, length l < n -> replace_loop n ab post l = Some (x, k).

Lemma gives_nil : gives [] [] 0.
Proof. intros [|n] H; [easy|]. reflexivity. Qed.

Lemma gives_skip c t w r x k : starts_name c = false -> skip_round post c t = Some (w, r) -> c :: t = w ++ r -> w <> [] ->
  gives r x k -> gives (c :: t) (w ++ x) k.
Proof.
  intros H1 H2 H3 H4 H [|n] L; [easy|]. cbn [replace_loop]. rewrite H1, H2. cbn [bind snd fst].
  rewrite (H n); [easy|]. rewrite H3, app_length in L. destruct w; [easy|]. simpl in L. lia.
Qed.

Lemma gives_name c w r x k x' k' : starts_name c = true -> take_name (c :: w ++ r) = (c :: w, r) ->
  substitute ab (c :: w) = (x, k) -> gives r x' k' -> gives (c :: w ++ r) (x ++ x') (k + k').
Proof.
  intros H1 H2 H3 H [|n] L; [easy|]. cbn [replace_loop]. rewrite H1, H2, H3.
  rewrite (H n); [easy|]. simpl in L. rewrite app_length in L. lia.
Qed.

Lemma gives_number w r x k : Forall (fun c => isdigit c = true) w -> gives r x k -> gives (w ++ r) (w ++ x) k.
Proof.
  intros H G. induction H as [|c w Hc H IH]; [easy|].
  apply (gives_skip c (w ++ r) [c] (w ++ r) (w ++ x) k); try easy.
  - now apply digit_no_name.
  - now apply skip_digit.
Qed.

Lemma gives_item i r x k : (forall w, i <> Name w) -> item_ok i r -> plain i -> gives r x k ->
  gives (item_text i ++ r) (item_text i ++ x) k.
Proof.
  intros N H P G. destruct i as [w|w|w|w|w|w|e c|c]; simpl in H, P.
  - now destruct (N w).
  - now apply gives_number.
  - destruct H as [H R].
    apply (gives_skip 47%Z (47%Z :: w ++ r) (item_text (Line w)) r x k); try easy.
    unfold skip_round. change (47%Z :: w ++ r) with ((47%Z :: w) ++ r). rewrite take_line_app; [easy| |easy].
    intros [F|F]; easy.
  - destruct H as [H R].
    apply (gives_skip 35%Z (w ++ r) (item_text (Directive w)) r x k); try easy.
    unfold skip_round. cbn [Z.eqb andb Pos.eqb]. now rewrite take_line_app.
  - cbn [item_text]. rewrite <- !app_assoc.
    change ([47%Z; 42%Z] ++ w ++ [42%Z; 47%Z] ++ r) with (47%Z :: (42%Z :: w) ++ [42%Z; 47%Z] ++ r).
    change ([47%Z; 42%Z] ++ w ++ [42%Z; 47%Z] ++ x) with ((47%Z :: 42%Z :: w) ++ [42%Z; 47%Z] ++ x).
    rewrite (app_assoc (47%Z :: 42%Z :: w) [42%Z; 47%Z] x).
    apply (gives_skip 47%Z ((42%Z :: w) ++ [42%Z; 47%Z] ++ r) ((47%Z :: 42%Z :: w) ++ [42%Z; 47%Z]) r x k); try easy.
    + change (skip_round post 47%Z ((42%Z :: w) ++ [42%Z; 47%Z] ++ r)) with
        (do wr <- take_comment (((42%Z :: w) ++ [42%Z; 47%Z] ++ r) ++ post);
         Some (take (S (length (fst wr))) (47%Z :: (42%Z :: w) ++ [42%Z; 47%Z] ++ r))).
      rewrite <- !app_assoc, take_comment_app.
      { cbn [bind fst snd]. f_equal. unfold take. rewrite app_assoc.
        change (S (length ((42%Z :: w) ++ [42%Z; 47%Z]))) with (length (47%Z :: (42%Z :: w) ++ [42%Z; 47%Z])).
        change (47%Z :: ((42%Z :: w) ++ [42%Z; 47%Z]) ++ r) with ((47%Z :: (42%Z :: w) ++ [42%Z; 47%Z]) ++ r).
        now rewrite firstn_app, skipn_app, Nat.sub_diag, firstn_all, skipn_all, app_nil_r. }
      intros [|d u] v E; simpl in E; injection E.
      * intros E'. now apply (P v).
      * intros E' _. now apply (H u v).
    + simpl. now rewrite <- app_assoc.
  - change (item_text (String w)) with (34%Z :: string_text w ++ [34%Z]).
    apply (gives_skip 34%Z ((string_text w ++ [34%Z]) ++ r) (34%Z :: string_text w ++ [34%Z]) r x k); try easy.
    unfold skip_round. cbn [Z.eqb andb Pos.eqb]. rewrite <- app_assoc. now rewrite take_string_app.
  - destruct e.
    + now apply (gives_skip 39%Z ([92%Z; c; 39%Z] ++ r) [39%Z; 92%Z; c; 39%Z] r x k).
    + destruct (H eq_refl) as [_ H2]. apply Z.eqb_neq in H2.
      apply (gives_skip 39%Z ([c; 39%Z] ++ r) [39%Z; c; 39%Z] r x k); try easy.
      unfold skip_round. cbn [Z.eqb andb Pos.eqb app char_at]. now rewrite H2.
  - destruct H as (H1 & H2 & H3).
    apply (gives_skip c r [c] r x k); try easy; [now apply no_word_no_name|].
    unfold skip_round.
    assert (c <> 34 /\ c <> 35 /\ c <> 39)%Z as (A & B & D).
    { repeat split; intros ->; apply H2; simpl; tauto. }
    apply Z.eqb_neq in A, B, D. rewrite A, B, D.
    destruct (c =? 47)%Z eqn:E; [|easy]. apply Z.eqb_eq in E. destruct r as [|d r]; [easy|].
    destruct (H3 E d r eq_refl) as [F1 F2]. apply Z.eqb_neq in F1, F2. cbn [char_at]. now rewrite F1, F2.
Qed.

Lemma gives_program p : program_ok p -> Forall plain p ->
  exists x k, gives (program_text p) x k /\ program_renamed ab p x k.
Proof.
  induction p as [|i p IH]; intros H P.
  - exists [], 0. split; [exact gives_nil|constructor].
  - destruct H as [Hi H]. inversion_clear P as [|? ? Pi P'].
    destruct (IH H P') as (x & k & G & R). clear IH.
    change (program_text (i :: p)) with (item_text i ++ program_text p).
    assert ((exists w, i = Name w) \/ (forall w, i <> Name w)) as [[w ->]|N].
    { destruct i; try (right; intros ?; discriminate). left. now eexists. }
    + destruct Hi as ((c & w' & -> & Hc & Hd) & Hw & Hr).
      pose proof (substitute_ok ab (c :: w')) as S. destruct (substitute ab (c :: w')) as [y j] eqn:E.
      exists (y ++ x), (j + k). split; [|now constructor].
      apply gives_name; try easy.
      * unfold name_char, isword, isalnum in Hc. rewrite Hd in Hc. exact Hc.
      * now apply (take_name_app (c :: w')).
    + exists (item_text i ++ x), k. split; [now apply gives_item|now constructor].
Qed.
End Loop.

Lemma renamed_substitute ab w x k : renamed ab w x k -> substitute ab w = (x, k).
Proof.
  intros H. destruct H as [l1 w b l2 E N|w N].
  - subst. induction l1 as [|[a c] l1 IH]; simpl.
    + now rewrite (proj2 (same_text_eq w w) eq_refl).
    + simpl in N. destruct (same_text w a) eqn:E; [|tauto].
      apply same_text_eq in E. subst. tauto.
  - induction ab as [|[a c] ab IH]; simpl; [easy|].
    simpl in N. destruct (same_text w a) eqn:E; [|tauto].
    apply same_text_eq in E. subst. tauto.
Qed.

Lemma program_renamed_unique ab p x k : program_renamed ab p x k ->
  forall y m, program_renamed ab p y m -> x = y /\ k = m.
Proof.
  induction 1 as [|w x k p y m R H IH|i p y m N H IH]; intros y' m' H'; inversion H'; subst.
  - easy.
  - apply renamed_substitute in R.
    match goal with Q : renamed _ _ _ _ |- _ => apply renamed_substitute in Q; rewrite R in Q; injection Q as <- <- end.
    match goal with Q : program_renamed _ p _ _ |- _ => destruct (IH _ _ Q) as [<- <-] end. easy.
  - exfalso. match goal with Q : forall w, _ <> _ |- _ => now apply (Q w) end.
  - exfalso. now apply (N w).
  - match goal with Q : program_renamed _ p _ _ |- _ => destruct (IH _ _ Q) as [<- <-] end. easy.
Qed.
