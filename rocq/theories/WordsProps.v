(** C37: word matching helpers of the preprocessor. *)
From Coq Require Import String.
From Verif Require Import Common SrcbufModel WordsModel WordsSpec WordsProofs1 WordsProofs2 WordsProofs3 CmdargsModel.
Open Scope nat_scope.
Open Scope list_scope.

(** What counts as a character of a word and as white space. *)
Theorem C37_characters : forall c,
  (isword c = true <-> (48 <= c <= 57)%Z \/ (65 <= c <= 90)%Z \/ (97 <= c <= 122)%Z \/ c = 95%Z) /\
  (isspace c = true <-> c = 32%Z \/ (9 <= c <= 13)%Z).
Proof.
  intros c. unfold isword, isalnum, isalpha, isdigit, isspace.
  rewrite !orb_true_iff, !andb_true_iff, !Z.leb_le, !Z.eqb_eq. lia.
Qed.
Print Assumptions C37_characters.

(** find_word returns the nearest occurrence if no letter, digit or underscore stands before it, and
    none behind it - but if exactly one character follows it is accepted whatever that is. *)
Theorem C37_find_word : forall s p pos reverse i, (Z.of_nat (List.length s) < 2 ^ 31)%Z ->
  (find_word s p pos reverse = Some i <->
   (nearest s p pos reverse i /\ word_starts s i /\ (word_ends s (i + List.length p) \/ i + List.length p + 1 = List.length s))).
Proof. exact find_word_spec. Qed.
Print Assumptions C37_find_word.

Theorem C37_find_word_refuted :
  ~ (forall s p pos reverse i, (Z.of_nat (List.length s) < 2 ^ 31)%Z -> find_word s p pos reverse = Some i -> whole_word s p i).
Proof.
  intros H. destruct (H (str "x1") (str "x") 0 false 0) as [_ [_ He]]; [reflexivity|reflexivity|].
  specialize (He (str "x") 49%Z [] eq_refl eq_refl). discriminate He.
Qed.
Print Assumptions C37_find_word_refuted.

(** A whole word behind an occurrence inside a longer word is not found. *)
Theorem C37_find_first_refuted :
  ~ (forall s p i, (Z.of_nat (List.length s) < 2 ^ 31)%Z -> whole_word s p i -> find_word s p 0 false <> None).
Proof.
  intros H. apply (H (str "ab, b") (str "b") 4); [reflexivity| |reflexivity]. split; [|split].
  - exists (str "ab, "), []. split; reflexivity.
  - intros a c b E L. apply (f_equal (fun l => nth 3 l 0%Z)) in E. rewrite app_nth2 in E by lia.
    replace (3 - List.length a) with 0 in E by lia. cbn [nth] in E. rewrite <- E. reflexivity.
  - intros a c b E L. apply (f_equal (@List.length Z)) in E. rewrite app_length in E. cbn in E, L. lia.
Qed.
Print Assumptions C37_find_first_refuted.

Example C37_find_word_example :
  find_word (str "Field<double> f(double)") (str "double") 8 false = Some 16 /\
  find_word (str "Field<double> f(double)") (str "double") 15 true = Some 6 /\
  find_word (str "Field<double2> f") (str "double") 0 false = None /\
  nearest (str "Field<double> f(double)") (str "double") 8 false 16.
Proof.
  split; [reflexivity|]. split; [reflexivity|]. split; [reflexivity|].
  apply (C37_find_word (str "Field<double> f(double)") (str "double") 8 false 16); reflexivity.
Qed.

(** contains_word_list ignores white space everywhere: it accepts a line exactly if the letters of
    the list are the first letters of the line; the remainder is the line behind them without the
    blanks in front. *)
Theorem C37_contains : forall line lst, no_zero line -> no_zero lst ->
  (forall r, contains_word_list line lst = Some (Some r) <->
     ((exists a, line = a ++ r /\ letters a = letters lst) /\ no_space_first r)) /\
  (contains_word_list line lst = Some None <-> ~ exists t, letters line = letters lst ++ t).
Proof.
  intros line lst Hl Hq. split; [intros r; apply contains_iff; assumption|].
  destruct (contains_some line lst Hl Hq) as [[r Hr]|[H1 H2]].
  - rewrite Hr. split; [discriminate|]. intros H. exfalso. apply H. apply contains_iff in Hr; [|exact Hl|exact Hq].
    destruct Hr as [[a [E1 E2]] _]. exists (letters r). rewrite E1, letters_app, E2. reflexivity.
  - split; [intros _; exact H2|intros _; exact H1].
Qed.
Print Assumptions C37_contains.

(** A line that starts with the listed words is accepted and the remainder has the other words. *)
Theorem C37_contains_words : forall line lst w, no_zero line -> no_zero lst -> words line = words lst ++ w ->
  exists r, contains_word_list line lst = Some (Some r) /\ words r = w.
Proof. exact contains_words. Qed.
Print Assumptions C37_contains_words.

(** The converse fails twice: words run together, and a longer last word. *)
Theorem C37_contains_refuted :
  ~ (forall line lst r, no_zero line -> no_zero lst -> contains_word_list line lst = Some (Some r) ->
       words line = words lst ++ words r) /\
  (exists line, contains_word_list line (str "pragma hila") = Some (Some (str "skip")) /\ words line = [str "pragmahila"; str "skip"]) /\
  (exists line, contains_word_list line (str "skip") = Some (Some (str "per")) /\ words line = [str "skipper"]).
Proof.
  split; [|split].
  - intros H. assert (E : words (str "skipper") = words (str "skip") ++ words (str "per")).
    + apply H; [intros Hin; cbn in Hin; intuition discriminate|intros Hin; cbn in Hin; intuition discriminate|reflexivity].
    + vm_compute in E. discriminate E.
  - exists (str "pragmahila skip"). split; reflexivity.
  - exists (str "skipper"). split; reflexivity.
Qed.
Print Assumptions C37_contains_refuted.

Example C37_contains_example :
  contains_word_list (str " pragma   hila novector") (str "pragma hila") = Some (Some (str "novector")) /\
  contains_word_list (str "pragma omp parallel") (str "pragma hila") = Some None /\
  words (str " pragma   hila novector") = words (str "pragma hila") ++ [str "novector"].
Proof. repeat split. Qed.

(** White space: the words separated by single blanks, or by nothing. *)
Theorem C37_whitespace : forall s,
  remove_extra_whitespace s = join [blank] (words s) /\ remove_all_whitespace s = concat (words s).
Proof. intros s. split; [apply remove_extra_spec|apply remove_all_spec]. Qed.
Print Assumptions C37_whitespace.

(** A commented or indented text has the lines of the original, each behind the comment mark, or
    with two blanks for each open brace in place of the blanks and tabs that it began with. *)
Theorem C37_lines : forall s,
  comment_string s = Some (join [newline] (map (app comment) (lines s))) /\
  indent_string s = Some (join [newline] (indent_lines (depths 0 (lines s)) (lines s))) /\
  join [newline] (lines s) = s.
Proof. intros s. split; [apply comment_string_spec|]. split; [apply indent_string_spec|apply lines_join]. Qed.
Print Assumptions C37_lines.

Example C37_lines_example :
  indent_string (str "{" ++ [newline] ++ str "a;" ++ [newline] ++ str "   } b") =
    Some (str "{" ++ [newline] ++ str "  a;" ++ [newline] ++ str "} b") /\
  comment_string (str "a" ++ [newline] ++ str "b") = Some (str "//--  a" ++ [newline] ++ str "//--  b") /\
  remove_extra_whitespace (str "  const   double x ") = str "const double x".
Proof. repeat split. Qed.

(** A cleaned name is a C++ name as far as its characters go; names stay as they are. *)
Theorem C37_clean_name : forall s,
  List.length (clean_name s) = List.length s /\ Forall (fun c => isword c = true) (clean_name s) /\
  (Forall (fun c => isword c = true) s -> clean_name s = s).
Proof. exact clean_name_spec. Qed.
Print Assumptions C37_clean_name.

(** Different expressions can get the same name. *)
Theorem C37_clean_name_refuted : ~ (forall s t, clean_name s = clean_name t -> s = t).
Proof. intros H. specialize (H (str "a.b") (str "a_b") eq_refl). discriminate H. Qed.
Print Assumptions C37_clean_name_refuted.

(** remove_X takes off X, and a plus sign behind it, and nothing else; the plus sign may stay if the
    text has superfluous white space. *)
Theorem C37_remove_X : forall s,
  (char_at (letters s) <> 88%Z -> remove_X s = (remove_extra_whitespace s, false)) /\
  (forall d, letters s = 88%Z :: d ->
     snd (remove_X s) = true /\
     (letters (fst (remove_X s)) = d \/ (char_at d = 43%Z /\ letters (fst (remove_X s)) = tl d)) /\
     (remove_extra_whitespace s = s -> char_at d = 43%Z -> letters (fst (remove_X s)) = tl d)).
Proof. exact remove_X_spec. Qed.
Print Assumptions C37_remove_X.

Theorem C37_remove_X_refuted :
  ~ (forall s d, letters s = str "X+" ++ d -> letters (fst (remove_X s)) = d).
Proof. intros H. specialize (H (str " X+d") (str "d") eq_refl). discriminate H. Qed.
Print Assumptions C37_remove_X_refuted.

Example C37_remove_X_example :
  remove_X (str "X + e_x") = (str "e_x", true) /\ remove_X (str "X - e_x") = (str "- e_x", true) /\
  remove_X (str "dir") = (str "dir", false) /\ remove_X (str "X  + e_x") = (str "+ e_x", true).
Proof. repeat split. Qed.
