(** Replacing the names of parameters in program text (C54). *)
From Verif Require Import Common SrcbufModel WordsModel TokensModel TokensSpec TokensProofs1.
Open Scope nat_scope.

(** In a range of the buffer the names are replaced, and nothing else: not in comments, directives,
    strings and character constants, and not parts of other names.  This is for numbers without
    letters and comments that do not begin with a slash. *)
Theorem C54_replace : forall ab p pre post, program_ok p -> Forall plain p -> program_text p <> [] ->
  exists x k, replace_tokens ab (length pre) (length pre + length (program_text p) - 1)
      (pre ++ program_text p ++ post) = Some (pre ++ x ++ post, k) /\
    program_renamed ab p x k.
Proof.
  intros ab p pre post H P N. destruct (gives_program ab post p H P) as (x & k & G & R).
  exists x, k. split; [|exact R]. unfold replace_tokens.
  assert (L : 0 < length (program_text p)) by (destruct (program_text p); [easy|simpl; lia]).
  rewrite (proj2 (Nat.leb_le _ _)) by lia.
  rewrite (proj2 (Nat.ltb_lt _ _)) by (rewrite !app_length; lia). cbn [andb].
  replace (S (length pre + length (program_text p) - 1)) with (length pre + length (program_text p)) by lia.
  replace (length pre + length (program_text p) - length pre) with (length (program_text p)) by lia.
  rewrite (skipn_app (length pre)), skipn_all, Nat.sub_diag. cbn [app skipn].
  rewrite (firstn_app (length (program_text p))), firstn_all, Nat.sub_diag, firstn_O, app_nil_r.
  replace (skipn (length pre + length (program_text p)) (pre ++ program_text p ++ post)) with post.
  - rewrite G by lia. cbn [bind fst snd].
    rewrite firstn_app, firstn_all, Nat.sub_diag, firstn_O, app_nil_r. easy.
  - rewrite app_assoc, skipn_app, <- app_length, skipn_all, Nat.sub_diag. easy.
Qed.
Print Assumptions C54_replace.

(** The whole buffer. *)
Theorem C54_replace_all : forall ab p, program_ok p -> Forall plain p -> program_text p <> [] ->
  exists x k, replace_all ab (program_text p) = Some (x, k) /\ program_renamed ab p x k.
Proof.
  intros ab p H P N. destruct (C54_replace ab p [] [] H P N) as (x & k & E & R).
  exists x, k. split; [|exact R]. unfold replace_all. cbn [app length Nat.add] in E.
  now rewrite !app_nil_r in E.
Qed.
Print Assumptions C54_replace_all.

(** What the text with the names replaced is, is determined. *)
Theorem C54_unique : forall ab p x k y m, program_renamed ab p x k -> program_renamed ab p y m -> x = y /\ k = m.
Proof. intros ab p x k y m H. exact (program_renamed_unique ab p x k H y m). Qed.
Print Assumptions C54_unique.

(** A number with letters: the f of 2.0f is replaced, as if it was the name f. *)
Theorem C54_number_refuted : exists ab p x k, program_ok p /\
  program_text p = [50; 46; 48; 102]%Z /\ replace_all ab (program_text p) = Some (x, k) /\
  x = [50; 46; 48; 97]%Z /\ ~ program_renamed ab p x k.
Proof.
  exists [([102%Z], [97%Z])], [Number [50%Z]; Other 46%Z; Number [48%Z; 102%Z]], [50; 46; 48; 97]%Z, 1.
  assert (O : program_ok [Number [50%Z]; Other 46%Z; Number [48%Z; 102%Z]]).
  { simpl. repeat split; try easy; try (eexists _, _; easy); try (repeat constructor); try (now intros c r [= <- _]).
    intros F. simpl in F. intuition discriminate. }
  split; [exact O|]. do 3 (split; [reflexivity|]). intros R.
  assert (R' : program_renamed [([102%Z], [97%Z])] [Number [50%Z]; Other 46%Z; Number [48%Z; 102%Z]]
    ([50%Z] ++ [46%Z] ++ [48%Z; 102%Z] ++ []) 0).
  { apply (pr_other _ (Number [50%Z])); [easy|]. apply (pr_other _ (Other 46%Z)); [easy|].
    apply (pr_other _ (Number [48%Z; 102%Z])); [easy|]. constructor. }
  now destruct (program_renamed_unique _ _ _ _ R _ _ R').
Qed.
Print Assumptions C54_number_refuted.

(** A comment that begins with a slash ends there for the code: / * / f * / has the name f
    replaced. *)
Theorem C54_comment_refuted : exists ab p x k, program_ok p /\
  program_text p = [47; 42; 47; 102; 42; 47]%Z /\ replace_all ab (program_text p) = Some (x, k) /\
  x = [47; 42; 47; 97; 42; 47]%Z /\ ~ program_renamed ab p x k.
Proof.
  exists [([102%Z], [97%Z])], [Comment [47%Z; 102%Z]], [47; 42; 47; 97; 42; 47]%Z, 1.
  assert (O : program_ok [Comment [47%Z; 102%Z]]).
  { simpl. split; [|easy]. intros [|a [|b [|c u]]] v; try easy. }
  split; [exact O|]. do 3 (split; [reflexivity|]). intros R.
  assert (R' : program_renamed [([102%Z], [97%Z])] [Comment [47%Z; 102%Z]]
    ([47; 42; 47; 102; 42; 47]%Z ++ []) 0).
  { apply (pr_other _ (Comment [47%Z; 102%Z])); [easy|]. constructor. }
  now destruct (program_renamed_unique _ _ _ _ R _ _ R').
Qed.
Print Assumptions C54_comment_refuted.

(** The name f, a string with an f and a quote, the character f, the name f2 and a comment f at
    the end of the line, with f replaced by ab. *)
Definition example : list item :=
  [Name [102%Z]; Other 43%Z; String [(false, 102%Z); (true, 34%Z)]; Other 47%Z; Char false 102%Z; Other 42%Z;
   Name [102%Z; 50%Z]; Line [102%Z]].
Example C54_example : program_ok example /\ Forall plain example /\ program_text example <> [] /\
  replace_all [([103%Z], [98%Z]); ([102%Z], [97%Z; 98%Z])] (program_text example) =
    Some ([97%Z; 98%Z] ++ tl (program_text example), 1).
Proof.
  split; [|split; [repeat constructor|split; [discriminate|reflexivity]]].
  simpl. repeat split; try easy; try (eexists _, _; easy); try (repeat constructor); try (now intros d r [= <- _]);
    try (intros F; simpl in F; intuition discriminate);
    try (intros F; simpl in *; intuition (try discriminate; congruence)).
  all: match goal with Q : program_text _ = _ |- _ => injection Q as <- _; discriminate end.
Qed.
