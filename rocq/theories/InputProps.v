(** C80: reading parameter files; C81: parameters given on the command line; C82: choices. *)
From Coq Require Import String.
From Verif Require Import Common SrcbufModel WordsModel WordsProofs1 CmdargsModel DecimalModel InputModel InputSpec
  InputProofs1 InputProofs2 InputProofs3 InputProofs4 InputProofs5 InputProofs6 InputProofs7.
Open Scope list_scope.
Open Scope nat_scope.

Definition newline : text := [10%Z].
Definition int_of (t : text) : option Z := int_value (- 2 ^ 31) (2 ^ 31 - 1) t.
Definition no_number (_ : text) : bool := false.
(** Words and values which are written out. *)
Lemma word_text : forall s, s <> [] -> forallb (fun c => negb (isspace c)) s = true -> word s.
Proof. intros s N H. split; auto. apply Forall_forall. intros c I. rewrite forallb_forall in H. apply H in I. now destruct (isspace c). Qed.
Lemma clean_text : forall s, forallb (fun c => negb (c =? 44)%Z && negb (c =? 34)%Z) s = true -> no_comma_quote s.
Proof. intros s H. apply Forall_forall. intros c I. rewrite forallb_forall in H. apply H in I. apply andb_true_iff in I as [A B]. split; intros ->; discriminate. Qed.
Lemma plain_text : forall s, forallb (fun c => negb (c =? 0)%Z) s = true -> plain s.
Proof. intros s H. apply Forall_forall. intros c I ->. rewrite forallb_forall in H. apply H in I. discriminate. Qed.
Lemma one_word_key : forall s, s <> [] -> forallb (fun c => negb (isspace c) && (negb (c =? 44)%Z && negb (c =? 34)%Z) && negb (c =? 0)%Z && negb (c =? 35)%Z) s = true ->
  good_key [s] s.
Proof.
  intros s N H. rewrite forallb_forall in H.
  assert (W : word s) by (apply word_text; auto; apply forallb_forall; intros c I; apply H in I; now destruct (isspace c)).
  repeat split; try discriminate.
  - replace s with ([] ++ s ++ []) at 2 by apply app_nil_r. constructor; auto; constructor.
  - constructor; [|constructor]. apply clean_text, forallb_forall. intros c I. apply H in I. now destruct (isspace c), (negb (c =? 44)%Z && negb (c =? 34)%Z).
  - apply plain_text, forallb_forall. intros c I. apply H in I. destruct (isspace c), (negb (c =? 44)%Z && negb (c =? 34)%Z), (c =? 0)%Z; auto.
  - intros I. apply H in I. rewrite andb_false_r in I. discriminate.
Qed.
Lemma item_text : forall s, s <> [] -> forallb (fun c => negb (isspace c)) s = true ->
  forallb (fun c => negb (c =? 44)%Z && negb (c =? 34)%Z) s = true -> item s s.
Proof. intros. constructor; [now apply word_text|now apply clean_text]. Qed.

(** Comments, blank lines and indentation have no influence on what a program gets from a file, for all
    programs of calls, all types of values and all parameters of the command line (which come in pairs);
    the program comes to an end of the calls, or it stops because quotes are not closed. *)
Theorem C80_layout : forall (T : Type) (value : text -> option T) number f g first cmd cs,
  significant f = significant g -> match cmd with Some l => Nat.even (length l) = true | None => True end ->
  answers (perform_all value number cs (new_input f first cmd)) = answers (perform_all value number cs (new_input g first cmd)).
Proof.
  intros T value number f g first cmd cs S E. pose proof (perform_all_rel value number cs _ _ (new_eqv f g first cmd S E)) as R.
  destruct (perform_all value number cs (new_input f first cmd)) as [[a x]| | |], (perform_all value number cs (new_input g first cmd)) as [[b y]| | |];
    simpl in R; try contradiction; auto. destruct R as [-> _]. reflexivity.
Qed.
Print Assumptions C80_layout.

Theorem C80_ends : forall (T : Type) (value : text -> option T) number f first cmd cs,
  match cmd with Some l => Nat.even (length l) = true | None => True end ->
  (exists a, answers (perform_all value number cs (new_input f first cmd)) = Ok a) \/
  answers (perform_all value number cs (new_input f first cmd)) = Leave.
Proof.
  intros T value number f first cmd cs E. pose proof (perform_all_rel value number cs _ _ (new_eqv f f first cmd eq_refl E)) as R.
  destruct (perform_all value number cs (new_input f first cmd)) as [[a x]| | |]; simpl in R; try contradiction.
  - left. exists a. reflexivity.
  - right. reflexivity.
Qed.
Print Assumptions C80_ends.

Example C80_layout_example :
  significant (str "# sizes" ++ newline ++ newline ++ str "  nx  8 # x" ++ newline ++ str "ny 4") = significant (str "nx  8 " ++ newline ++ str "ny 4") /\
  answers (perform_all int_of no_number [One (str "nx"); One (str "ny"); One (str "nz")]
    (new_input (str "# sizes" ++ newline ++ newline ++ str "  nx  8 # x" ++ newline ++ str "ny 4") false None)) =
    Ok [Values [8%Z]; Values [4%Z]; Failed].
Proof. split; vm_compute; reflexivity. Qed.

(** A program which asks for the parameters in the order of the file gets their values: single values,
    lists of any length and vectors, also when a list goes on on the next line; a key which is not the
    next one in the file fails, without consequences for the following calls. *)
Theorem C80_file : forall (T : Type) (value : text -> option T) number file first cs ans,
  Forall plain (significant file) -> served value [] cs (significant file) ans [] ->
  answers (perform_all value number cs (new_input file first None)) = Ok ans.
Proof.
  intros T value number file first cs ans P S.
  destruct (servedP value number _ _ _ _ _ S first (new_input file first None)) as (z & E & _); auto.
  - unfold wf. simpl. lia.
  - destruct first; [|split; reflexivity]. split; [reflexivity|]. exists []. auto.
  - rewrite E. reflexivity.
Qed.
Print Assumptions C80_file.

Example C80_file_example :
  let file := str "beta  5" ++ newline ++ str "# the sizes" ++ newline ++ str "lattice size 8, 8 ," ++ newline ++ str "  16" in
  Forall plain (significant file) /\
  served int_of [] [One (str "beta"); One (str "mass"); Many (str "lattice size")] (significant file)
    [Values [5%Z]; Failed; Values [8%Z; 8%Z; 16%Z]] [].
Proof.
  intros file.
  assert (E : significant file = [str "beta  5"] ++ ([str "lattice size 8, 8 ,"; str "16"] ++ [])) by (vm_compute; reflexivity).
  rewrite E. split; [repeat constructor; vm_compute; discriminate|].
  assert (It : forall s v, int_of s = Some v -> s <> [] -> forallb (fun c => negb (isspace c)) s = true ->
    forallb (fun c => negb (c =? 44)%Z && negb (c =? 34)%Z) s = true -> means int_of s v).
  { intros s v Hv N H1 H2. split; auto. exists s. now apply item_text. }
  apply (served_file int_of [] [] (One (str "beta")) _ (str "beta") [str "beta"] [str "5"]).
  - apply one_word_key; [discriminate|reflexivity].
  - split; reflexivity.
  - reflexivity.
  - exists (str "beta"), (str "  "), (str "5"), []. repeat split; try discriminate; try (repeat constructor).
    + apply (begins_last (str "beta") []).
    + apply (listed_last (str "5") []). constructor.
  - constructor; [apply It; try discriminate; vm_compute; reflexivity|constructor].
  - apply (served_absent int_of [] [] (One (str "mass")) _ [str "mass"]).
    + apply one_word_key; [discriminate|reflexivity].
    + intros l r t El [B _]. inversion El; subst l r. inversion B; subst; discriminate.
    + apply (served_file int_of [] [] (Many (str "lattice size")) [] (str "lattice size") [str "lattice"; str "size"] [str "8"; str "8"; str "16"]).
      * repeat split; try discriminate.
        -- apply (spelled_more [] (str "lattice") (str " ") [str "size"] (str "size"));
             [constructor|apply word_text; [discriminate|reflexivity]|discriminate|repeat constructor|discriminate|].
           apply (spelled_last [] (str "size") []); [constructor|apply word_text; [discriminate|reflexivity]|constructor].
        -- repeat constructor; discriminate.
        -- apply plain_text. reflexivity.
        -- intros I. repeat (destruct I as [I|I]; [discriminate|]). destruct I.
      * reflexivity.
      * reflexivity.
      * exists (str "lattice size"), (str " "), (str "8, 8 ,"), [str "16"]. repeat split; try discriminate.
        -- apply (begins_more (str "lattice") (str " ") [str "size"] (str "size") []); [discriminate|repeat constructor|apply (begins_last (str "size") [])].
        -- repeat constructor.
        -- apply (listed_more (str "8") [] (str " ") [str "8"; str "16"] (str "8 ,") [str "16"]); [constructor|repeat constructor|].
           apply (listed_next (str "8") (str " ") [] [str "16"] (str "16") []); [repeat constructor|constructor|].
           apply (listed_last (str "16") []). constructor.
      * repeat (apply Forall2_cons; [apply It; try discriminate; vm_compute; reflexivity|]). apply Forall2_nil.
      * constructor.
Qed.

(** Integers are read exactly, or refused if they are not in the range of the type. *)
Theorem C80_integer : forall lo hi t v, decimal t v ->
  int_value lo hi t = if ((lo <=? v) && (v <=? hi))%Z then Some v else None.
Proof. intros lo hi t v D. rewrite <- (app_nil_r t). now apply int_valueP. Qed.
Print Assumptions C80_integer.
Example C80_integer_example : decimal (str "-512") (-512) /\ int_of (str "-512") = Some (-512)%Z /\ int_of (str "2147483648") = None.
Proof.
  split; [|split; reflexivity]. apply (decimal_minus (str "512")). split; [discriminate|]. repeat constructor; discriminate.
Qed.
(** But everything after the digits is ignored: a program which asks for an integer accepts any text
    that begins with one. *)
Theorem C80_integer_refuted :
  (forall lo hi t v c e, decimal t v -> (lo <= v <= hi)%Z -> ~ (48 <= c <= 57)%Z -> int_value lo hi (t ++ c :: e) = Some v) /\
  ~ (forall t v, int_of t = Some v -> decimal t v).
Proof.
  split.
  - intros lo hi t v c e D R N. rewrite (int_valueP lo hi t v (c :: e) D N).
    replace ((lo <=? v) && (v <=? hi))%Z with true; [reflexivity|]. symmetry. apply andb_true_iff. split; lia.
  - intros H. specialize (H (str "3.7") 3%Z eq_refl). inversion H; subst;
      match goal with D : digits _ |- _ => destruct D as [_ D]; repeat (apply Forall_cons_iff in D as [? D]; try lia) end.
Qed.
Print Assumptions C80_integer_refuted.
Example C80_integer_refuted_example :
  answers (perform_all int_of no_number [One (str "n")] (new_input (str "n 3.7e4x") false None)) = Ok [Values [3%Z]].
Proof. vm_compute. reflexivity. Qed.

(** A complex number is read if there are blanks inside the parentheses ... *)
Theorem C80_complex : forall (T : Type) (value : text -> option T) number file k g0 g1 re b g im g2 e r key ws u v cs,
  significant file = (k ++ g0 ++ str "(" ++ g1 ++ re ++ b ++ [44%Z] ++ g ++ im ++ g2 ++ str ")" ++ e) :: r ->
  Forall plain (significant file) -> good_key ws key -> begins ws k [] -> g0 <> [] -> blanks g0 ->
  g1 <> [] -> blanks g1 -> blanks b -> blanks g -> g2 <> [] -> blanks g2 -> blanks e -> means value re u -> means value im v ->
  forall file2, significant file2 = r ->
  answers (perform_all value number (Pair key :: cs) (new_input file false None)) =
  get l <- answers (perform_all value number cs (new_input file2 false None)); Ok (Values [u; v] :: l).
Proof.
  intros T value number file k g0 g1 re b g im g2 e r key ws u v cs S P (Sk & Nw & _ & Pk & _) B N0 B0 N1 B1 Bb Bg N2 B2 Be Mr Mi file2 S2.
  set (x := new_input file false None). assert (V : view x = significant file) by reflexivity.
  assert (W : wf x) by (unfold wf; apply Nat.le_refl). rewrite S in V, P. apply Forall_cons_iff in P as [P _].
  set (l1 := str "(" ++ g1 ++ re ++ b ++ [44%Z] ++ g ++ im ++ g2 ++ str ")" ++ e) in *.
  assert (K : has_key ws (k ++ g0 ++ l1) (g0 ++ l1)).
  { split.
    - clear - B. remember [] as n eqn:En. induction B; subst.
      + rewrite app_nil_r. constructor.
      + rewrite <- !app_assoc. constructor; auto.
    - left. destruct g0; [now elim N0|]. simpl. inversion B0; auto. }
  destruct (handle_key_file x key ws _ r _ W V P Pk Sk Nw K eq_refl) as (y & Ey & Wy & Ay & Vy).
  assert (Vy' : view y = l1 :: r).
  { rewrite Vy. unfold norm. rewrite trim_blanks by auto. reflexivity. }
  destruct (get_complexP value x y key g1 re b g im g2 e r u v Ey Wy Vy') as (z & Ez & Wz & Az & Vz); auto.
  cbn [perform_all perform]. rewrite Ez. cbn [bind].
  assert (Q : eqv z (new_input file2 false None)).
  { apply (eqv_new z file); auto; [exact (same_args_trans _ _ _ Az Ay)|congruence]. }
  pose proof (perform_all_rel value number cs _ _ Q) as R.
  destruct (perform_all value number cs z) as [[a z1]| | |], (perform_all value number cs (new_input file2 false None)) as [[a2 z2]| | |];
    simpl in R; try contradiction; simpl; auto. destruct R as [-> _]. reflexivity.
Qed.
Print Assumptions C80_complex.
Example C80_complex_example :
  answers (perform_all int_of no_number [Pair (str "z"); One (str "n")] (new_input (str "z ( 4 , -5 )" ++ newline ++ str "n 1") false None)) =
    Ok [Values [4%Z; (-5)%Z]; Values [1%Z]] /\ means int_of (str "-5") (-5)%Z.
Proof. split; [vm_compute; reflexivity|]. split; [|reflexivity]. exists (str "-5"). apply item_text; try discriminate; reflexivity. Qed.
(** ... and never without a blank after the opening parenthesis, as in the format "(re,im)" which the
    error message and the documentation ask for, whatever the values are. *)
Theorem C80_complex_refuted : forall (T : Type) (value : text -> option T) number file k g0 re e r key ws,
  significant file = (k ++ g0 ++ str "(" ++ re ++ e) :: r -> Forall plain (significant file) -> good_key ws key -> begins ws k [] ->
  g0 <> [] -> blanks g0 -> word re -> no_comma_quote re -> match e with [] => True | c :: _ => isspace c = true \/ c = 44%Z end ->
  answers (perform_all value number [Pair key] (new_input file false None)) = Ok [Failed].
Proof.
  intros T value number file k g0 re e r key ws S P (Sk & Nw & _ & Pk & _) B N0 B0 [Nr Vr] Cr He.
  set (x := new_input file false None). assert (V : view x = significant file) by reflexivity.
  assert (W : wf x) by (unfold wf; apply Nat.le_refl). rewrite S in V, P. apply Forall_cons_iff in P as [P _].
  set (l1 := str "(" ++ re ++ e) in *.
  assert (K : has_key ws (k ++ g0 ++ l1) (g0 ++ l1)).
  { split.
    - clear - B. remember [] as n eqn:En. induction B; subst.
      + rewrite app_nil_r. constructor.
      + rewrite <- !app_assoc. constructor; auto.
    - left. destruct g0; [now elim N0|]. simpl. inversion B0; auto. }
  destruct (handle_key_file x key ws _ r _ W V P Pk Sk Nw K eq_refl) as (y & Ey & Wy & Ay & Vy).
  assert (Vy' : view y = l1 :: r).
  { rewrite Vy. unfold norm. rewrite trim_blanks by auto. reflexivity. }
  destruct (match_token_other y (str "(") Wy) as (z & Ez & _).
  { rewrite Vy'. exists (str "(" ++ re). split.
    - unfold l1. rewrite app_assoc. apply (token_item _ (str "(" ++ re)); [|exact He]. constructor.
      + split; [discriminate|]. constructor; [reflexivity|exact Vr].
      + constructor; [split; discriminate|exact Cr].
    - intros E. apply (f_equal (@length Z)) in E. destruct re; [now elim Nr|discriminate]. }
  cbn [perform_all perform]. unfold get_complex. rewrite Ey. cbn [bind]. rewrite Ez. reflexivity.
Qed.
Print Assumptions C80_complex_refuted.
Example C80_complex_refuted_example :
  significant (str "z (4,5)") = (str "z" ++ str " " ++ str "(" ++ str "4" ++ str ",5)") :: [] /\
  answers (perform_all int_of no_number [Pair (str "z")] (new_input (str "z (4,5)") false None)) = Ok [Failed].
Proof. split; vm_compute; reflexivity. Qed.

(** The text between quotes is the value of a string; but a '#' inside them is a comment, after which the
    quotes are not closed and the program stops. *)
Theorem C80_quoted : forall v, Forall (fun c => c <> 34%Z) v -> means string_value (34%Z :: v ++ [34%Z]) v.
Proof.
  intros v F. split; [exists v; now constructor|]. unfold string_value, remove_quotes. cbn [filter Z.eqb negb]. f_equal. simpl.
  rewrite filter_app. simpl. rewrite app_nil_r. induction F; simpl; auto. replace (x =? 34)%Z with false by (symmetry; now apply Z.eqb_neq).
  simpl. now rewrite IHF.
Qed.
Print Assumptions C80_quoted.
Theorem C80_quoted_refuted : exists file,
  file = str "name ""run #1""" /\
  answers (perform_all string_value no_number [One (str "name")] (new_input file false None)) = Leave.
Proof. exists (str "name ""run #1"""). split; vm_compute; reflexivity. Qed.
Print Assumptions C80_quoted_refuted.
Example C80_quoted_example :
  answers (perform_all string_value no_number [One (str "name")] (new_input (str "name ""a, b""") false None)) = Ok [Values [str "a, b"]].
Proof. vm_compute. reflexivity. Qed.

(** A reader whose file was read to the end can be used for another file as a new one ... *)
Theorem C80_reopen : forall (T : Type) (value : text -> option T) number file first ps cs ans ps',
  Forall plain (significant file) -> served value ps cs (significant file) ans ps' ->
  Forall (fun p => fst p <> [] /\ fst p <> str "," /\ ~ In 35%Z (fst p)) ps -> (first = false -> ps = []) ->
  exists z, perform_all value number cs (new_input file first (Some (flat ps))) = Ok (ans, z) /\
  forall file2 first2 cs2, answers (perform_all value number cs2 (open z file2 first2 None)) =
    answers (perform_all value number cs2 (new_input file2 first2 None)).
Proof.
  intros T value number file first ps cs ans ps' P S Nk F.
  destruct (servedP value number _ _ _ _ _ S first (new_input file first (Some (flat ps)))) as (z & E & V & W & _); auto.
  - unfold wf. simpl. lia.
  - destruct first; [|split; auto]. split; [reflexivity|]. exists ps. split; [reflexivity|].
    unfold live. clear - Nk. induction Nk as [|[k v] ps (N1 & N2 & N3) Nk IH]; auto. simpl in *.
    destruct (same_text k used_flag) eqn:E; [|simpl; now rewrite IH]. apply same_text_iff in E. subst k. exfalso. apply N3. simpl. auto.
  - eapply Forall_impl; [|exact Nk]. intros p Hp. split; apply Hp.
  - exists z. split; [exact E|]. intros file2 first2 cs2.
    assert (Q : eqv (open z file2 first2 None) (new_input file2 first2 None)).
    { repeat split; auto.
      - unfold view in V |- *. unfold open, new_input, rest in *. cbn [i_line i_start i_file] in *. unfold norm in *.
        destruct (trim (skipn (i_start z) (i_line z))); [reflexivity|discriminate].
      - unfold wf. apply Nat.le_refl. }
    pose proof (perform_all_rel value number cs2 _ _ Q) as R.
    destruct (perform_all value number cs2 (open z file2 first2 None)) as [[a x]| | |], (perform_all value number cs2 (new_input file2 first2 None)) as [[b y]| | |];
      simpl in R; try contradiction; auto. destruct R as [-> _]. reflexivity.
Qed.
Print Assumptions C80_reopen.
(** ... but not always: what is left of the last line is still read first. *)
Theorem C80_reopen_refuted : exists file z,
  perform_all int_of no_number [Many (str "q")] (new_input file false None) = Ok ([Values [1%Z; 2%Z]], z) /\
  answers (perform_all int_of no_number [Many (str "q")] (open z file false None)) = Ok [Failed].
Proof. exists (str "q 1,2" ++ newline ++ str "b 3"). eexists. split; [vm_compute; reflexivity|]. vm_compute. reflexivity. Qed.
Print Assumptions C80_reopen_refuted.
Example C80_reopen_example :
  let z := match perform_all int_of no_number [Many (str "q")] (new_input (str "q 1,2") false None) with Ok (_, z) => z | _ => new_input [] false None end in
  answers (perform_all int_of no_number [Many (str "q")] (open z (str "q 7") false None)) = Ok [Values [7%Z]].
Proof. vm_compute. reflexivity. Qed.

(** Parameters of the command line.  For a program which asks for the parameters in the order of the
    first file, -p key value replaces the value of the first call with this key (and of the next one if
    it is given twice); every other parameter has the value of the file; and at the end the program
    complains exactly if something was given which was not used. *)
Theorem C81_run : forall (T : Type) (value : text -> option T) number file ps cs ans ps',
  Forall plain (significant file) -> served value ps cs (significant file) ans ps' ->
  Forall (fun p => fst p <> [] /\ fst p <> str "," /\ ~ In 35%Z (fst p)) ps ->
  exists z, perform_all value number cs (new_input file true (Some (flat ps))) = Ok (ans, z) /\
    (significant file <> [] -> (close z = true <-> ps' = [])).
Proof.
  intros T value number file ps cs ans ps' P S Nk.
  destruct (servedP value number _ _ _ _ _ S true (new_input file true (Some (flat ps)))) as (z & E & V & W & K); auto.
  - unfold wf. simpl. lia.
  - split; [reflexivity|]. exists ps. split; [reflexivity|].
    unfold live. clear - Nk. induction Nk as [|[k v] ps (N1 & N2 & N3) Nk IH]; auto. simpl in *.
    destruct (same_text k used_flag) eqn:E; [|simpl; now rewrite IH]. apply same_text_iff in E. subst k. exfalso. apply N3. simpl. auto.
  - eapply Forall_impl; [|exact Nk]. intros p Hp. split; apply Hp.
  - exists z. split; [exact E|]. intros N. pose proof (all_loads value number _ _ _ _ E (served_values value _ _ _ _ _ S N)) as L.
    unfold close. destruct K as (F & qs & Eq & Lq).
    rewrite F. cbn [negb orb]. rewrite (L F), Eq, all_used_live, Lq. reflexivity.
Qed.
Print Assumptions C81_run.

(** Only the first file of a program uses them. *)
Theorem C81_first_file : forall (T : Type) (value : text -> option T) number file l cs ans,
  Forall plain (significant file) -> served value [] cs (significant file) ans [] ->
  exists z, perform_all value number cs (new_input file false (Some l)) = Ok (ans, z) /\ close z = true.
Proof.
  intros T value number file l cs ans P S.
  destruct (servedP value number _ _ _ _ _ S false (new_input file false (Some l))) as (z & E & V & W & K); auto.
  - unfold wf. simpl. lia.
  - split; reflexivity.
  - exists z. split; [exact E|]. unfold close. destruct K as [F _]. now rewrite F.
Qed.
Print Assumptions C81_first_file.

Example C81_example :
  let ps := [(str "a", str "7, 8"); (str "c", str "1")] in
  let file := str "a 1" ++ newline ++ str "b 3" in
  served int_of ps [Many (str "a"); One (str "b")] (significant file) [Values [7%Z; 8%Z]; Values [3%Z]] [(str "c", str "1")] /\
  Forall (fun p => fst p <> [] /\ fst p <> str "," /\ ~ In 35%Z (fst p)) ps.
Proof.
  intros ps file.
  assert (It : forall s v, int_of s = Some v -> s <> [] -> forallb (fun c => negb (isspace c)) s = true ->
    forallb (fun c => negb (c =? 44)%Z && negb (c =? 34)%Z) s = true -> means int_of s v).
  { intros s v Hv N H1 H2. split; auto. exists s. now apply item_text. }
  assert (E : significant file = str "a 1" :: [str "b 3"] ++ []) by (vm_compute; reflexivity). rewrite E. split.
  - apply (served_arg int_of ps [(str "c", str "1")] [(str "c", str "1")] (Many (str "a")) _ (str "a") [str "a"] [str "7"; str "8"] _ _ (str " 1") (str "7, 8")).
    + apply one_word_key; [discriminate|reflexivity].
    + reflexivity.
    + reflexivity.
    + split; [apply (begins_last (str "a") (str " 1"))|left; left; reflexivity].
    + apply (listed_more (str "7") [] (str " ") [str "8"] (str "8") []); [constructor|repeat constructor|].
      apply (listed_last (str "8") []). constructor.
    + apply plain_text. reflexivity.
    + repeat (apply Forall2_cons; [apply It; try discriminate; vm_compute; reflexivity|]). apply Forall2_nil.
    + apply (served_file int_of _ _ (One (str "b")) [] (str "b") [str "b"] [str "3"]).
      * apply one_word_key; [discriminate|reflexivity].
      * split; reflexivity.
      * reflexivity.
      * exists (str "b"), (str " "), (str "3"), []. repeat split; try discriminate.
        -- apply (begins_last (str "b") []).
        -- repeat constructor.
        -- apply (listed_last (str "3") []). constructor.
      * repeat (apply Forall2_cons; [apply It; try discriminate; vm_compute; reflexivity|]). apply Forall2_nil.
      * constructor.
  - repeat constructor; try discriminate; simpl; intros [H|H]; try discriminate; auto.
Qed.

(** The lines on which a replaced list goes on are not skipped, so the next parameter is not found. *)
Theorem C81_continuation_refuted : exists file ps,
  served int_of [] [Many (str "a"); One (str "b")] (significant file) [Values [1%Z; 2%Z]; Values [3%Z]] [] /\
  ps = [(str "a", str "5")] /\
  answers (perform_all int_of no_number [Many (str "a"); One (str "b")] (new_input file true (Some (flat ps)))) =
    Ok [Values [5%Z]; Failed].
Proof.
  assert (It : forall s v, int_of s = Some v -> s <> [] -> forallb (fun c => negb (isspace c)) s = true ->
    forallb (fun c => negb (c =? 44)%Z && negb (c =? 34)%Z) s = true -> means int_of s v).
  { intros s v Hv N H1 H2. split; auto. exists s. now apply item_text. }
  exists (str "a 1," ++ newline ++ str "2" ++ newline ++ str "b 3"), [(str "a", str "5")].
  split; [|split; [reflexivity|vm_compute; reflexivity]].
  match goal with |- served _ _ _ ?s _ _ => assert (E : s = [str "a 1,"; str "2"] ++ ([str "b 3"] ++ [])) by (vm_compute; reflexivity); rewrite E end.
  apply (served_file int_of _ _ (Many (str "a")) _ (str "a") [str "a"] [str "1"; str "2"]).
  - apply one_word_key; [discriminate|reflexivity].
  - reflexivity.
  - reflexivity.
  - exists (str "a"), (str " "), (str "1,"), [str "2"]. repeat split; try discriminate.
    + apply (begins_last (str "a") []).
    + repeat constructor.
    + apply (listed_next (str "1") [] [] [str "2"] (str "2") []); [constructor|constructor|]. apply (listed_last (str "2") []). constructor.
  - repeat (apply Forall2_cons; [apply It; try discriminate; vm_compute; reflexivity|]). apply Forall2_nil.
  - apply (served_file int_of _ _ (One (str "b")) [] (str "b") [str "b"] [str "3"]).
    + apply one_word_key; [discriminate|reflexivity].
    + split; reflexivity.
    + reflexivity.
    + exists (str "b"), (str " "), (str "3"), []. repeat split; try discriminate.
      * apply (begins_last (str "b") []).
      * repeat constructor.
      * apply (listed_last (str "3") []). constructor.
    + repeat (apply Forall2_cons; [apply It; try discriminate; vm_compute; reflexivity|]). apply Forall2_nil.
    + constructor.
Qed.
Print Assumptions C81_continuation_refuted.
(** And nothing is complained about if no key was found at all. *)
Theorem C81_unread_refuted : exists z,
  perform_all int_of no_number [One (str "b")] (new_input (str "a 1") true (Some (flat [(str "b", str "5")]))) = Ok ([Failed], z) /\
  close z = true.
Proof. eexists. split; [vm_compute; reflexivity|]. vm_compute. reflexivity. Qed.
Print Assumptions C81_unread_refuted.

(** Choices: the first item which fits is chosen, the call fails exactly if none fits; and the following
    calls get what is left of the file, given here as another file. *)
Theorem C82_choice : forall (T : Type) (value : text -> option T) number file k g0 t v e r key ws items cs,
  significant file = (k ++ g0 ++ t ++ e) :: r -> Forall plain (significant file) -> good_key ws key -> begins ws k [] ->
  g0 <> [] -> blanks g0 -> item t v -> match e with [] => True | c :: _ => isspace c = true \/ c = 44%Z end ->
  Forall (fun i => plain i /\ exists vs, vs <> [] /\ spelled vs i) items ->
  (exists before i rest more, items = before ++ i :: rest /\ (forall j, In j before -> ~ fits number t (t ++ e) j) /\
     fits number t (t ++ e) i /\ after number t (t ++ e) i more /\
     forall file2, significant file2 = match trim more with [] => r | l => l :: r end ->
     answers (perform_all value number (Choice key items :: cs) (new_input file false None)) =
     get l <- answers (perform_all value number cs (new_input file2 false None)); Ok (Chosen (length before) :: l)) \/
  ((forall j, In j items -> ~ fits number t (t ++ e) j) /\
     forall file2, significant file2 = (t ++ e) :: r ->
     answers (perform_all value number (Choice key items :: cs) (new_input file false None)) =
     get l <- answers (perform_all value number cs (new_input file2 false None)); Ok (Failed :: l)).
Proof.
  intros T value number file k g0 t v e r key ws items cs S P (Sk & Nw & _ & Pk & _) B N0 B0 I He G.
  set (x := new_input file false None). assert (V : view x = significant file) by reflexivity.
  assert (W : wf x) by (unfold wf; apply Nat.le_refl). rewrite S in V, P. apply Forall_cons_iff in P as [P _].
  assert (K : has_key ws (k ++ g0 ++ t ++ e) (g0 ++ t ++ e)).
  { split.
    - clear - B. remember [] as n eqn:En. induction B; subst.
      + rewrite app_nil_r. constructor.
      + rewrite <- !app_assoc. constructor; auto.
    - left. destruct g0; [now elim N0|]. simpl. inversion B0; auto. }
  destruct (handle_key_file x key ws _ r _ W V P Pk Sk Nw K eq_refl) as (y & Ey & Wy & Ay & Vy).
  rewrite (norm_item g0 t v e r B0 I) in Vy. destruct (item_trim t v e I) as [Ti Ni].
  assert (Pl : plain (t ++ e)) by (apply plain_app in P as [_ P]; now apply plain_app in P as [_ P]).
  pose proof (peek_tokenP y Wy) as Q. rewrite Vy in Q. destruct Q as (_ & _ & Q). rewrite (token_item t v e I He) in Q.
  destruct Q as (z & Ez & Az & Rz & Wz & Sz).
  assert (Fin : forall w file2 (a : answer T), wf w -> same_args w z -> view w = significant file2 ->
    perform value number (Choice key items) x = Ok (a, w) ->
    answers (perform_all value number (Choice key items :: cs) x) =
    get l <- answers (perform_all value number cs (new_input file2 false None)); Ok (a :: l)).
  { intros w file2 a Ww Aw Vw Pw. cbn [perform_all]. rewrite Pw. cbn [bind].
    assert (Q : eqv w (new_input file2 false None)).
    { apply (eqv_new w file); auto. exact (same_args_trans _ _ _ Aw (same_args_trans _ _ _ Az Ay)). }
    pose proof (perform_all_rel value number cs _ _ Q) as R.
    destruct (perform_all value number cs w) as [[b z1]| | |], (perform_all value number cs (new_input file2 false None)) as [[b2 z2]| | |];
      simpl in R; try contradiction; simpl; auto. destruct R as [-> _]. reflexivity. }
  assert (Gi : forall o w, find_item number z t items 0 = Ok (o, w) ->
    perform value number (Choice key items) x = Ok (match o with Some k => Chosen k | None => Failed end, w)).
  { intros o w F. cbn [perform]. unfold get_item. rewrite Ey. cbn [bind]. rewrite Ez. cbn [bind]. rewrite F. reflexivity. }
  destruct (find_itemP number t (t ++ e) r Pl Ti Ni items 0 z G Wz Rz Sz)
    as [(before & i & rs & more & w & -> & Hb & Ha & Hf & Hw & Ww & Aw & Vw)|(Hn & w & Hw & Ww & Aw & Vw)].
  - left. exists before, i, rs, more. repeat split; auto. intros file2 S2. apply (Fin w file2 (Chosen (length before)) Ww Aw).
    + rewrite Vw, S2. unfold norm. destruct (trim more); reflexivity.
    + apply (Gi _ _ Hw).
  - right. split; auto. intros file2 S2. apply (Fin w file2 Failed Ww Aw); [rewrite Vw, S2; reflexivity|apply (Gi _ _ Hw)].
Qed.
Print Assumptions C82_choice.
Example C82_example :
  let run items := answers (perform_all int_of no_number [Choice (str "start") items; One []] (new_input (str "start hot 5") false None)) in
  run [str "cold"; str "hot"; str "%s"] = Ok [Chosen 1; Values [5%Z]] /\
  run [str "cold"; str "%s"] = Ok [Chosen 1; Failed] /\ run [str "cold"; str "%i"; str "ho"] = Ok [Failed; Failed] /\
  item (str "hot") (str "hot").
Proof. repeat split; try (vm_compute; reflexivity). apply item_text; try discriminate; reflexivity. Qed.
(** "%i" fits every text which begins with an integer, so it is chosen for a number like 1.343 if it
    comes before "%f"; the documentation names it as the item for integers. *)
Theorem C82_integer_refuted : forall number : text -> bool, number (str "1.343") = true ->
  fits number (str "1.343") (str "1.343") (str "%i") /\ (forall v, ~ decimal (str "1.343") v) /\
  answers (perform_all int_of number [Choice (str "x") [str "%i"; str "%f"]] (new_input (str "x 1.343") false None)) = Ok [Chosen 0].
Proof.
  intros number Hn. split; [|split].
  - left. right. right. split; [reflexivity|]. vm_compute. discriminate.
  - intros v H. inversion H; subst;
      match goal with D : digits _ |- _ => destruct D as [_ D]; apply Forall_cons_iff in D as [_ D]; apply Forall_cons_iff in D as [D _]; vm_compute in D; intuition congruence end.
  - vm_compute. reflexivity.
Qed.
Print Assumptions C82_integer_refuted.
Example C82_integer_refuted_example : (fun _ : text => true) (str "1.343") = true.
Proof. reflexivity. Qed.
