(** C28: command line flags. *)
From Coq Require Import String Ascii.
From Verif Require Import Common CmdlineModel CmdlineSpec CmdlineProofs1 CmdlineProofs2.
Open Scope Z_scope.
Open Scope list_scope.
Open Scope string_scope.

(** After parsing every declared flag holds the words that follow its occurrences, in
    order, and knows whether it was given. *)
Theorem C28_values : forall declared argv m, valid_flags declared ->
  initialise_args declared argv = Ok m ->
  map fst m = map fst declared /\
  (forall f, In f (map fst declared) ->
     flag_set m f = Z.of_nat (List.length (arguments f argv)) /\
     (flag_present m f = true <-> In f argv) /\
     (forall i, get_string m f i = match nth_error (arguments f argv) i with Some s => Ok s | None => Quit end) /\
     exists m', values m f = Ok (arguments f argv, m')).
Proof.
  intros declared argv m Hd H. rewrite (parse_run declared argv Hd) in H.
  destruct (_ && _); [|discriminate]. injection H as <-. split.
  - rewrite map_map. apply map_ext. reflexivity.
  - intros f Hf. destruct (lookup_declared declared argv f Hf) as [e He].
    destruct (lookup_filled declared argv f e He) as [d [_ ->]].
    assert (Hset : flag_set (map (filled argv) declared) f = Z.of_nat (List.length (arguments f argv))).
    { unfold flag_set. now rewrite He. }
    split; [exact Hset|]. split; [|split].
    + unfold flag_present, map_access. rewrite He. cbn [fst e_present]. apply mem_In.
    + intros i. unfold get_string. rewrite Hset. unfold map_access. rewrite He. cbn [fst e_values].
      destruct (Z.eqb_spec (Z.of_nat (List.length (arguments f argv))) 0) as [E|E].
      * destruct (arguments f argv) as [|x l]; [|cbn [List.length] in E; lia]. now rewrite nth_end by (cbn; lia).
      * destruct (Z.ltb_spec (Z.of_nat i) (Z.of_nat (List.length (arguments f argv)))) as [Hi|Hi].
        -- destruct (nth_error (arguments f argv) i) eqn:En; [reflexivity|]. apply nth_error_None in En. lia.
        -- now rewrite nth_end by lia.
    + exists (map (filled argv) declared). unfold values, map_access. rewrite He. rewrite He. reflexivity.
Qed.
Print Assumptions C28_values.

(** Which words count as flags: a minus sign followed by a letter.  Negative numbers are
    arguments. *)
Definition letters : string := "abcdefghijklmnopqrstuvwxyzABCDEFGHIJKLMNOPQRSTUVWXYZ".

Theorem C28_flag_words : forall w,
  flag_like w = true <->
  exists c t, w = String "-" (String c t) /\ In c (list_ascii_of_string letters) /\
              ~ In (ascii_of_nat 10) (list_ascii_of_string t) /\ ~ In (ascii_of_nat 13) (list_ascii_of_string t).
Proof.
  assert (Hl : forall c, is_letter c = true <-> In c (list_ascii_of_string letters)).
  { intros c. assert (forall x, Bool.eqb (is_letter x) (existsb (Ascii.eqb x) (list_ascii_of_string letters)) = true) as E.
    { intros x. destruct x as [[] [] [] [] [] [] [] []]; reflexivity. }
    specialize (E c). apply Bool.eqb_prop in E. rewrite E, existsb_exists. split.
    - intros [x [Hx He]]. apply Ascii.eqb_eq in He. now subst.
    - intros Hc. exists c. split; [exact Hc|apply Ascii.eqb_refl]. }
  assert (Hn : forall t, no_line_end t = true <->
              ~ In (ascii_of_nat 10) (list_ascii_of_string t) /\ ~ In (ascii_of_nat 13) (list_ascii_of_string t)).
  { induction t as [|a t IH]; [cbn; intuition|]. cbn [no_line_end list_ascii_of_string In].
    rewrite Bool.andb_true_iff, IH. unfold is_line_end. rewrite Bool.negb_true_iff, Bool.orb_false_iff, !Ascii.eqb_neq. tauto. }
  intros w. split.
  - destruct w as [|m [|c t]]; [discriminate|discriminate|]. cbn [flag_like].
    rewrite !Bool.andb_true_iff, Ascii.eqb_eq, Hl, Hn. intros [[-> Hc] Ht]. exists c, t. tauto.
  - intros (c & t & -> & Hc & Ht). cbn [flag_like]. rewrite !Bool.andb_true_iff, Ascii.eqb_eq, Hl, Hn. tauto.
Qed.
Print Assumptions C28_flag_words.

Example C28_flag_words_example : flag_like "-1.5" = false /\ flag_like "-o" = true /\ flag_like "-" = false.
Proof. repeat split. Qed.

(** Exactly which command lines are accepted; all others end with the help text, and
    no array is left. *)
Theorem C28_accepted : forall declared argv, valid_flags declared ->
  ((exists m, initialise_args declared argv = Ok m) <->
   (List.length (foreign (map fst declared) argv) <= 1)%nat /\
   (forall before f e after, declared = (before ++ (f, e) :: after)%list ->
      forall vals post, occurrence f argv vals post ->
        right_number (e_number e) vals \/ (vals = [] /\ foreign (map fst before) post = []))) /\
  ((exists m, initialise_args declared argv = Ok m) \/ initialise_args declared argv = Quit).
Proof.
  intros declared argv Hd. rewrite (parse_run declared argv Hd). split.
  - rewrite <- (fill_ok_spec declared argv Hd), <- Nat.leb_le.
    destruct (fill_ok declared argv), (Nat.leb (List.length (foreign (map fst declared) argv)) 1); cbn [andb]; split;
      first [intros [m H]; discriminate H|intros [H1 H2]; (discriminate H1 || discriminate H2)|intros _; eexists; reflexivity|intros _; split; reflexivity].
  - destruct (_ && _); [left; eexists; reflexivity|now right].
Qed.
Print Assumptions C28_accepted.

(** A word that belongs to no flag is diagnosed. *)
Theorem C28_unknown_words : forall declared prog ws, valid_flags declared -> flag_like prog = false ->
  foreign (map fst declared) ws <> [] -> initialise_args declared (prog :: ws) = Quit.
Proof.
  intros declared prog ws Hd Hp H. destruct (C28_accepted declared (prog :: ws) Hd) as [Hiff [Hok|Hq]]; [|exact Hq].
  apply Hiff in Hok. destruct Hok as [Hle _]. exfalso. unfold foreign in Hle, H. cbn [owned] in Hle. rewrite Hp in Hle. cbn [filter] in Hle.
  replace (existsb (fun f => belongs f (None, prog)) (map fst declared)) with false in Hle.
  - cbn [negb map List.length snd] in Hle. destruct (map snd _); [congruence|]. cbn [List.length] in Hle. lia.
  - symmetry. clear. induction (map fst declared) as [|g l IH]; [reflexivity|]. cbn [existsb]. exact IH.
Qed.
Print Assumptions C28_unknown_words.

(** A wrong number of arguments is diagnosed, except that none at all may be given
    where the flag is the last word once the flags before it (in the order of the map)
    are taken out. *)
Theorem C28_wrong_number : forall declared argv f e vals post, valid_flags declared -> In (f, e) declared ->
  occurrence f argv vals post -> 0 <= e_number e -> e_number e <> Z.of_nat (List.length vals) -> vals <> [] ->
  initialise_args declared argv = Quit.
Proof.
  intros declared argv f e vals post Hd Hin Ho H0 Hn Hv.
  destruct (C28_accepted declared argv Hd) as [Hiff [Hok|Hq]]; [|exact Hq].
  apply Hiff in Hok. destruct Hok as [_ Hok]. exfalso.
  destruct (in_split _ _ Hin) as [before [after E]].
  destruct (Hok before f e after E vals post Ho) as [[Hr|Hr]|[Hr _]]; [lia|congruence|congruence].
Qed.
Print Assumptions C28_wrong_number.

(** Missing arguments of the last flag are not diagnosed. *)
Theorem C28_missing_arguments_refuted :
  ~ (forall declared argv f e vals post, valid_flags declared -> In (f, e) declared ->
       occurrence f argv vals post -> 0 <= e_number e -> e_number e <> Z.of_nat (List.length vals) ->
       initialise_args declared argv = Quit).
Proof.
  intros H.
  specialize (H [("-o", mkEntry 1 [] false)] ["prog"; "-o"] "-o" (mkEntry 1 [] false) [] []).
  assert (initialise_args [("-o", mkEntry 1 [] false)] ["prog"; "-o"] = Ok [("-o", mkEntry 1 [] true)]) as E by reflexivity.
  rewrite H in E; [discriminate| | | |cbn; lia|cbn; lia].
  - split; [repeat constructor; intros []|repeat constructor].
  - now left.
  - exists ["prog"]%list. split; [reflexivity|]. split; [constructor|exact I].
Qed.
Print Assumptions C28_missing_arguments_refuted.

(** Whether they are diagnosed depends on the names of the other flags. *)
Theorem C28_missing_arguments_by_name_refuted :
  initialise_args [("-i", mkEntry 1 [] false); ("-o", mkEntry 1 [] false)] ["prog"; "-o"; "-i"; "in"]
    = Ok [("-i", mkEntry 1 ["in"]%list true); ("-o", mkEntry 1 [] true)] /\
  initialise_args [("-o", mkEntry 1 [] false); ("-z", mkEntry 1 [] false)] ["prog"; "-o"; "-z"; "in"] = Quit.
Proof. split; reflexivity. Qed.
Print Assumptions C28_missing_arguments_by_name_refuted.

(** The values of a flag that was never declared are handed out without complaint. *)
Theorem C28_undeclared_refuted : forall m f, lookup m f = None -> exists m', values m f = Ok ([], m').
Proof.
  intros m f H. unfold values, map_access. rewrite H. cbn [lookup]. rewrite String.eqb_refl. eexists. reflexivity.
Qed.
Print Assumptions C28_undeclared_refuted.

(** The command line of the documentation of read_arg_vector, with a second flag. *)
Definition ex_flags : argmap := [("-b_flag", mkEntry 1 [] false); ("-flag", mkEntry (-1) [] false)].
Definition ex_argv : list string := ["prog"; "-flag"; "a"; "-b_flag"; "b"; "-flag"; "c"; "d"; "-flag"; "-flag"; "4"].

Example C28_example :
  valid_flags ex_flags /\
  initialise_args ex_flags ex_argv =
    Ok [("-b_flag", mkEntry 1 ["b"]%list true); ("-flag", mkEntry (-1) ["a"; "c"; "d"; "4"]%list true)] /\
  arguments "-flag" ex_argv = ["a"; "c"; "d"; "4"]%list /\
  occurrence "-flag" ex_argv ["c"; "d"]%list ["-flag"; "-flag"; "4"]%list /\
  foreign ["-b_flag"; "-flag"]%list ["x"; "-flag"; "1"; "-q"; "7"] = ["x"; "-q"; "7"]%list /\
  initialise_args ex_flags ["prog"; "x"; "-flag"; "1"] = Quit /\
  initialise_args ex_flags ["prog"; "-b_flag"; "1"; "2"] = Quit /\
  lookup ex_flags "-q" = None.
Proof.
  split; [|split; [reflexivity|split; [reflexivity|split; [|repeat split; reflexivity]]]].
  - split; [|repeat constructor]. repeat constructor; intros H; cbn in H; intuition discriminate.
  - exists ["prog"; "-flag"; "a"; "-b_flag"; "b"]%list. split; [reflexivity|]. split; [repeat constructor|reflexivity].
Qed.
