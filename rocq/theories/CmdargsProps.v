(** C38: compiler options are moved behind the separator without loss; C55: the compiler whose
    include directories are used. *)
From Coq Require Import String.
From Verif Require Import Common SrcbufModel WordsModel CmdargsModel CmdargsSpec CmdargsProofs1.
From Coq Require Import Permutation.
Open Scope nat_scope.
Open Scope list_scope.

(** The rearranged vector is: the arguments before the (last) "--" that are no -D or -I options, the
    separator, the arguments that followed it, the options taken out in their order, the language
    standard, -DHILAPP, and the null pointer. *)
Theorem C38_rearranged : forall args av s, handle_cmdline_args args = Some (av, s) ->
  exists before after kept moved,
    cut_at_ddash args before after /\ split_options before kept moved /\
    av = map Some (kept ++ str "--" :: after ++ moved ++ [chosen_std args; str "-DHILAPP"]) ++ [None].
Proof.
  intros args av s H. pose proof (handle_spec args) as G. rewrite H in G. destruct G as [_ [G _]]. exact G.
Qed.
Print Assumptions C38_rearranged.

(** Nothing is lost or duplicated, the order within both parts is kept (by the definition of
    [split_options]), no -D or -I is left before the separator, and there is only one such split. *)
Theorem C38_no_loss : forall l kept moved, split_options l kept moved ->
  Permutation l (kept ++ moved) /\ (forall a, In a kept -> ~ include_or_define a) /\
  (forall kept' moved', split_options l kept' moved' -> kept' = kept /\ moved' = moved).
Proof.
  intros l kept moved H. destruct (split_facts l kept moved H) as [H1 H2]. split; [exact H1|]. split; [exact H2|].
  intros kept' moved' H'. apply (split_function l); assumption.
Qed.
Print Assumptions C38_no_loss.

(** The program stops exactly if an argument asks for an unknown standard. *)
Theorem C38_stops : forall args,
  handle_cmdline_args args = None <-> ~ (forall a, In a args -> is_std a = true -> known_std a).
Proof.
  intros args. pose proof (handle_spec args) as G. destruct (handle_cmdline_args args) as [[av s]|].
  - destruct G as [G _]. split; [discriminate|]. intros H. exfalso. apply H. exact G.
  - split; [intros _; exact G|reflexivity].
Qed.
Print Assumptions C38_stops.

Example C38_example :
  handle_cmdline_args [str "hilapp"; str "-I"; str "inc"; str "-o"; str "out"; str "-DNDIM=4"; str "a.cpp"; str "--"; str "-O3"] =
    Some (map Some [str "hilapp"; str "-o"; str "out"; str "a.cpp"; str "--"; str "-O3"; str "-I"; str "inc"; str "-DNDIM=4";
                    str "-std=c++17"; str "-DHILAPP"] ++ [None], str "c++17") /\
  split_options [str "hilapp"; str "-I"; str "inc"; str "a.cpp"] [str "hilapp"; str "a.cpp"] [str "-I"; str "inc"].
Proof.
  split; [reflexivity|]. assert (Hn : forall a, begins a (str "-D") = false -> begins a (str "-I") = false -> ~ include_or_define a).
  { intros a H1 H2 [H|H]; apply begins_iff in H; congruence. }
  apply split_other; [apply Hn; reflexivity|]. apply split_two; [right; reflexivity|].
  apply split_other; [apply Hn; reflexivity|]. constructor.
Qed.

(** C55.  When a standard is given on the command line, the compiler is asked for a standard without
    its first letter. *)
Theorem C55_standard : forall args av s, handle_cmdline_args args = Some (av, s) ->
  (filter is_std args = [] -> std_option s = str "--std=c++17") /\
  (filter is_std args <> [] -> str "-std=c" ++ s = chosen_std args).
Proof.
  intros args av s H. pose proof (handle_spec args) as G. rewrite H in G. destruct G as [Hk [_ G]]. split.
  - intros E. rewrite E in G. subst s. reflexivity.
  - intros E.
    assert (Hin : In (chosen_std args) (filter is_std args)).
    { unfold chosen_std. destruct (exists_last E) as [l [a Ea]]. rewrite Ea, last_last. apply in_app_iff. right. left. reflexivity. }
    apply filter_In in Hin. destruct Hin as [Hin Hs]. specialize (Hk _ Hin Hs).
    destruct (filter is_std args); [congruence|]. subst s.
    cbn [known_std In] in Hk. unfold known_std in Hk. cbn [In] in Hk. destruct Hk as [Hk|[Hk|[Hk|[Hk|[]]]]]; rewrite <- Hk; reflexivity.
Qed.
Print Assumptions C55_standard.

Theorem C55_standard_refuted :
  ~ (forall args av s, handle_cmdline_args args = Some (av, s) -> std_option s = str "-" ++ chosen_std args).
Proof.
  intros H. assert (E : std_option (str "++20") = str "-" ++ chosen_std [str "hilapp"; str "-std=c++20"]) by (eapply H; reflexivity).
  discriminate E.
Qed.
Print Assumptions C55_standard_refuted.

(** The number read from a name lacks the first digit, and the code of the newline less that of '0'
    is added as a last one. *)
Theorem C55_version : forall ds, ds <> [] -> Forall digit ds ->
  read_version (skipn 4 (named ds)) 0 = (number (tl ds ++ [-38]%Z), [newline]).
Proof.
  intros ds Hne Hd. unfold named, number. change (skipn 4 (str "g++-" ++ map (Z.add 48) ds ++ [newline])) with (map (Z.add 48) ds ++ [newline]).
  generalize 0%Z as v. induction ds as [|d ds IH]; intros v; [congruence|]. inversion Hd as [|? ? H1 H2]; subst.
  cbn [map app read_version tl]. unfold digit in H1. replace (isdigit (48 + d)) with true.
  2:{ symmetry. unfold isdigit. apply andb_true_intro. split; apply Z.leb_le; lia. }
  destruct ds as [|e ds].
  - cbn [map app]. cbn [char_at fold_left]. change (newline - 48)%Z with (-38)%Z. reflexivity.
  - rewrite IH by (discriminate || assumption). cbn [map app char_at tl fold_left]. f_equal. f_equal. lia.
Qed.
Print Assumptions C55_version.

(** So the newest compiler need not be the one taken, and often none of those listed is. *)
Theorem C55_newest_refuted :
  ~ (forall dss, Forall (fun ds => ds <> [] /\ Forall digit ds) dss -> dss <> [] ->
       exists ds, In ds dss /\ (forall ds', In ds' dss -> (number ds' <= number ds)%Z) /\
         choose_compiler (map named dss) (str "g++") 0 ++ [newline] = named ds) /\
  choose_compiler (map named [[9]; [1; 2]; [1; 3]]%Z) (str "g++") 0 = str "g++" /\
  choose_compiler (map named [[1; 4]; [2; 0]]%Z) (str "g++") 0 = str "g++-14".
Proof.
  split; [|split; reflexivity]. intros H. destruct (H [[1; 4]; [2; 0]]%Z) as [ds [H1 [H2 H3]]].
  - repeat constructor; try discriminate; unfold digit; lia.
  - discriminate.
  - destruct H1 as [<-|[<-|[]]].
    + specialize (H2 [2; 0]%Z (or_intror (or_introl eq_refl))). vm_compute in H2. apply H2. reflexivity.
    + vm_compute in H3. discriminate H3.
Qed.
Print Assumptions C55_newest_refuted.

Example C55_example :
  handle_cmdline_args [str "hilapp"; str "-std=c++20"; str "a.cpp"] =
    Some (map Some [str "hilapp"; str "-std=c++20"; str "a.cpp"; str "--"; str "-std=c++20"; str "-DHILAPP"] ++ [None], str "++20") /\
  read_version (skipn 4 (named [1; 4]%Z)) 0 = (2%Z, [newline]).
Proof. split; reflexivity. Qed.
