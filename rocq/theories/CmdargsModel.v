(** Model of the treatment of the preprocessor's own command line, /repo/hilapp/src/stringops.cpp.
    An argument is a C string: a list of codes without the zero. *)
From Coq Require Import String Ascii.
From Verif Require Import Common RandomModel SrcbufModel WordsModel.
Open Scope nat_scope.
Open Scope list_scope.

(** A string constant of the source. *)
Fixpoint str (s : string) : text :=
  match s with
  | EmptyString => []
  | String c s' => Z.of_N (N_of_ascii c) :: str s'
  end.

(** strcmp(a, b) == 0 and strncmp(a, b, strlen(b)) == 0. *)
Definition equals (a b : text) : bool := same_text a b.
Definition begins (a b : text) : bool := same_text (firstn (List.length b) a) b.

(** 355-372 the first loop: avvect is the argument list; [ddashloc] is [None] while found_ddash is
    false; [None] as a whole is exit(1). *)
Fixpoint scan (args : list text) (i : nat) (ddashloc : option nat) (cppstd cpp_standard : text) : option (option nat * text * text) :=
  match args with
  | [] => Some (ddashloc, cppstd, cpp_standard)
  | a :: t =>
      if equals a (str "--") then scan t (i + 1) (Some i) cppstd cpp_standard
      else if begins a (str "-std") then
        if equals a (str "-std=c++17") || equals a (str "-std=c++20") || equals a (str "-std=c++23") || equals a (str "-std=c++26")
        then scan t (i + 1) ddashloc a (skipn 6 a)
        else None
      else scan t (i + 1) ddashloc cppstd cpp_standard
  end.

(** 386-387, 394-395: for (j..; n entries) avvect[j - k] = avvect[j]. *)
Fixpoint shift_down (n j k : nat) (av : list text) : list text :=
  match n with
  | O => av
  | S n' => shift_down n' (j + 1) k (put (j - k) (nth j av []) av)
  end.

(** 381-401 the second loop; argc is the length of [av]; at most [n] rounds. *)
Fixpoint move (n : nat) (av : list text) (i ddashloc : nat) : option (list text) :=
  match n with
  | O => None
  | S n' =>
      if i <? ddashloc then
        let argc := List.length av in
        let a1 := nth i av [] in
        if (i + 1 <? ddashloc) && (equals a1 (str "-D") || equals a1 (str "-I")) then
          let a2 := nth (i + 1) av [] in
          let av := shift_down (argc - (i + 2)) (i + 2) 2 av in
          let av := put (argc - 2) a1 av in
          let av := put (argc - 1) a2 av in
          move n' av i (ddashloc - 2)
        else if begins a1 (str "-D") || begins a1 (str "-I") then
          let av := shift_down (argc - (i + 1)) (i + 1) 1 av in
          let av := put (argc - 1) a1 av in
          move n' av i (ddashloc - 1)
        else move n' av (i + 1) ddashloc
      else Some av
  end.

(** 345-413 handle_cmdline_args without USE_COMPILER_INCLUDES: [None] is exit(1); the last entry of
    the vector is the null pointer; the second component is the global cpp_standard. *)
Definition handle_cmdline_args (argv : list text) : option (list (option text) * text) :=
  do r <- scan argv 0 None (str "-std=c++17") (str "c++17");
  let '(loc, cppstd, cpp_standard) := r in
  let '(av, ddashloc) := match loc with
                         | Some l => (argv, l)
                         | None => (argv ++ [str "--"], List.length argv)
                         end in
  do av <- move (List.length av + 1) av 0 ddashloc;
  Some (map Some (av ++ [cppstd; str "-DHILAPP"]) ++ [None], cpp_standard).

(** 283-295 the version number read from a name; [s] begins at pipebuf[i].  The digit is added after
    the index has moved on. *)
Fixpoint read_version (s : text) (v : Z) : Z * text :=
  match s with
  | c :: t => if isdigit c then read_version t (v * 10 + (char_at t - 48))%Z else (v, s)
  | [] => (v, [])
  end.

(** 276-296 the choice of the compiler from the lines that the shell lists, each ending in a newline
    (but perhaps the last one); the names are as long as pipebuf allows. *)
Fixpoint choose_compiler (names : list text) (compiler : text) (version : Z) : text :=
  match names with
  | [] => compiler
  | name :: t =>
      let '(v, rest) := read_version (skipn 4 name) 0 in
      let cut := firstn (List.length name - List.length rest) name in
      let ended := (char_at rest =? newline)%Z || (char_at rest =? 0)%Z in
      if ended && (version <? v)%Z then choose_compiler t cut v else choose_compiler t compiler version
  end.

(** 307 the standard asked for in the pipe command. *)
Definition std_option (cpp_standard : text) : text := str "--std=" ++ cpp_standard.
