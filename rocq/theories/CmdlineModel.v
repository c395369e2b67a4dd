(** Model of the command line parser.  Line numbers refer to
    /repo/libraries/plumbing/cmdline.cpp. *)
From Coq Require Import String Ascii.
From Verif Require Import Common.
Open Scope Z_scope.
Open Scope list_scope.

(** The regular expression ^-[a-zA-Z].* of 134 with regex_match: the whole word has
    to match, and the dot of ECMAScript expressions matches no line end. *)
Definition is_letter (c : ascii) : bool :=
  let n := nat_of_ascii c in ((65 <=? n)%nat && (n <=? 90)%nat) || ((97 <=? n)%nat && (n <=? 122)%nat).
Definition is_line_end (c : ascii) : bool := Ascii.eqb c (ascii_of_nat 10) || Ascii.eqb c (ascii_of_nat 13).
Fixpoint no_line_end (s : string) : bool :=
  match s with EmptyString => true | String c t => negb (is_line_end c) && no_line_end t end.
Definition flag_like (s : string) : bool :=
  match s with
  | String m (String c t) => Ascii.eqb m "-"%char && is_letter c && no_line_end t
  | _ => false
  end.

(** Outcomes: [Quit] is quit_with_help, [Outside] an access outside of an array,
    [NoFuel] a loop that has not ended. *)
Inductive outcome (A : Type) : Type := Ok (a : A) | Quit | Outside | NoFuel.
Arguments Ok {A}. Arguments Quit {A}. Arguments Outside {A}. Arguments NoFuel {A}.

(** u_ind[k] = 1 *)
Fixpoint mark (k : nat) (u : list bool) : option (list bool) :=
  match k, u with
  | _, [] => None
  | O, _ :: t => Some (true :: t)
  | S k', b :: t => match mark k' t with Some t' => Some (b :: t') | None => None end
  end.

(** 157-166: the while loop.  [p] is the word looked at; the result is
    (i, p_ind, u_ind, uargs, n, p). *)
Fixpoint take_values (fuel : nat) (argv : list string) (i k : nat) (u : list bool) (uargs : list string) (n : Z) (p : string)
  : outcome (nat * nat * list bool * list string * Z * string) :=
  match fuel with
  | O => NoFuel
  | S fuel' =>
      if flag_like p then Ok (i, k, u, uargs, n, p)
      else match mark k u with
           | None => Outside
           | Some u' =>
               match nth_error argv (S i) with
               | Some p' => take_values fuel' argv (S i) (S k) u' (uargs ++ [p]) (n + 1) p'
               | None => Ok (S i, S k, u', uargs ++ [p], n + 1, p)
               end
           end
  end.

(** 136-190: the for loop over the words.  [number] is argmap[flag].number;
    the result is (u_ind, uargs, present). *)
Fixpoint scan (fuel : nat) (argv : list string) (flag : string) (number : Z) (i k : nat)
    (u : list bool) (uargs : list string) (present : bool) : outcome (list bool * list string * bool) :=
  match fuel with
  | O => NoFuel
  | S fuel' =>
      match nth_error argv i with
      | None => Ok (u, uargs, present)
      | Some p =>
          if String.eqb p flag then
            match mark k u with
            | None => Outside
            | Some u1 =>
                match nth_error argv (S i) with
                | None => Ok (u1, uargs, true)                      (* break 152 *)
                | Some p1 =>
                    match take_values (S (length argv)) argv (S i) (S k) u1 uargs 0 p1 with
                    | Ok (i2, k2, u2, uargs2, n, p2) =>
                        (* 172-175 *)
                        let back := String.eqb p2 flag in
                        match (if back then mark k2 u2 else Some u2) with
                        | None => Outside
                        | Some u3 =>
                            let i3 := if back then Nat.pred i2 else i2 in
                            let k3 := if back then Nat.pred k2 else k2 in
                            (* 180-186 *)
                            if (0 <=? number) && negb (number =? n) then Quit
                            else scan fuel' argv flag number (S i3) (S k3) u3 uargs2 true
                        end
                    | Quit => Quit | Outside => Outside | NoFuel => NoFuel
                    end
                end
            end
          else scan fuel' argv flag number (S i) (S k) u uargs present
      end
  end.

(** 191-196: the words not marked. *)
Definition compact (argv : list string) (u : list bool) : list string :=
  map fst (filter (fun q => negb (snd q)) (combine argv u)).

(** read_arg_vector 126-199: the arguments, whether the flag was seen, and the
    remaining command line. *)
Definition read_arg_vector (argv : list string) (flag : string) (number : Z) : outcome (list string * bool * list string) :=
  match scan (S (length argv)) argv flag number 0 0 (map (fun _ => false) argv) [] false with
  | Ok (u, uargs, present) => Ok (uargs, present, compact argv u)
  | Quit => Quit | Outside => Outside | NoFuel => NoFuel
  end.

(** argmap: declared flags with number, values and present. *)
Record entry : Type := mkEntry { e_number : Z; e_values : list string; e_present : bool }.
Definition argmap : Type := list (string * entry).

(** add_flag 103-114 on a map given as a list in the order of the keys is not
    modelled further than its result: distinct flags with their numbers. *)

(** fill_argmap 205-223. *)
Fixpoint fill (todo : argmap) (argv : list string) : outcome (argmap * list string) :=
  match todo with
  | [] => Ok ([], argv)
  | (f, e) :: rest =>
      match read_arg_vector argv f (e_number e) with
      | Ok (uargs, present, argv') =>
          match fill rest argv' with
          | Ok (m, rest_argv) => Ok ((f, mkEntry (e_number e) uargs present) :: m, rest_argv)
          | Quit => Quit | Outside => Outside | NoFuel => NoFuel
          end
      | Quit => Quit | Outside => Outside | NoFuel => NoFuel
      end
  end.

Definition initialise_args (declared : argmap) (argv : list string) : outcome argmap :=
  match fill declared argv with
  | Ok (m, rest_argv) => if (1 <? length rest_argv)%nat then Quit else Ok m
  | Quit => Quit | Outside => Outside | NoFuel => NoFuel
  end.

(** std::map operator[]: a missing key gets a default entry. *)
Fixpoint lookup (m : argmap) (f : string) : option entry :=
  match m with
  | [] => None
  | (g, e) :: t => if String.eqb g f then Some e else lookup t f
  end.
Definition map_access (m : argmap) (f : string) : entry * argmap :=
  match lookup m f with
  | Some e => (e, m)
  | None => let e := mkEntry 0 [] false in (e, (f, e) :: m)
  end.

(** values 76-88. *)
Definition values (m : argmap) (f : string) : outcome (list string * argmap) :=
  let '(e, m') := map_access m f in
  match lookup m' f with
  | None => Quit
  | Some _ => Ok (e_values e, m')
  end.

(** flag_set 263-268, flag_present 275-277, get_string 383-407 (without clearing). *)
Definition flag_set (m : argmap) (f : string) : Z :=
  match lookup m f with Some e => Z.of_nat (length (e_values e)) | None => 0 end.
Definition flag_present (m : argmap) (f : string) : bool := e_present (fst (map_access m f)).
Definition get_string (m : argmap) (f : string) (i : nat) : outcome string :=
  if flag_set m f =? 0 then Quit
  else if Z.of_nat i <? flag_set m f then
    match nth_error (e_values (fst (map_access m f))) i with Some s => Ok s | None => Outside end
  else Quit.
