(** What a weight file is for. *)
From Coq Require Import QArith Qabs String.
From Verif Require Import Common SrcbufModel WordsSpec CmdargsModel MucaModel DecimalModel MucafileModel.
Open Scope list_scope.
Open Scope nat_scope.

(** The numbers for which "%e" and a float keep six digits. *)
Definition fits (x : Q) : Prop := (x == 0)%Q \/ ((qpow 10 (-37) <= Qabs x)%Q /\ (Qabs x <= qpow 10 38)%Q).

(** [y] is [x] up to a relative error of one part in a million. *)
Definition close (x y : Q) : Prop := (Qabs (y - x) <= (1 # 1000000) * Qabs x)%Q.

(** A free-form header line: one line, without the column keyword. *)
Definition header_line (l : text) : Prop := ~ In newline l /\ forall i, ~ occurs l (str "OP_value") i.

Definition as_text (ls : list text) : text := concat (map (fun l => l ++ [newline]) ls).

(** Three increasing numbers. *)
Definition increasing_three (l : list Q) : Prop := match l with [a; b; c] => (a < b)%Q /\ (b < c)%Q | _ => False end.
