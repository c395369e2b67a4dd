(** Texts for time limits, and what a program may expect of the checks. *)
From Coq Require Import QArith String.
From Verif Require Import Common SrcbufModel CmdargsModel InputSpec.
Open Scope list_scope.
Open Scope nat_scope.

(** A field: digits with a value below 2^32. *)
Definition field (t : text) (v : Z) : Prop := digits t /\ number_of t = v /\ (v < 2 ^ 32)%Z.
(** The documented format d-h:m:s, from which the largest fields may be left out. *)
Inductive time_text : text -> Z -> Prop :=
| time_s : forall ts s, field ts s -> time_text ts s
| time_ms : forall tm ts m s, field tm m -> field ts s -> time_text (tm ++ str ":" ++ ts) (60 * m + s)
| time_hms : forall th tm ts h m s, field th h -> field tm m -> field ts s ->
    time_text (th ++ str ":" ++ tm ++ str ":" ++ ts) (3600 * h + 60 * m + s)
| time_dhms : forall td th tm ts d h m s, field td d -> field th h -> field tm m -> field ts s ->
    time_text (td ++ str "-" ++ th ++ str ":" ++ tm ++ str ":" ++ ts) (86400 * d + 3600 * h + 60 * m + s).

(** The longest interval between calls at the times [ts], the first one counted from [t0]; [m] is the
    longest one before. *)
Fixpoint longest (m t0 : Q) (ts : list Q) : Q :=
  match ts with [] => m | t :: r => longest (if Qlt_le_dec m (t - t0) then t - t0 else m)%Q t r end.
Fixpoint ordered (t0 : Q) (ts : list Q) : Prop :=
  match ts with [] => True | t :: r => (t0 <= t)%Q /\ ordered t r end.
