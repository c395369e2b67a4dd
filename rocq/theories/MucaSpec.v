(** What the multicanonical tools are for, independent of how they work. *)
From Coq Require Import QArith.
From Verif Require Import Common SrcbufModel MucaModel.
Open Scope nat_scope.

Definition increasing (l : list Q) : Prop :=
  forall i a b, nth_error l i = Some a -> nth_error l (S i) = Some b -> (a < b)%Q.

(** [x] lies strictly between the first and the last limit. *)
Definition in_range (limits : list Q) (x : Q) : Prop :=
  exists a b, nth_error limits 0 = Some a /\ nth_error limits (length limits - 1) = Some b /\ (a < x)%Q /\ (x < b)%Q.

(** [x] lies in bin [i]: above its lower limit, not above its upper one. *)
Definition in_bin (limits : list Q) (i : nat) (x : Q) : Prop :=
  exists a b, nth_error limits i = Some a /\ nth_error limits (S i) = Some b /\ (a < x)%Q /\ (x <= b)%Q.

(** [counts xs P n]: [n] of the values [xs] satisfy [P]. *)
Inductive counts (P : Q -> Prop) : list Q -> Z -> Prop :=
| counts_nil : counts P [] 0%Z
| counts_yes : forall x xs n, P x -> counts P xs n -> counts P (x :: xs) (n + 1)%Z
| counts_no : forall x xs n, ~ P x -> counts P xs n -> counts P (x :: xs) n.

(** The values of a history are binned one after another. *)
Fixpoint bin_all (limits : list Q) (hits : list Z) (xs : list Q) : option (list Z) :=
  match xs with
  | [] => Some hits
  | x :: xs' => do h <- bin_hit_OP_value limits hits x; bin_all limits h xs'
  end.

(** A state of the right shape: at least one bin, increasing limits, vectors of fitting lengths and
    parameters that are not zero. *)
Definition well_formed (m : muca) : Prop :=
  0 < length (weights m) /\ length (limits m) = length (weights m) + 1 /\ increasing (limits m) /\
  length (hits m) = length (weights m) /\ length (hits_total m) = length (weights m) /\
  (0 < sample_size m)%Z /\ (0 < single_check_interval m)%Z /\
  (finish_check m = all_visited \/ finish_check m = first_last_visited).

(** A run of one of the methods over a history of values; the answers in order. *)
Fixpoint run {A : Type} (step : muca -> Q -> option (muca * A)) (m : muca) (xs : list Q) : option (muca * list A) :=
  match xs with
  | [] => Some (m, [])
  | x :: xs' => do r <- step m x; do r' <- run step (fst r) xs'; Some (fst r', snd r :: snd r')
  end.

Definition qsum (l : list Q) : Q := fold_right Qplus 0%Q l.

(** The rule of the canonical method for two adjacent bins: [h0], [h] hits, [g] the earlier data,
    [d0], [d] the densities, [p0], [p] the old weights, [w0], [w] the new ones.  With enough hits in
    both bins the new weight difference is the average of the old one and of -ln (d0 / d), weighted
    with the amounts of data; otherwise the difference stays. *)
Definition canonical_rule (ln : Q -> Q) (min_hits h0 h g : Z) (d0 d p0 p w0 w : Q) (g' : Z) : Prop :=
  ((min_hits <= h0 /\ min_hits <= h)%Z -> g' = (g + (h + h0))%Z /\
     (w == w0 + ((p - p0) * inject_Z g - inject_Z (h + h0) * ln (d0 / d)) / inject_Z (g + (h + h0)))%Q) /\
  (~ (min_hits <= h0 /\ min_hits <= h)%Z -> g' = g /\ (w - w0 == p - p0)%Q).

(** Histogram divided by bin width. *)
Definition density (can limits : list Q) (i : nat) : Q := (nth i can 0 / (nth (S i) limits 0 - nth i limits 0))%Q.

(** What a value in bin [i] adds to counter [j] in the smooth method. *)
Definition smooth_kernel (i j : nat) : Z :=
  match Z.abs (Z.of_nat j - Z.of_nat i) with 0 => 5 | 1 => 3 | 2 => 1 | _ => 0 end%Z.
