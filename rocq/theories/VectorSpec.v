(** Vocabulary for the statements about the vectorised storage: a field is a function
    site -> component -> value, whatever the order of the numbers in memory. *)
From Verif Require Import Common VectorModel.
Open Scope Z_scope.

(** The array [m] with room for [sites] sites holds the field [f]: reading any site gives its
    E components. *)
Definition holds_field {V} (vs E sites : Z) (m : storage V) (f : Z -> Z -> V) : Prop :=
  forall i, 0 <= i < sites -> get_element vs E m i = Some (map (f i) (zrange 0 (Z.to_nat E))).

(** The field with one site replaced. *)
Definition with_site {V} (f : Z -> Z -> V) (i : Z) (v : Z -> V) : Z -> Z -> V :=
  fun j => if j =? i then v else f j.

(** The field with the sites of one vector replaced: lane [k] of vector [i] is the site
    i * vs + k. *)
Definition with_vector {V} (vs : Z) (f : Z -> Z -> V) (i : Z) (v : Z -> Z -> V) : Z -> Z -> V :=
  fun j => if j / vs =? i then v (j mod vs) else f j.

(** The value list of a vector: row e has component e of all lanes. *)
Definition rows {V} (vs E : Z) (v : Z -> Z -> V) : list (list V) :=
  map (fun e => map (fun k => v k e) (zrange 0 (Z.to_nat vs))) (zrange 0 (Z.to_nat E)).

(** The room is a whole number of vectors. *)
Definition room_for (vs E sites : Z) : Prop := 0 < vs /\ 0 < E /\ 0 <= sites /\ sites mod vs = 0.

Definition is_permutation (vs : Z) (perm : Z -> Z) : Prop :=
  forall k, 0 <= k < vs -> 0 <= perm k < vs.

(** Filling halo vectors: target vector first + n takes, in lane k, the site of lane perm k of
    the n-th source vector. *)
Definition with_halo {V} (vs : Z) (neg : V -> V) (perm : Z -> Z) (first : Z) (sources : list Z) (f : Z -> Z -> V) : Z -> Z -> V :=
  fun j e => match nth_error sources (Z.to_nat (j / vs - first)) with
             | Some s => if first <=? j / vs then neg (f (s * vs + perm (j mod vs)) e) else f j e
             | None => f j e
             end.
