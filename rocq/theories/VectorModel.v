(** Model of the vectorised field storage.  Line numbers:
    /repo/libraries/plumbing/backend_vector/field_storage_backend.h and
    lattice_vector.h (marked lv). *)
From Verif Require Import Common.
Open Scope Z_scope.

(** The array of base type elements: its length and contents.  An access outside is a
    failure ([None]). *)
Record storage (V : Type) : Type := mkStorage { s_len : Z; s_at : Z -> V }.
Arguments mkStorage {V}. Arguments s_len {V}. Arguments s_at {V}.

Section Storage.
Context {V : Type}.

Definition load (m : storage V) (p : Z) : option V := if (0 <=? p) && (p <? s_len m) then Some (s_at m p) else None.
Definition store (m : storage V) (p : Z) (v : V) : option (storage V) :=
  if (0 <=? p) && (p <? s_len m) then Some (mkStorage (s_len m) (fun q => if q =? p then v else s_at m q)) else None.

Fixpoint load_all (m : storage V) (ps : list Z) : option (list V) :=
  match ps with
  | [] => Some []
  | p :: ps' => match load m p, load_all m ps' with Some v, Some l => Some (v :: l) | _, _ => None end
  end.

Fixpoint store_all (m : storage V) (ps : list (Z * V)) : option (storage V) :=
  match ps with
  | [] => Some m
  | (p, v) :: ps' => match store m p v with Some m' => store_all m' ps' | None => None end
  end.

(** vs: vector_size, E: elements. *)
Variable vs E : Z.

(** 12-22, lv 275: the array has alloc_size sites of E elements. *)
Definition allocate_field (alloc_size : Z) (init : Z -> V) : storage V := mkStorage (alloc_size * E) init.

(** 98-99, 121-122: pointer to the first element of a site; element e is e * vs further. *)
Definition site_base (idx : Z) : Z := (idx / vs) * vs * E + idx mod vs.
Definition site_places (idx : Z) : list Z := map (fun e => site_base idx + e * vs) (zrange 0 (Z.to_nat E)).

(** 89-104 set_element, 109-128 get_element. *)
Definition set_element (m : storage V) (idx : Z) (value : list V) : option (storage V) :=
  store_all m (combine (site_places idx) value).
Definition get_element (m : storage V) (idx : Z) : option (list V) := load_all m (site_places idx).

(** 46-65 get_vector, 69-84 set_vector: [i] is the vector index; a vector value is a list of
    E vectors of vs numbers. *)
Definition vector_places (i : Z) : list (list Z) :=
  map (fun e => map (fun k => i * E * vs + e * vs + k) (zrange 0 (Z.to_nat vs))) (zrange 0 (Z.to_nat E)).

Fixpoint load_rows (m : storage V) (rows : list (list Z)) : option (list (list V)) :=
  match rows with
  | [] => Some []
  | r :: rows' => match load_all m r, load_rows m rows' with Some v, Some l => Some (v :: l) | _, _ => None end
  end.

Definition get_vector (m : storage V) (i : Z) : option (list (list V)) := load_rows m (vector_places i).

Fixpoint store_rows (m : storage V) (rows : list (list Z * list V)) : option (storage V) :=
  match rows with
  | [] => Some m
  | (r, v) :: rows' => match store_all m (combine r v) with Some m' => store_rows m' rows' | None => None end
  end.

Definition set_vector (m : storage V) (i : Z) (value : list (list V)) : option (storage V) :=
  store_rows m (combine (vector_places i) value).

(** 131-138 gather_elements, 160-166 place_elements. *)
Fixpoint gather_elements (m : storage V) (index_list : list Z) : option (list (list V)) :=
  match index_list with
  | [] => Some []
  | j :: l => match get_element m j, gather_elements m l with Some v, Some r => Some (v :: r) | _, _ => None end
  end.

Fixpoint place_elements (m : storage V) (buffer : list (list V)) (index_list : list Z) : option (storage V) :=
  match buffer, index_list with
  | v :: b, j :: l => match set_element m j v with Some m' => place_elements m' b l | None => None end
  | _, _ => Some m
  end.

(** 213-229: one halo vector: t[e + i] = s[e + perm[i]]; the negated copy applies [neg] (the
    identity otherwise). *)
Definition copy_permuted (neg : V -> V) (perm : Z -> Z) (m : storage V) (target source : Z) : option (storage V) :=
  fold_left (fun acc q => match acc with
                          | Some m => match load m (source * (E * vs) + fst q + perm (snd q)) with
                                      | Some v => store m (target * (E * vs) + fst q + snd q) (neg v)
                                      | None => None
                                      end
                          | None => None
                          end)
            (flat_map (fun e => map (fun i => (e * vs, i)) (zrange 0 (Z.to_nat vs))) (zrange 0 (Z.to_nat E)))
            (Some m).

(** 193-255 set_local_boundary_elements for a range of halo vectors: [halo_index] lists the
    source vectors from [start] on.  The copies without permutation (231-253) are the case
    perm = identity. *)
Fixpoint copy_halo (neg : V -> V) (perm : Z -> Z) (offset : Z) (m : storage V) (start : Z) (halo_index : list Z) : option (storage V) :=
  match halo_index with
  | [] => Some m
  | h :: l => match copy_permuted neg perm m (start + offset) h with
              | Some m' => copy_halo neg perm offset m' (start + 1) l
              | None => None
              end
  end.

(** 302-303 gather_comm_vectors: whole vectors in storage order, for every vs-th entry of
    the site list. *)
Definition raw_vector (m : storage V) (first_site : Z) : option (list V) :=
  load_all m (zrange (first_site * E) (Z.to_nat (vs * E))).
End Storage.

(** lv 371-373 site_neighbour. *)
Definition site_neighbour (vs : Z) (neighbours : Z -> Z) (idx : Z) : Z := vs * neighbours (idx / vs) + idx mod vs.
