(** Model of cluster finding.  Line numbers refer to
    /repo/libraries/plumbing/clusters.h. *)
From Verif Require Import Common LayoutModel SelectModel.

(** CLUSTER_BACKGROUND_ 118. *)
Definition background : Z := 255.

(** set_cl_label 120-129; the shift of an uint64_t loses bits above 63. *)
Definition set_cl_label (ls c : list Z) (type : Z) : Z :=
  if type =? background then Z.shiftl background 54
  else Z.lor (SiteIndex ls c) (Z.shiftl type 54 mod 2 ^ 64).

(** get_cl_label_type 131-133. *)
Definition get_cl_label_type (v : Z) : Z := Z.land 255 (Z.shiftr v 54).

(** ** make_labels 338-394 *)

(** The field of labels, as a function of the coordinates of the site. *)
Definition label_field : Type := list Z -> Z.

Definition coords_eqb (a b : list Z) : bool := if list_eq_dec Z.eq_dec a b then true else false.
Definition set_label (f : label_field) (x : list Z) (v : Z) : label_field :=
  fun c => if coords_eqb x c then v else f c.

(** 377-383 for the site X = x and the directions [ds]; [n] counts `changed += 1'.
    labels[X+d] is read from this rank's own memory, i.e. with the value it has
    now, or from the copies of other ranks' sites fetched before the loop, i.e.
    with the value at the start of the loop over this parity: [fresh x d] tells
    which.  (That fetched copies have this value is property C05.) *)
Fixpoint relax (lat : lattice) (start : label_field) (fresh : list Z -> Z -> bool) (x : list Z) (type_0 : Z)
    (ds : list Z) (s : label_field * Z) : label_field * Z :=
  match ds with
  | [] => s
  | d :: ds' =>
      let '(labels, n) := s in
      let y := neighbour lat x d in
      let label_1 := if fresh x d then labels y else start y in
      if (type_0 =? get_cl_label_type label_1) && (label_1 <? labels x)
      then relax lat start fresh x type_0 ds' (set_label labels x label_1, n + 1)
      else relax lat start fresh x type_0 ds' s
  end.

(** 374-386: the body of the site loop. *)
Definition visit_site (lat : lattice) (start : label_field) (fresh : list Z -> Z -> bool) (s : label_field * Z) (x : list Z)
  : label_field * Z :=
  let type_0 := get_cl_label_type (fst s x) in
  if type_0 =? background then s
  else relax lat start fresh x type_0 (zrange 0 (2 * length (l_size lat))) s.

(** 373-387: onsites(par), the sites of all ranks in the order [order]. *)
Definition parity_loop (lat : lattice) (fresh : list Z -> Z -> bool) (order : list (list Z)) (s : label_field * Z)
  : label_field * Z :=
  fold_left (visit_site lat (fst s) fresh) order s.

(** One turn of the do loop 351-390 (comm_interval is 1: always the else branch
    369-388): `changed = 0', then the even and the odd sites.  [round] gives the
    order of the sites and the kind of reads. *)
Record round : Type := mkRound {
  even_order : list (list Z); odd_order : list (list Z);
  even_fresh : list Z -> Z -> bool; odd_fresh : list Z -> Z -> bool }.

Definition one_round (lat : lattice) (rd : round) (labels : label_field) : label_field * Z :=
  parity_loop lat (odd_fresh rd) (odd_order rd)
    (parity_loop lat (even_fresh rd) (even_order rd) (labels, 0)).

(** The do loop: repeat while changed.value() > 0 (the sum over all ranks).
    [None]: not ended after [fuel] turns. *)
Fixpoint relax_loop (fuel : nat) (lat : lattice) (rounds : nat -> round) (k : nat) (labels : label_field) : option label_field :=
  match fuel with
  | O => None
  | S fuel' =>
      let '(labels', changed) := one_round lat (rounds k) labels in
      if 0 <? changed then relax_loop fuel' lat rounds (S k) labels' else Some labels'
  end.

(** 344: labels[ALL] = set_cl_label(X.coordinates(), type[X]), then the loop. *)
Definition make_labels (fuel : nat) (lat : lattice) (rounds : nat -> round) (type : list Z -> Z) : option label_field :=
  relax_loop fuel lat rounds 0 (fun c => set_cl_label (l_size lat) c (type c)).

(** ** find for links 295-305: the type field built from the links.  [link d c]
    is link[d][X] at the site c; X - d is the neighbour in the opposite direction. *)
Definition link_type (lat : lattice) (link : Z -> list Z -> Z) (c : list Z) : Z :=
  if existsb (fun d => negb (link d c =? 0) ||
                       negb (link d (neighbour lat c (opp_dir (Z.of_nat (length (l_size lat))) d)) =? 0))
       (zrange 0 (length (l_size lat)))
  then 1 else background.

(** ** make_local_clist 538-554 *)

(** std::sort of unsigned integers: the sorted list does not depend on the
    algorithm. *)
Fixpoint insert (a : Z) (l : list Z) : list Z :=
  match l with
  | [] => [a]
  | b :: t => if a <=? b then a :: l else b :: insert a t
  end.
Definition sort (l : list Z) : list Z := fold_right insert [] l.

(** 547-553, with [count] = i - istart elements equal to [label] seen. *)
Fixpoint count_runs (label count : Z) (buf : list Z) : list (Z * Z) :=
  match buf with
  | [] => [(label, count)]
  | b :: t => if b =? label then count_runs label (count + 1) t
              else (label, count) :: (if get_cl_label_type b =? background then [] else count_runs b 1 t)
  end.

Definition make_local_clist (buf : list Z) : list (Z * Z) :=
  match sort buf with
  | [] => []
  | b :: t => if get_cl_label_type b =? background then [] else count_runs b 1 t
  end.

(** ** classify 406-466 *)

(** Merging of two lists 440-457. *)
Fixpoint merge (a : list (Z * Z)) : list (Z * Z) -> list (Z * Z) :=
  match a with
  | [] => fun b => b
  | (la, na) :: a' =>
      fix merge_a (b : list (Z * Z)) : list (Z * Z) :=
        match b with
        | [] => a
        | (lb, nb) :: b' =>
            if la <? lb then (la, na) :: merge a' b
            else if la =? lb then (la, na + nb) :: merge a' b'
            else (lb, nb) :: merge_a b'
        end
  end.

(** One step of the loop 427-461 on all [nn] ranks. *)
Definition merge_step (nn step : Z) (clist : Z -> list (Z * Z)) : Z -> list (Z * Z) :=
  fun r => if r mod (2 * step) =? step then []
           else if (r mod (2 * step) =? 0) && (r + step <? nn) then merge (clist r) (clist (r + step))
           else clist r.

(** for (step = 1; step < nn; step *= 2).  [None]: not ended. *)
Fixpoint merge_loop (fuel : nat) (nn step : Z) (clist : Z -> list (Z * Z)) : option (Z -> list (Z * Z)) :=
  if step <? nn then
    match fuel with
    | O => None
    | S fuel' => merge_loop fuel' nn (2 * step) (merge_step nn step clist)
    end
  else Some clist.

(** 421-466: local lists, merging, broadcast from rank 0.  [bufs r] are the labels
    in the memory of rank r. *)
Definition classify (fuel : nat) (nn : Z) (bufs : Z -> list Z) : option (Z -> list (Z * Z)) :=
  match merge_loop fuel nn 1 (fun r => make_local_clist (bufs r)) with
  | Some clist => Some (fun _ => clist 0)
  | None => None
  end.

(** cluster_ref::area 180-197: a sum over the sites [order] (all ranks). *)
Definition area (lat : lattice) (labels : label_field) (order : list (list Z)) (lbl : Z) : Z :=
  zsum (map (fun x => if labels x =? lbl
                      then zsum (map (fun d => if labels (neighbour lat x d) =? lbl then 0 else 1)
                                     (zrange 0 (2 * length (l_size lat))))
                      else 0) order).
