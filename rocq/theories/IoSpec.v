(** Specification of field files. *)
From Verif Require Import Common LayoutModel.

(** All sites of a lattice of sizes [ls], the first coordinate running fastest. *)
Fixpoint sites_in_file_order (ls : list Z) : list (list Z) :=
  match ls with
  | [] => [[]]
  | n :: ls' => flat_map (fun rest => map (fun x => x :: rest) (zrange 0 (Z.to_nat n))) (sites_in_file_order ls')
  end.

(** The file of a field: the bytes of its elements in that order. *)
Definition file_of {V B : Type} (ser : V -> list B) (ls : list Z) (F : list Z -> V) : list B :=
  flat_map (fun c => ser (F c)) (sites_in_file_order ls).

(** [deser] inverts [ser], and elements have [sz] bytes. *)
Definition codec {V B : Type} (ser : V -> list B) (deser : list B -> V) (sz : Z) : Prop :=
  0 < sz /\ forall v, deser (ser v) = v /\ Z.of_nat (length (ser v)) = sz.

(** Sites of the part of the lattice covered by whole copies of a configuration
    of sizes [insize], and the site of the configuration copied there. *)
Fixpoint covered (ls insize c : list Z) : Prop :=
  match ls, insize, c with
  | [], [], [] => True
  | n :: ls', m :: insize', x :: c' => 0 <= x < m * (n / m) /\ covered ls' insize' c'
  | _, _, _ => False
  end.

Fixpoint modulo_size (insize c : list Z) : list Z :=
  match insize, c with
  | m :: insize', x :: c' => x mod m :: modulo_size insize' c'
  | _, _ => []
  end.
