(** Specification of the column transforms. *)
From Verif Require Import Common LayoutModel LayoutSpec.
Open Scope Z_scope.

(** The site [x] with component [dir] replaced by [y]. *)
Fixpoint set_coord (dir : nat) (y : Z) (x : list Z) : list Z :=
  match x, dir with
  | [], _ => []
  | _ :: x', O => y :: x'
  | a :: x', S d => a :: set_coord d y x'
  end.

(** The transform of a field (element [e] of the value at site [x]) along [dir] with a
    function [F] on columns: the values on the line through [x] are given to [F] in the
    order of the coordinate. *)
Definition along {V : Type} (L : Z) (dir : nat) (F : list V -> list V) (g : list Z -> Z -> V) : list Z -> Z -> V :=
  fun x e => nth (Z.to_nat (nth dir x 0)) (F (map (fun k => g (set_coord dir k x) e) (zrange 0 (Z.to_nat L)))) (g x e).

(** One direction after another. *)
Definition along_all {V : Type} (ls : list Z) (F : nat -> list V -> list V) (dirs : list nat) (g : list Z -> Z -> V) : list Z -> Z -> V :=
  fold_left (fun h dir => along (nth dir ls 0) dir (F dir) h) dirs g.

(** A lattice where every rank has sites: no more divisions than sites in any
    direction. *)
Definition no_empty_rank (lat : lattice) : Prop :=
  forall j, (j < length (l_size lat))%nat -> nth j (n_divisions lat) 0 <= nth j (l_size lat) 0.

(** The result on one rank: one value for every element of every site of the rank. *)
Definition is_field_on {V : Type} (lat : lattice) (r E : Z) (g : list Z -> Z -> V) (out : list (list Z * Z * V)) : Prop :=
  NoDup (map fst out) /\
  (forall x e v, In (x, e, v) out <-> holds lat r x /\ 0 <= e < E /\ v = g x e).

(** The mirror image of a coordinate, and of a site in the directions [dirs]. *)
Definition mirror (L y : Z) : Z := (L - y) mod L.
Definition mirror_site (ls : list Z) (dirs : list nat) (x : list Z) : list Z :=
  map (fun j => if existsb (Nat.eqb j) dirs then mirror (nth j ls 0) (nth j x 0) else nth j x 0) (seq 0 (length x)).

Definition all_dirs (ls : list Z) : list nat := seq 0 (length ls).

Definition conj (z : Z * Z) : Z * Z := (fst z, - snd z).
