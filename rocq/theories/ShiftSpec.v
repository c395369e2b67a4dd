(** Specification of shifts. *)
From Verif Require Import Common LayoutModel LayoutSpec.

(** The site at distance [v] from [c] on the periodic lattice of sizes [ls]. *)
Definition translate (ls c v : list Z) : list Z :=
  map (fun j => (nth j c 0 + nth j v 0) mod nth j ls 0) (seq 0 (length ls)).

Definition add_vec (v w : list Z) : list Z := map (fun p => fst p + snd p) (combine v w).
Definition neg_vec (v : list Z) : list Z := map Z.opp v.
