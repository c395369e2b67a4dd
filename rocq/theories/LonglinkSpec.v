(** What is said of blocked gauge fields. *)
From Verif Require Import Common GaugeModel GaugeSpec ForceModel ForceSpec.
From Verif Require Import LayoutModel LayoutSpec BlockModel BlockSpec.

(** The long link from the blocked site x in direction d: the product of the
    links of the parent lattice from the parent site of x along d, as many as the
    blocking factor. *)
Definition long_link (M : matrices) (L bf : list Z) (U : gauge M) : gauge M :=
  fun d x => line M L U d (Z.to_nat (nth d bf 0)) (times bf x).

(** The path on the parent lattice: each step is repeated. *)
Definition long_path (bf : list Z) (path : list step) : list step :=
  flat_map (fun s => repeat s (Z.to_nat (nth (step_dir s) bf 0))) path.
