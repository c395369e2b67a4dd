(** Model of gauge actions and their forces: libraries/gauge/wilson_plaquette_action.h,
    libraries/gauge/wilson_line_and_force.h, libraries/gauge/improved_action.h,
    libraries/gauge/clover_action.h and the parts of
    applications/suN_hmc/src/suN_hmc.cpp that move the momenta and measure the
    energy (without stout smearing, STOUTSTEPS 0).

    Sites, neighbours, matrices and the meaning of site loops are those of
    [GaugeModel]; start_gather only announces a read (C07).  Numbers are exact.
    A field that is declared and not yet assigned has an arbitrary value, the
    argument [stale].  A sum over the lattice is the sum of the values of the
    sites (C18-C20). *)
From Coq Require Import ZArith List Bool.
From Verif Require Import Common GaugeModel.
Import ListNotations.

(** More operations on matrices and numbers. *)
Record linear (M : matrices) := mkLinear {
  msub : mat M -> mat M -> mat M;
  mscale : re M -> mat M -> mat M;
  untrace : mat M -> mat M;        (* A - trace(A) / N *)
  squarenorm : mat M -> re M;
  rmul : re M -> re M -> re M;
  over_n : re M -> re M;           (* t / N *)
  rhalf : re M;                    (* 0.5 *)
  rquarter : re M                  (* 0.25 *)
}.

(** Elements of the Lie algebra. *)
Record algebras (M : matrices) := mkAlgebras {
  alg : Type;
  azero : alg;
  aadd : alg -> alg -> alg;
  asub : alg -> alg -> alg;
  project : re M -> mat M -> alg;  (* A.project_to_algebra_scaled(s) *)
  anorm2 : alg -> re M;            (* squarenorm() *)
  ropp : re M -> re M;
  nonzero : re M -> bool           (* c != 0 *)
}.

(** A path is a list of directions: up in a direction or down. *)
Inductive step := Up (d : nat) | Down (d : nat).

Section Force.
Context (M : matrices) (LM : linear M) (G : algebras M) (L : list Z).
Notation "a * b" := (mul M a b).
Notation "a + b" := (madd M a b).
Notation dag := (dagger M).
Notation "x +/ d" := (up L d x) (at level 45, left associativity).
Notation "x -/ d" := (down L d x) (at level 45, left associativity).

Definition mfield := site -> mat M.

(** VectorField<Algebra<group>>. *)
Definition momenta := nat -> site -> alg M G.

(** onsites(ALL) K[d][X] = f(X). *)
Definition set_dir (K : momenta) (d : nat) (f : site -> alg M G) : momenta :=
  fun d' x => if (d' =? d)%nat then f x else K d' x.

(** ** wilson_plaquette_action.h *)

(** 10-46 rstaplesum: the body of the loop over d2. *)
Definition rstaples_dir (U : gauge M) (d1 : nat) (st : mfield * bool) (d2 : nat) : mfield * bool :=
  let '(staples, first) := st in
  if (d2 =? d1)%nat then st else
  let lower : mfield := fun x => dag (U d1 x * U d2 (x +/ d1)) * U d2 x in
  let staples1 : mfield :=
    if first then fun x => U d2 (x +/ d1) * dag (U d2 x * U d1 (x +/ d2))
    else fun x => staples x + U d2 (x +/ d1) * dag (U d2 x * U d1 (x +/ d2)) in
  let staples2 : mfield := fun x => staples1 x + lower (x -/ d2) in
  (staples2, false).

Definition rstaplesum (U : gauge M) (staples : mfield) (d1 : nat) : mfield :=
  fst (fold_left (rstaples_dir U d1) (directions L) (staples, true)).

(** 48-63 measure_s_wplaq. *)
Definition measure_s_wplaq (U : gauge M) : re M :=
  fold_left (fun s dd =>
      let '(dir1, dir2) := dd in
      if (dir1 <? dir2)%nat then
        fold_left (fun s x =>
            radd M s (one_minus_over_n M (real M (trace M
              (U dir1 x * U dir2 (x +/ dir1) * dag (U dir2 x * U dir1 (x +/ dir2)))))))
          (sites L) s
      else s)
    (list_prod (directions L) (directions L)) (rzero M).

(** 89-122 get_force_wplaq_add. *)
Definition get_force_wplaq_add (U : gauge M) (stale : mfield) (K : momenta) (eps : re M) : momenta :=
  snd (fold_left (fun st d =>
      let '(staple, K) := st in
      let staple' := rstaplesum U staple d in
      (staple', set_dir K d (fun x => asub M G (K d x) (project M G eps (U d x * staple' x)))))
    (directions L) (stale, K)).

(** 124-135 get_force_wplaq. *)
Definition get_force_wplaq (U : gauge M) (stale : mfield) (K : momenta) (eps : re M) : momenta :=
  snd (fold_left (fun st d =>
      let '(staple, K) := st in
      let staple' := rstaplesum U staple d in
      (staple', set_dir K d (fun x => project M G (ropp M G eps) (U d x * staple' x))))
    (directions L) (stale, K)).

(** ** wilson_line_and_force.h *)

(** 32-39: the first link; 44-54 and 57-66: one more link. *)
Definition first_link (U : gauge M) (s : step) : mfield :=
  match s with
  | Up d => fun x => U d (x -/ d)
  | Down d => fun x => dag (U d x)
  end.

Definition next_link (U : gauge M) (R : mfield) (s : step) : mfield :=
  match s with
  | Up d => fun x => R (x -/ d) * U d (x -/ d)
  | Down d => fun x => R (x +/ d) * dag (U d x)
  end.

(** 11-67 get_wilson_line.  For a path of length 0 or 1 an element behind the
    end of the path is read: no result. *)
Definition get_wilson_line (U : gauge M) (path : list step) : option mfield :=
  match path with
  | s :: ((_ :: _) as rest) =>
      let R0 := fold_left (next_link U) (removelast rest) (first_link U s) in
      Some (next_link U R0 (last rest s))
  | _ => None
  end.

(** 86-104: one step of the path. *)
Definition wloop_step (U : gauge M) (eps : re M) (st : mfield * momenta) (s : step) :
    mfield * momenta :=
  let '(R, K) := st in
  match s with
  | Up d =>
      let K' := set_dir K d (fun x => asub M G (K d x) (project M G eps (R x))) in
      let R0 : mfield := fun x => dag (U d (x -/ d)) * R (x -/ d) in
      let R' : mfield := fun x => R0 x * U d (x -/ d) in
      (R', K')
  | Down d =>
      let R0 : mfield := fun x => U d x * R (x +/ d) in
      let R' : mfield := fun x => R0 x * dag (U d x) in
      (R', set_dir K d (fun x => aadd M G (K d x) (project M G eps (R' x))))
  end.

(** 69-105 get_wloop_force_from_wl_add. *)
Definition get_wloop_force_from_wl_add (U : gauge M) (path : list step) (W : mfield) (eps : re M)
    (K : momenta) : momenta :=
  snd (fold_left (wloop_step U eps) path (W, K)).

(** 119-155 get_wloop_force_add. *)
Definition get_wloop_force_add (U : gauge M) (path : list step) (eps : re M) (K : momenta) :
    option momenta :=
  match get_wilson_line U path with
  | None => None
  | Some R => Some (snd (fold_left (wloop_step U eps) path (R, K)))
  end.

(** ** improved_action.h *)

(** 54-86 measure_s_impr. *)
Definition measure_s_impr (U : gauge M) (c11 c12 : re M) : re M :=
  fold_left (fun s dd =>
      let '(dir1, dir2) := dd in
      if (dir1 <? dir2)%nat then
        let tP : mfield := fun x =>
          U dir1 x * U dir2 (x +/ dir1) * dag (U dir2 x * U dir1 (x +/ dir2)) in
        let s1 := fold_left (fun s x =>
            radd M s (rmul M LM c11 (one_minus_over_n M (real M (trace M (tP x))))))
          (sites L) s in
        fold_left (fun s x =>
            radd M
              (radd M s (rmul M LM c12 (one_minus_over_n M (real M (trace M
                (U dir1 x * tP (x +/ dir1) * dag (U dir1 x) * tP x))))))
              (rmul M LM c12 (one_minus_over_n M (real M (trace M
                (tP x * U dir2 x * tP (x +/ dir2) * dag (U dir2 x)))))))
          (sites L) s1
      else s)
    (list_prod (directions L) (directions L)) (rzero M).

(** 100-135: the body of the loop over dir2. *)
Definition impr_dir2 (U : gauge M) (c12 : re M) (dir1 : nat) (st : mfield * bool * momenta)
    (dir2 : nat) : mfield * bool * momenta :=
  let '(tstap, first, K) := st in
  if (dir1 =? dir2)%nat then st else
  let lstap : mfield := fun x => dag (U dir1 x * U dir2 (x +/ dir1)) * U dir2 x in
  let ustap : mfield := fun x => U dir2 (x +/ dir1) * dag (U dir2 x * U dir1 (x +/ dir2)) in
  let tstap' : mfield :=
    if first then fun x => ustap x + lstap (x -/ dir2)
    else fun x => tstap x + ustap x + lstap (x -/ dir2) in
  let K' :=
    if nonzero M G c12 then
      let W : mfield := fun x => dag (lstap (x -/ dir2)) * ustap x in
      get_wloop_force_from_wl_add U
        [Down dir2; Up dir1; Up dir2; Up dir2; Down dir1; Down dir2] W c12 K
    else K in
  (tstap', false, K').

(** 88-142 get_force_impr_add. *)
Definition get_force_impr_add (U : gauge M) (stale : mfield) (K : momenta) (c11 c12 : re M) : momenta :=
  snd (fold_left (fun st dir1 =>
      let '(tstap, K) := st in
      let '(tstap', _, K') := fold_left (impr_dir2 U c12 dir1) (directions L) (tstap, true, K) in
      (tstap', set_dir K' dir1 (fun x =>
         asub M G (K' dir1 x) (project M G c11 (U dir1 x * tstap' x)))))
    (directions L) (stale, K)).

(** foralldir(d1) K[d1][ALL] = 0. *)
Definition clear (K : momenta) : momenta :=
  fold_left (fun K d => set_dir K d (fun _ => azero M G)) (directions L) K.

(** 144-153 get_force_impr. *)
Definition get_force_impr (U : gauge M) (stale : mfield) (K : momenta) (c11 c12 : re M) : momenta :=
  get_force_impr_add U stale (clear K) c11 c12.

(** ** clover_action.h *)

(** 11-67 get_clover_leaves: the four leaves and Csum. *)
Definition get_clover_leaves (U : gauge M) (d1 d2 : nat) : (nat -> mfield) * mfield :=
  let tF : mfield := fun x =>
    mscale M LM (rquarter M LM) (U d2 (x +/ d1) * dag (U d2 x * U d1 (x +/ d2))) in
  let C0 : mfield := fun x => U d1 x * tF x in
  let C2 : mfield := fun x => tF x * U d1 x in
  let Csum : mfield := fun x => dag (U d2 x) * C0 x * U d2 x in
  let C1 : mfield := fun x => C2 (x -/ d1) in
  let tF' : mfield := fun x => dag (U d2 x) * C1 x * U d2 x in
  let C3 : mfield := fun x => Csum (x -/ d2) in
  let C2' : mfield := fun x => tF' (x -/ d2) in
  let Csum' : mfield := fun x =>
    let c := C0 x + C1 x + C2' x + C3 x in
    let c' := msub M LM c (dag c) in
    let c'' := mscale M LM (rhalf M LM) c' in
    untrace M LM c'' in
  (fun k => match k with O => C0 | 1%nat => C1 | 2%nat => C2' | _ => C3 end, Csum').

(** 69-84 measure_s_clover. *)
Definition measure_s_clover (U : gauge M) : re M :=
  over_n M LM (fold_left (fun s dd =>
      let '(dir1, dir2) := dd in
      if (dir1 <? dir2)%nat then
        let Csum := snd (get_clover_leaves U dir1 dir2) in
        fold_left (fun s x => radd M s (rmul M LM (rhalf M LM) (squarenorm M LM (Csum x))))
          (sites L) s
      else s)
    (list_prod (directions L) (directions L)) (rzero M)).

(** 101-104: the paths of the leaves. *)
Definition leaf_path (dir1 dir2 : nat) (k : nat) : list step :=
  match k with
  | O => [Up dir1; Up dir2; Down dir1; Down dir2]
  | 1%nat => [Up dir2; Down dir1; Down dir2; Up dir1]
  | 2%nat => [Down dir1; Down dir2; Up dir1; Up dir2]
  | _ => [Down dir2; Up dir1; Up dir2; Down dir1]
  end.

(** 86-124 get_force_clover_add. *)
Definition get_force_clover_add (U : gauge M) (K : momenta) (eps : re M) : momenta :=
  fold_left (fun K dd =>
      let '(dir1, dir2) := dd in
      if (dir1 <? dir2)%nat then
        let '(C, Csum) := get_clover_leaves U dir1 dir2 in
        fold_left (fun K k =>
            let tC : mfield := fun x => C k x * Csum x in
            get_wloop_force_from_wl_add U (leaf_path dir1 dir2 k) tC eps K)
          [0; 1; 2; 3]%nat K
      else K)
    (list_prod (directions L) (directions L)) K.

(** 126-134 get_force_clover. *)
Definition get_force_clover (U : gauge M) (K : momenta) (eps : re M) : momenta :=
  get_force_clover_add U (clear K) eps.

(** ** suN_hmc.cpp *)

(** 105-161 update_E for the plaquette action and for the improved actions. *)
Definition update_E_wplaq (U : gauge M) (stale : mfield) (E : momenta) (delta : re M) : momenta :=
  let eps := over_n M LM delta in
  get_force_wplaq_add U stale E eps.

Definition update_E_impr (U : gauge M) (stale : mfield) (c11 c12 : re M) (E : momenta) (delta : re M) :
    momenta :=
  let eps := over_n M LM delta in
  get_force_impr_add U stale E (rmul M LM eps c11) (rmul M LM eps c12).

(** 171-180 measure_e2. *)
Definition measure_e2 (E : momenta) : re M :=
  rmul M LM (rhalf M LM)
    (fold_left (fun s d => fold_left (fun s x => radd M s (anorm2 M G (E d x))) (sites L) s)
      (directions L) (rzero M)).

(** 182-190 measure_action; [s] is measure_s(U). *)
Definition measure_action (beta s : re M) (E : momenta) : re M :=
  radd M (rmul M LM beta s) (rmul M LM (rhalf M LM) (measure_e2 E)).

End Force.
