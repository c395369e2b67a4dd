(** C48: gauge observables. *)
From Coq Require Import ZArith List Bool Lia QArith Qcanon.
From Verif Require Import Common GaugeModel GaugeSpec GaugeProofs1 GaugeProofs2 GaugeMatrix.
Import ListNotations.
Open Scope Z_scope.

(** ** Examples of matrices: the quaternions with rational coefficients *)

Record quat := Quat { q0 : Qc; q1 : Qc; q2 : Qc; q3 : Qc }.

Definition quaternions : matrices :=
  {| mat := quat; cx := Qc; re := Qc;
     mone := Quat 1 0 0 0; mzero := Quat 0 0 0 0;
     mul := fun a b =>
       (Quat (q0 a * q0 b - q1 a * q1 b - q2 a * q2 b - q3 a * q3 b)
             (q0 a * q1 b + q1 a * q0 b + q2 a * q3 b - q3 a * q2 b)
             (q0 a * q2 b - q1 a * q3 b + q2 a * q0 b + q3 a * q1 b)
             (q0 a * q3 b + q1 a * q2 b - q2 a * q1 b + q3 a * q0 b))%Qc;
     madd := fun a b => (Quat (q0 a + q0 b) (q1 a + q1 b) (q2 a + q2 b) (q3 a + q3 b))%Qc;
     dagger := fun a => (Quat (q0 a) (- q1 a) (- q2 a) (- q3 a))%Qc;
     trace := fun a => (q0 a + q0 a)%Qc;
     czero := 0%Qc; cadd := Qcplus;
     real := fun t => t;
     rzero := 0%Qc; radd := Qcplus;
     one_minus_over_n := fun t => (1 - t / Q2Qc 2)%Qc;
     cover := fun t k => (t / Q2Qc (inject_Z k))%Qc;
     rover_n := fun t k => (t / (Q2Qc 2 * Q2Qc (inject_Z k)))%Qc |}.

Lemma quaternion_laws : matrix_laws quaternions.
Proof.
  constructor; cbn; intros;
    repeat match goal with a : quat |- _ => destruct a end; cbn;
    try (f_equal; ring); ring.
Qed.

Definition qi : quat := Quat 0 1 0 0.
Definition qj : quat := Quat 0 0 1 0.
Definition q345 : quat := Quat (Q2Qc (3 # 5)) 0 0 (Q2Qc (4 # 5)).

(** A 2 x 4 lattice with links and a transformation that do not commute. *)
Definition L24 : list Z := [2; 4].
Definition U24 : gauge quaternions := fun d x =>
  match d with
  | O => if coordinate 1 x =? 2 then qi else q345
  | _ => if (coordinate 0 x =? 0) && (coordinate 1 x =? 0) then q345 else qj
  end.
Definition g24 : site -> mat quaternions := fun x =>
  match coordinate 1 x with 0 => qi | 1 => q345 | 2 => qj | _ => Quat 1 0 0 0 end.

Lemma sizes24 : sizes L24.
Proof. repeat constructor. Qed.

Lemma even24 : even_sizes L24.
Proof. repeat constructor. Qed.

Lemma unit_qi : unitary quaternions qi.
Proof. split; cbn; f_equal; ring. Qed.
Lemma unit_qj : unitary quaternions qj.
Proof. split; cbn; f_equal; ring. Qed.
Lemma unit_q345 : unitary quaternions q345.
Proof. split; cbn; f_equal; try ring; apply Qc_is_canon; reflexivity. Qed.

Lemma unitary24 : forall x, on_lattice L24 x -> unitary quaternions (g24 x).
Proof.
  intros x _. unfold g24.
  assert (unitary quaternions (Quat 1 0 0 0)) by (split; cbn; f_equal; ring).
  destruct (coordinate 1 x) as [|[?|[?|?|]|]|]; auto using unit_qi, unit_qj, unit_q345.
Qed.

(** ** Complex matrices *)

(** n by n matrices over every numerically closed field satisfy the laws. *)
Theorem C48_complex : forall C n, matrix_laws (complex_matrices C n).
Proof. exact complex_matrix_laws. Qed.
Print Assumptions C48_complex.

(** ** Plaquettes *)

(** Plaquettes transform by conjugation; their traces and the measured sums
    are gauge invariant. *)
Theorem C48_plaquette : forall M, matrix_laws M -> forall L, sizes L ->
  forall g, (forall x, on_lattice L x -> unitary M (g x)) -> forall U,
  (forall d1 d2 x, on_lattice L x ->
     plaquette M L (transform M L g U) d1 d2 x
     = mul M (mul M (g x) (plaquette M L U d1 d2 x)) (dagger M (g x)) /\
     trace M (plaquette M L (transform M L g U) d1 d2 x) = trace M (plaquette M L U d1 d2 x)) /\
  measure_plaq M L (transform M L g U) = measure_plaq M L U /\
  plaquette_sum M L (transform M L g U) = plaquette_sum M L U.
Proof.
  intros M W L HL g Hg U. split; [|split].
  - intros d1 d2 x Hx. split.
    + apply plaquette_covariant; assumption.
    + apply plaquette_trace_invariant; assumption.
  - apply measure_plaq_invariant; assumption.
  - apply plaquette_sum_invariant; assumption.
Qed.
Print Assumptions C48_plaquette.

(** What measure_plaq returns: the sum of 1 - Re tr P / N over sites and
    pairs of directions. *)
Theorem C48_measure_plaq : forall M L U,
  measure_plaq M L U
  = fold_left (radd M)
      (flat_map (fun dd => map (fun x => one_minus_over_n M (real M (trace M
            (plaquette M L U (fst dd) (snd dd) x)))) (sites L))
        (filter (fun dd => fst dd <? snd dd)%nat (list_prod (directions L) (directions L))))
      (rzero M).
Proof.
  intros M L U. unfold measure_plaq. generalize (rzero M).
  induction (list_prod (directions L) (directions L)) as [|[d1 d2] l IH]; intros z;
    cbn [fold_left filter fst snd]; [reflexivity|].
  destruct (d1 <? d2)%nat; [|apply IH].
  cbn [flat_map fst snd]. rewrite fold_left_app, IH. f_equal.
  clear IH. revert z. induction (sites L) as [|x s IH]; intros z; cbn [map fold_left]; [reflexivity|].
  apply IH.
Qed.
Print Assumptions C48_measure_plaq.

Example plaquette_example :
  this (measure_plaq quaternions L24 U24) = this (measure_plaq quaternions L24 (transform quaternions L24 g24 U24))
  /\ this (measure_plaq quaternions L24 U24) = (214 # 25)%Q
  /\ transform quaternions L24 g24 U24 0%nat [0; 2] <> U24 0%nat [0; 2].
Proof.
  split; [|split].
  - vm_compute. reflexivity.
  - vm_compute. reflexivity.
  - intros H. apply (f_equal (fun q => this (q1 q))) in H. vm_compute in H. discriminate.
Qed.

(** ** Staples *)

(** staplesum assigns, at the sites of the parity, the sum of the staples of
    the naive method, and leaves the other sites as they are: for all sites,
    or one parity of a lattice with even sizes. *)
Theorem C48_staplesum : forall M, matrix_laws M -> forall L, sizes L ->
  forall U staples d1 par x, even_sizes L \/ par = ALL ->
  on_lattice L x -> other_directions L d1 <> [] ->
  staplesum M L U staples d1 par x
  = if has_parity par x then Some (all_staples M L U d1 x) else staples x.
Proof.
  intros M W L HL U staples d1 par x Hpar Hx Hd.
  destruct (has_parity par x) eqn:Hp.
  - apply staplesum_sum; assumption.
  - apply staplesum_other; assumption.
Qed.
Print Assumptions C48_staplesum.

(** The staples transform like the link they belong to. *)
Theorem C48_staples_covariant : forall M, matrix_laws M -> forall L, sizes L ->
  forall g, (forall x, on_lattice L x -> unitary M (g x)) -> forall U d1 x, on_lattice L x ->
  all_staples M L (transform M L g U) d1 x
  = mul M (mul M (g x) (all_staples M L U d1 x)) (dagger M (g (up L d1 x))).
Proof. intros; apply all_staples_covariant; assumption. Qed.
Print Assumptions C48_staples_covariant.

(** The trace of link times conjugate staples is the sum of the traces of the
    plaquettes that contain the link: for each other direction the one that
    starts at x and the one that starts at the neighbour below. *)
Theorem C48_staples_trace : forall M, matrix_laws M -> forall L, sizes L ->
  forall U d1 x, on_lattice L x ->
  trace M (mul M (U d1 x) (dagger M (all_staples M L U d1 x)))
  = sum_of (cadd M) (czero M)
      (map (fun d2 => cadd M (trace M (plaquette M L U d1 d2 x))
                             (trace M (plaquette M L U d2 d1 (down L d2 x))))
        (other_directions L d1)).
Proof. intros; apply all_staples_trace; assumption. Qed.
Print Assumptions C48_staples_trace.

(** The staples of the hmc library are the conjugates, so that no dagger is
    needed in the trace. *)
Theorem C48_hmc_staples : forall M, matrix_laws M -> forall L, sizes L ->
  forall U d1 x, on_lattice L x ->
  calc_staples M L U d1 x = dagger M (all_staples M L U d1 x).
Proof. intros; apply calc_staples_dag; assumption. Qed.
Print Assumptions C48_hmc_staples.

Definition show (q : quat) : list Q := map this [q0 q; q1 q; q2 q; q3 q].

Example staples_example :
  on_lattice L24 [1; 3] /\ other_directions L24 1 = [0%nat] /\
  option_map show (staplesum quaternions L24 U24 (fun _ => None) 1 EVEN [1; 3])
  = Some (show (all_staples quaternions L24 U24 1 [1; 3])) /\
  staplesum quaternions L24 U24 (fun _ => None) 1 EVEN [1; 2] = None /\
  this (trace quaternions (mul quaternions (U24 0%nat [0; 0])
     (dagger quaternions (all_staples quaternions L24 U24 0 [0; 0])))) = (-(14 # 25))%Q.
Proof.
  split; [repeat constructor; lia|]. split; [reflexivity|].
  split; [vm_compute; reflexivity|]. split; vm_compute; reflexivity.
Qed.

(** One parity of a lattice with an odd size: the neighbour below may have
    the same parity, and lower is read where it was never assigned. *)
Theorem C48_odd_size_refuted :
  exists M L U staples d1 par x,
    matrix_laws M /\ sizes L /\ on_lattice L x /\ other_directions L d1 <> [] /\
    has_parity par x = true /\ staplesum M L U staples d1 par x = None.
Proof.
  exists quaternions, [2; 3], U24, (fun _ => Some qi), 0%nat, EVEN, [0; 0].
  split; [exact quaternion_laws|]. split; [repeat constructor|].
  split; [repeat constructor; lia|]. split; [discriminate|]. split; reflexivity.
Qed.
Print Assumptions C48_odd_size_refuted.

(** ** Polyakov loops *)

(** measure_polyakov is the average of the traces of the closed lines in the
    direction, and it is gauge invariant. *)
Theorem C48_polyakov : forall M, matrix_laws M -> forall L, sizes L ->
  forall U dir, (dir < length L)%nat ->
  measure_polyakov M L U dir
  = cover M (sum_of (cadd M) (czero M)
        (map (fun x => trace M (line M L U dir (Z.to_nat (nth dir L 0)) x))
          (filter (fun x => coordinate dir x =? 0) (sites L))))
      (zprod L / nth dir L 0) /\
  forall g, (forall x, on_lattice L x -> unitary M (g x)) ->
  (forall x, on_lattice L x ->
    trace M (line M L (transform M L g U) dir (Z.to_nat (nth dir L 0)) x)
    = trace M (line M L U dir (Z.to_nat (nth dir L 0)) x)) /\
  measure_polyakov M L (transform M L g U) dir = measure_polyakov M L U dir.
Proof.
  intros M W L HL U dir Hd. split; [apply measure_polyakov_lines; assumption|].
  intros g Hg. split.
  - intros x Hx. apply line_trace_invariant; assumption.
  - apply measure_polyakov_invariant; assumption.
Qed.
Print Assumptions C48_polyakov.

Example polyakov_example :
  this (measure_polyakov quaternions L24 U24 1) = 1%Q /\
  this (measure_polyakov quaternions L24 (transform quaternions L24 g24 U24) 1) = 1%Q.
Proof. split; vm_compute; reflexivity. Qed.

(** polyakov_loop of the hmc library multiplies each site once and never
    carries the product along the line: it averages the traces of the single
    links that end at coordinate 0. *)
Theorem C48_hmc_polyakov : forall M, matrix_laws M -> forall L, sizes L ->
  forall U dir, (dir < length L)%nat ->
  polyakov_loop M L U dir
  = rover_n M (fold_left (radd M)
        (map (fun x => real M (trace M (U dir (down L dir x))))
          (filter (fun x => coordinate dir x =? 0) (sites L))) (rzero M))
      (zprod L / nth dir L 0).
Proof.
  intros M W L HL U dir Hd. unfold polyakov_loop. f_equal.
  assert (G : forall l, (forall x, In x l -> on_lattice L x) -> forall z,
    fold_left (fun s x => if coordinate dir x =? 0 then
       radd M s (real M (trace M (loop_field M L U dir x))) else s) l z
    = fold_left (radd M) (map (fun x => real M (trace M (U dir (down L dir x))))
          (filter (fun x => coordinate dir x =? 0) l)) z).
  { induction l as [|x l IH]; intros Hl z; cbn [fold_left filter map]; [reflexivity|].
    destruct (Z.eqb_spec (coordinate dir x) 0) as [E|E].
    - cbn [map fold_left]. rewrite <- IH by (intros; apply Hl; right; assumption).
      rewrite (loop_single_link M W L HL); [reflexivity|assumption|].
      apply Hl; left; reflexivity.
    - apply IH. intros; apply Hl; right; assumption. }
  apply G. intros x Hx. apply sites_In. exact Hx.
Qed.
Print Assumptions C48_hmc_polyakov.

(** So it is not the Polyakov loop, and not gauge invariant. *)
Theorem C48_hmc_polyakov_refuted :
  exists M L U g dir, matrix_laws M /\ sizes L /\ (dir < length L)%nat /\
    (forall x, on_lattice L x -> unitary M (g x)) /\
    (forall d x, on_lattice L x -> unitary M (U d x)) /\
    polyakov_loop M L (transform M L g U) dir <> polyakov_loop M L U dir.
Proof.
  exists quaternions, L24, (fun _ _ => Quat 1 0 0 0),
    (fun x => if coordinate 1 x =? 0 then qi else Quat 1 0 0 0), 1%nat.
  assert (H1 : unitary quaternions (Quat 1 0 0 0)) by (split; cbn; f_equal; ring).
  split; [exact quaternion_laws|]. split; [exact sizes24|]. split; [cbn; lia|].
  split; [intros x _; destruct (coordinate 1 x =? 0); [exact unit_qi|exact H1]|].
  split; [intros; exact H1|].
  intros H. apply (f_equal this) in H. vm_compute in H. discriminate.
Qed.
Print Assumptions C48_hmc_polyakov_refuted.
