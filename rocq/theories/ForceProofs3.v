(** The actions as functions of moving links. *)
Set Warnings "-notation-overridden,-ambiguous-paths".
From Coq Require Import ZArith List.
From mathcomp Require Import all_ssreflect all_algebra.
From Verif Require Import GaugeModel GaugeSpec GaugeMatrix GaugeProofs1 MatrixSpec ForceModel ForceSpec ForceProofs1
  ForceProofs2.
Set Implicit Arguments.
Unset Strict Implicit.
Unset Printing Implicit Defensive.
Import Order.TTheory GRing.Theory Num.Theory.
Local Open Scope ring_scope.

Lemma directions_lt L d : In d (directions L) -> (d < length L)%N.
Proof. by move=> /in_seq [_ H]; apply/ssrnat.ltP. Qed.

Section Smooth.
Variables (C : numClosedFieldType) (n : nat) (L : list Z).
Hypothesis HL : sizes L.
Notation M := 'M[C]_n.
Notation CM := (complex_matrices C n).
Notation LM := (complex_linear C n).
Notation DM := (dual C n).
Notation DL := (dual_linear C n).

Ltac sites_on := repeat first [apply: up_on | apply: down_on | done].
Ltac rel := repeat lazymatch goal with
  | |- rel_r _ (radd _ _ _) => refine (rel_radd _ _)
  | |- rel_r _ (one_minus_over_n _ _) => refine (rel_one_minus _)
  | |- rel_r _ (real _ (trace _ _)) => refine (rel_retr _)
  | |- rel_m _ (GaugeModel.mul _ _ _) => refine (rel_mul _ _)
  | |- rel_m _ (madd _ _ _) => refine (rel_madd _ _)
  | |- rel_m _ (dagger _ _) => refine (rel_dag _)
  | |- rel_r _ (rmul _ _ _ _) => refine (rel_rmul _ _)
  | |- rel_m _ (msub _ _ _ _) => refine (rel_msub _ _)
  | |- rel_r _ (over_n _ _ _) => refine (rel_over_n _)
  | |- rel_m _ (untrace _ _ _) => refine (rel_untrace _)
  | |- rel_r _ (squarenorm _ _ _) => refine (rel_norm _)
  | |- rel_m _ (mscale _ _ _ _) => refine (rel_mscale _ _)
  | |- rel_r _ (pair _ _) => refine (rel_const _ _)
  | |- rel_r _ (rhalf _ _) => refine (rel_const _ _)
  end.

Lemma smooth_wplaq : smooth L (measure_s_wplaq CM L) (measure_s_wplaq DM L).
Proof.
move=> U UD R; rewrite /measure_s_wplaq; apply: rel_fold; last exact: rel_const.
move=> [d1 d2] f s /in_prod_iff [/directions_lt h1 /directions_lt h2] F.
case: (Nat.ltb d1 d2) => //; apply: rel_fold => // x f' s' /sites_In hx F'.
rel; first [exact: F' | apply: R; sites_on].
Qed.

Lemma smooth_impr c11 c12 :
  smooth L (fun U => measure_s_impr CM LM L U c11 c12) (fun U => measure_s_impr DM DL L U (c11, 0) (c12, 0)).
Proof.
move=> U UD R; rewrite /measure_s_impr; apply: rel_fold; last exact: rel_const.
move=> [d1 d2] f s /in_prod_iff [/directions_lt h1 /directions_lt h2] F.
case: (Nat.ltb d1 d2) => //; cbv zeta; apply: rel_fold => [x f' s' /sites_In hx F'|].
  rel; first [exact: F' | apply: R; sites_on].
apply: rel_fold => // x f' s' /sites_In hx F'.
rel; first [exact: F' | apply: R; sites_on].
Qed.

Lemma smooth_clover : smooth L (measure_s_clover CM LM L) (measure_s_clover DM DL L).
Proof.
move=> U UD R; rewrite /measure_s_clover; apply: rel_over_n; apply: rel_fold; last exact: rel_const.
move=> [d1 d2] f s /in_prod_iff [/directions_lt h1 /directions_lt h2] F.
case: (Nat.ltb d1 d2) => //; cbv zeta; apply: rel_fold => // x f' s' /sites_In hx F'.
rewrite /get_clover_leaves; cbv zeta; cbn [snd]; rel; first [exact: F' | apply: R; sites_on].
Qed.

Lemma arrive_on x s : on_lattice L x -> on_lattice L (arrive L x s).
Proof. by case: s => d hx; sites_on. Qed.

Lemma path_end_on p x : on_lattice L x -> on_lattice L (path_end L p x).
Proof. by elim: p x => [//|s p IH] x hx; apply: IH; apply: arrive_on. Qed.

Lemma rel_line U UD p x : rel_links L U UD -> in_dimensions L p -> on_lattice L x ->
  rel_m (fun t => path_line (M := CM) L (U t) p x) (path_line (M := DM) L UD p x).
Proof.
move=> R; elim: p x => [|s p IH] x D hx; first exact: mderiv_const.
rewrite /=; apply: (rel_mul (n := n)); last first.
  by apply: IH; [move=> s' h; apply: D; right|apply: arrive_on].
have := D s (or_introl (erefl _)); case: s {D} => d h; first exact: R.
by apply: rel_dag; apply: R => //; apply: down_on.
Qed.
End Smooth.
