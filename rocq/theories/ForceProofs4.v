(** Lines of links along paths. *)
Set Warnings "-notation-overridden,-ambiguous-paths".
From Coq Require Import ZArith List.
From mathcomp Require Import all_ssreflect all_algebra.
From Verif Require Import GaugeModel GaugeSpec GaugeMatrix GaugeProofs1 GaugeProofs2 MatrixSpec ForceModel ForceSpec
  ForceProofs1 ForceProofs2 ForceProofs3.
Set Implicit Arguments.
Unset Strict Implicit.
Unset Printing Implicit Defensive.

Definition back (s : step) : step := match s with Up d => Down d | Down d => Up d end.

Section Paths.
Variables (M : matrices) (L : list Z).
Hypotheses (ML : matrix_laws M) (HL : sizes L).
Variable U : gauge M.
Notation mul := (GaugeModel.mul M).
Notation dag := (dagger M).
Notation line := (path_line (M := M) L U).
Hypothesis HU : forall d x, (d < length L)%N -> on_lattice L x -> GaugeSpec.unitary M (U d x).

Lemma mulA a b c : mul a (mul b c) = mul (mul a b) c.
Proof. exact: (m_assoc M ML). Qed.

Lemma dag_one : dag (mone M) = mone M.
Proof.
have := m_dag_mul M ML (mone M) (dag (mone M)).
by rewrite (m_one_l M ML) (m_dag_dag M ML) (m_one_l M ML).
Qed.

Lemma path_end_cons s p x : path_end L (s :: p) x = path_end L p (arrive L x s).
Proof. by []. Qed.

Lemma path_end_cat p q x : path_end L (p ++ q) x = path_end L q (path_end L p x).
Proof. exact: fold_left_app. Qed.

Lemma line_cat p q x : line (p ++ q) x = mul (line p x) (line q (path_end L p x)).
Proof.
elim: p x => [|s p IH] x /=; first by rewrite (m_one_l M ML).
by rewrite IH mulA.
Qed.

Lemma dims_cat p q : in_dimensions L (p ++ q) -> in_dimensions L p /\ in_dimensions L q.
Proof. by move=> D; split=> s h; apply: D; apply: in_or_app; [left|right]. Qed.

Lemma dims_cons s p : in_dimensions L (s :: p) -> (step_dir s < length L)%N /\ in_dimensions L p.
Proof. by move=> D; split=> [|s' h]; apply: D; [left|right]. Qed.

Lemma arrive_back s x : on_lattice L x -> arrive L (arrive L x s) (back s) = x.
Proof. by move=> hx; case: s => d /=; [exact: down_up|exact: up_down]. Qed.

Lemma link_unitary s x : (step_dir s < length L)%N -> on_lattice L x ->
  GaugeSpec.unitary M (link_of L U s x).
Proof.
case: s => d h hx /=; first exact: HU.
by apply: unitary_dag => //; apply: HU => //; apply: down_on.
Qed.

Lemma link_back s x : on_lattice L x -> link_of L U (back s) (arrive L x s) = dag (link_of L U s x).
Proof.
case: s => d hx /=; first by rewrite down_up.
by rewrite (m_dag_dag M ML).
Qed.

Lemma line_unitary p x : in_dimensions L p -> on_lattice L x -> GaugeSpec.unitary M (line p x).
Proof.
elim: p x => [|s p IH] x D hx.
  by split; rewrite dag_one (m_one_l M ML).
have [h D'] := dims_cons D; have [a b] := link_unitary h hx.
have [c d] := IH _ D' (arrive_on HL s hx).
split; rewrite /= (m_dag_mul M ML).
  by rewrite mulA -[mul (mul _ (line p _)) _]mulA c (m_one_r M ML).
by rewrite mulA -[mul (mul _ _) (link_of _ _ _ _)]mulA b (m_one_r M ML).
Qed.

(** A step and the step back. *)
Lemma line_step_back s p x : (step_dir s < length L)%N -> on_lattice L x ->
  line (s :: back s :: p) x = line p x.
Proof.
move=> h hx /=; rewrite link_back // mulA arrive_back //.
by have [-> _] := link_unitary h hx; rewrite (m_one_l M ML).
Qed.

Lemma line_backtrack q s p x : (step_dir s < length L)%N -> on_lattice L x ->
  line (q ++ s :: back s :: p) x = line (q ++ p) x.
Proof. by move=> h hx; rewrite !line_cat line_step_back //; apply: path_end_on. Qed.

(** The path in the opposite direction. *)
Definition reverse (p : list step) : list step := rev (map back p).

Lemma reverse_cons s p : reverse (s :: p) = reverse p ++ [:: back s].
Proof. by rewrite /reverse map_cons rev_cons -cats1. Qed.

Lemma path_end_reverse p x : on_lattice L x -> path_end L (reverse p) (path_end L p x) = x.
Proof.
elim: p x => [//|s p IH] x hx; rewrite reverse_cons path_end_cat.
rewrite path_end_cons IH; last exact: arrive_on.
exact: arrive_back.
Qed.

Lemma line_reverse p x : on_lattice L x -> line (reverse p) (path_end L p x) = dag (line p x).
Proof.
elim: p x => [|s p IH] x hx; first by rewrite /= dag_one.
rewrite reverse_cons line_cat.
rewrite path_end_cons IH; last exact: arrive_on.
rewrite path_end_reverse; last exact: arrive_on.
by rewrite /= (m_one_r M ML) link_back // (m_dag_mul M ML).
Qed.

Definition retr (p : list step) (x : site) : re M := real M (trace M (line p x)).

Lemma retr_rotate p q x : on_lattice L x -> path_end L (p ++ q) x = x ->
  retr (p ++ q) x = retr (q ++ p) (path_end L p x).
Proof.
move=> hx; rewrite /retr path_end_cat => E.
by rewrite !line_cat E (m_trace_cyclic M ML).
Qed.

Lemma retr_reverse p x : on_lattice L x -> path_end L p x = x -> retr (reverse p) x = retr p x.
Proof. by move=> hx E; rewrite /retr -[in RHS](m_trace_dag M ML) -line_reverse // E. Qed.
End Paths.

(** Moving all starting points along a path. *)
Lemma path_end_perm L p : sizes L -> Permutation.Permutation (map (path_end L p) (sites L)) (sites L).
Proof.
move=> HL; elim: p => [|s p IH] /=.
  by have -> : map (path_end L [::]) (sites L) = sites L by exact: map_id.
have -> : [seq path_end L (s :: p) i | i <- sites L]
        = [seq path_end L p i | i <- map (arrive L ^~ s) (sites L)] by rewrite -map_comp.
apply: Permutation.Permutation_trans IH; apply: Permutation.Permutation_map.
by case: s => d; apply: move_sites.
Qed.

Lemma big_perm (R : zmodType) (T : Type) (l l' : list T) (f : T -> R) :
  Permutation.Permutation l l' -> (\sum_(x <- l) f x = \sum_(x <- l') f x)%R.
Proof.
elim=> [//|x k k' _ IH|x y k|k k' k'' _ E _ E'].
- by rewrite !big_cons IH.
- by rewrite !big_cons; exact: GRing.addrCA.
- by rewrite E.
Qed.

Lemma sum_shift (R : zmodType) L p (f : site -> R) : sizes L ->
  (\sum_(x <- sites L) f (path_end L p x) = \sum_(x <- sites L) f x)%R.
Proof. by move=> HL; rewrite -(big_map _ xpredT); apply: big_perm; apply: path_end_perm. Qed.

Lemma big_In (R : zmodType) (T : Type) (l : list T) (f g : T -> R) :
  (forall x, In x l -> f x = g x) -> (\sum_(x <- l) f x = \sum_(x <- l) g x)%R.
Proof.
elim: l => [|x l IH] H; first by rewrite !big_nil.
by rewrite !big_cons H ?IH //; [move=> y h; apply: H; right|left].
Qed.

Lemma sum_sites (R : zmodType) L (f g : site -> R) :
  (forall x, on_lattice L x -> f x = g x) -> (\sum_(x <- sites L) f x = \sum_(x <- sites L) g x)%R.
Proof. by move=> H; apply: big_In => x /sites_In; apply: H. Qed.
