(** The hits. *)
Set Warnings "-notation-overridden,-ambiguous-paths".
From mathcomp Require Import all_ssreflect all_algebra.
From Verif Require Import FieldTac LinalgModel LinalgSpec LinalgProofs1 LinalgProofs4 MatrixModel MatrixSpec MatrixProofs1 EigenSpec EigenProofs1
  EigenProofs2 SuModel SuSpec SuProofs2 AlgebraModel AlgebraSpec AlgebraProofs3 AlgebraProofs4 AlgebraProofs5 Su2Model Su2Spec Su2Proofs1 Su2Proofs2 Su2Proofs3
  OverrelaxModel OverrelaxProofs1.
Set Implicit Arguments.
Unset Strict Implicit.
Unset Printing Implicit Defensive.
Import Order.TTheory GRing.Theory Num.Theory.
Local Open Scope ring_scope.

Section PureField.
Variables (K : Type) (zero one : K) (add mul sub div : K -> K -> K) (opp inv : K -> K).
Hypothesis FT : field_theory zero one add mul sub opp div inv eq.
Add Field K_field : FT.
Notation "a + b" := (add a b).
Notation "a * b" := (mul a b).
Notation "a - b" := (sub a b).
Notation "a / b" := (div a b).
Notation "- a" := (opp a).
Notation t := (zero + one + one).

Section Hit.
Variables (a b c d r : K).
Hypotheses (r0 : r <> zero) (h : r * r = a * a + b * b + c * c + d * d).
Let x := a / r. Let y := b / r. Let z := c / r. Let w := d / r.
Let ha := x * (- t * w). Let hb := y * (- t * w). Let hc := z * (- t * w).
Let hd := w * w - x * x - y * y - z * z.
Local Ltac hit := match goal with |- _ = ?v =>
  transitivity ((v * (a * a + b * b + c * c + d * d)) / (r * r));
  [rewrite /hd /ha /hb /hc /w /x /y /z; field; done|rewrite -h; field; done] end.
Lemma hit_ma : hd * a + ha * d - hb * c + hc * b = - a. Proof. hit. Qed.
Lemma hit_mb : hd * b + hb * d - hc * a + ha * c = - b. Proof. hit. Qed.
Lemma hit_mc : hd * c + hc * d - ha * b + hb * a = - c. Proof. hit. Qed.
Lemma hit_md : hd * d - ha * a - hb * b - hc * c = d. Proof. hit. Qed.
Lemma max_ma : w * a + - x * d - - y * c + - z * b = zero. Proof. rewrite /w /x /y /z; field; done. Qed.
Lemma max_mb : w * b + - y * d - - z * a + - x * c = zero. Proof. rewrite /w /x /y /z; field; done. Qed.
Lemma max_mc : w * c + - z * d - - x * b + - y * a = zero. Proof. rewrite /w /x /y /z; field; done. Qed.
Lemma max_md : w * d - - x * a - - y * b - - z * c = r.
Proof.
transitivity ((a * a + b * b + c * c + d * d) / r); last by rewrite -h; field.
by rewrite /w /x /y /z; field.
Qed.
End Hit.

Lemma lagrange a b c d x y z w :
  (a * a + b * b + c * c + d * d) * (x * x + y * y + z * z + w * w)
  - (w * d - x * a - y * b - z * c) * (w * d - x * a - y * b - z * c)
  = (w * a + x * d - y * c + z * b) * (w * a + x * d - y * c + z * b)
  + (w * b + y * d - z * a + x * c) * (w * b + y * d - z * a + x * c)
  + (w * c + z * d - x * b + y * a) * (w * c + z * d - x * b + y * a).
Proof. by ring. Qed.
End PureField.

Section Hits.
Variables (F : numFieldType) (f : F -> F) (u : F) (cj : {rmorphism F -> F}) (re im root : F -> F) (I : F).
Hypothesis P : complex_parts cj re im root I.
Notation FS := (field_scalars f u).
Notation M q := (mxr 2 2 (su2_matrix FS I q)).
Notation FT := (mc_field F).

Lemma project_real A i j : real_su2 (project_from_matrix FS re im A i j).
Proof.
case: P => C _ _; have hr : half FS \is Num.real by rewrite /half /=; apply: realM; rewrite ?realV ?real1 // !realD ?real0 ?real1.
by split; rewrite /=; apply: realM => //; rewrite ?(realB, realD) // ?(im_real P) // (re_real C).
Qed.

Lemma hit_dagger q : real_su2 q -> su2_det FS q != 0 ->
  su2_mul FS (hit_matrix FS (su2_normalize FS root q)) q = su2_dagger FS q.
Proof.
move=> rq d0; have [r0 rr _ _] := su2_scaled P rq d0.
have {}r0 : root (su2_det FS q) <> 0 by apply/eqP; rewrite gt_eqF.
case: q rq d0 r0 rr => [a b c d] rq d0 r0 rr.
by apply: su2_ext; [exact: (hit_ma FT r0 rr)|exact: (hit_mb FT r0 rr)|exact: (hit_mc FT r0 rr)|exact: (hit_md FT r0 rr)].
Qed.

Lemma max_scalar q : real_su2 q -> su2_det FS q != 0 ->
  su2_mul FS (su2_dagger FS (su2_normalize FS root q)) q = su2_scalar FS (root (su2_det FS q)).
Proof.
move=> rq d0; have [r0 rr _ _] := su2_scaled P rq d0.
have {}r0 : root (su2_det FS q) <> 0 by apply/eqP; rewrite gt_eqF.
case: q rq d0 r0 rr => [a b c d] rq d0 r0 rr.
by apply: su2_ext; [exact: (max_ma FT)|exact: (max_mb FT)|exact: (max_mc FT)|exact: (max_md FT r0 rr)].
Qed.

Lemma hit_real q : real_su2 q -> real_su2 (hit_matrix FS q).
Proof. by case=> ra rb rc rd; split; rewrite /= ?(realB, realD, realM, realN, real0, real1). Qed.

Lemma det_dagger q : su2_det FS (su2_dagger FS q) = su2_det FS q.
Proof. by rewrite /su2_det /= !mulrNN. Qed.

Lemma hit_det q : real_su2 q -> su2_det FS q != 0 -> su2_det FS (hit_matrix FS (su2_normalize FS root q)) = 1.
Proof.
move=> rq d0; have /(congr1 (@su2_det FS)) := hit_dagger rq d0; rewrite (su2_det_mul FT) det_dagger /= => h.
by apply: (mulIf d0); rewrite mul1r.
Qed.

Lemma embed_one n p q : p != q -> embed2 n p q (su2_matrix FS I (su2_scalar FS (1 : F))) = 1%:M.
Proof.
move=> pq; apply/matrixP => i j; rewrite !mxE m00 m01 m10 m11 /= !mulr0 !oppr0 !addr0 -val_eqE /=.
case: (i == p :> nat) / eqP => [->|ip].
  rewrite [p == j]eq_sym; case: (j == p :> nat) / eqP => [_|] //; by case: eqP.
case: (i == q :> nat) / eqP => [->|//].
rewrite [q == j]eq_sym; case: (j == p :> nat) / eqP => [->|] //; first by rewrite (negbTE pq).
by move=> _; case: eqP; rewrite ?mulr0 ?addr0.
Qed.

Definition outside n p q (A : nat -> nat -> F) : F := re (\sum_(k < n | (k != p :> nat) && (k != q :> nat)) A k k).

Lemma overlap n p q (A : nat -> nat -> F) V : (p < n)%N -> (q < n)%N -> p != q -> real_su2 V ->
  re (\tr (embed2 n p q (su2_matrix FS I V) *m mxr n n A))
  = su2_trace FS (su2_mul FS V (project_from_matrix FS re im A p q)) + outside n p q A.
Proof. by move=> pn qn pq rV; rewrite (project_overlap P) // (su2_mul_traceE FT). Qed.

Lemma real_scalar (z : F) : z \is Num.real -> real_su2 (su2_scalar FS z).
Proof. by split; rewrite //= real0. Qed.

Lemma overlap1 n p q (A : nat -> nat -> F) : (p < n)%N -> (q < n)%N -> p != q ->
  re (\tr (mxr n n A)) = su2_trace FS (project_from_matrix FS re im A p q) + outside n p q A.
Proof.
move=> pn qn pq; have := overlap A pn qn pq (real_scalar (real1 F)).
by rewrite embed_one // mul1mx (su2_mul1 FT).
Qed.

(** A hit of the overrelaxation. *)
Lemma overrelax_hitP n p q (U A : nat -> nat -> F) : (p < n)%N -> (q < n)%N -> p != q ->
  let a := project_from_matrix FS re im A p q in
  match overrelax_hit FS re im root I n p q (U, A) with
  | Some (U', A') => exists V, [/\ real_su2 V, su2_det FS V = 1, su2_mul FS V a = su2_dagger FS a &
      su2_det FS a != 0 /\ V = hit_matrix FS (su2_normalize FS root a)] /\
      (mxr n n U' = embed2 n p q (su2_matrix FS I V) *m mxr n n U /\
       mxr n n A' = embed2 n p q (su2_matrix FS I V) *m mxr n n A)
  | None => su2_det FS a = 0
  end.
Proof.
move=> pn qn pq a; rewrite /overrelax_hit -/a /=; case: eqP => // /eqP d0.
have ra : real_su2 a by apply: project_real.
exists (hit_matrix FS (su2_normalize FS root a)); split; last by rewrite !leftE.
split=> //; [|exact: hit_det|exact: hit_dagger].
by apply: hit_real; have [_ _ ] := su2_scaled P ra d0.
Qed.

(** A hit of the search for the maximum. *)
Lemma rotateE n p q v11 v12 v21 v22 (B X : nat -> nat -> F) : (p < n)%N -> (q < n)%N -> p != q ->
  X 0%N 0%N = v11 -> X 0%N 1%N = v12 -> X 1%N 0%N = v21 -> X 1%N 1%N = v22 ->
  mxr n n (rotate_rows FS n p q v11 v12 v21 v22 B) = embed2 n p q X *m mxr n n B.
Proof.
move=> pn qn pq <- <- <- <-; rewrite -(leftE f u) //; apply/matrixP => i j; rewrite !mxE left_loop // ltn_ord.
Qed.

Lemma max_hitP n p q (A U : nat -> nat -> F) : (p < n)%N -> (q < n)%N -> p != q ->
  let a := project_from_matrix FS re im A p q in
  match max_hit FS re im root I n p q (A, U) with
  | Some (A', U') => exists V, [/\ real_su2 V, su2_det FS V = 1, su2_mul FS V a = su2_scalar FS (root (su2_det FS a)) &
      su2_det FS a != 0 /\ V = su2_dagger FS (su2_normalize FS root a)] /\
      (mxr n n A' = embed2 n p q (su2_matrix FS I V) *m mxr n n A /\
       mxr n n U' = embed2 n p q (su2_matrix FS I V) *m mxr n n U)
  | None => su2_det FS a = 0
  end.
Proof.
move=> pn qn pq a; set D := su2_det FS a; rewrite /max_hit /=.
have ha : half FS * (im (A p q) + im (A q p)) = qa FS a by rewrite mulrC.
have hb : half FS * (re (A p q) - re (A q p)) = qb FS a by rewrite mulrC.
have hc : half FS * (im (A p p) - im (A q q)) = qc FS a by rewrite mulrC.
have hd : half FS * (re (A p p) + re (A q q)) = qd FS a by rewrite mulrC.
rewrite ha hb hc hd.
have -> : qd FS a * qd FS a + qa FS a * qa FS a + qb FS a * qb FS a + qc FS a * qc FS a = D.
  by rewrite /D /su2_det /= -!addrA addrC !addrA.
case: eqP => // /eqP d0; rewrite !mul1r.
have ra : real_su2 a by apply: project_real.
have [_ _ rn dn] := su2_scaled P ra d0.
exists (su2_dagger FS (su2_normalize FS root a)); split; last first.
  by split; apply: rotateE => //; rewrite ?m00 ?m01 ?m10 ?m11 /= ?opprK.
split; [exact: real_dagger|exact: etrans (det_dagger _) dn| |by []].
  apply: (max_scalar ra d0).
Qed.

End Hits.
