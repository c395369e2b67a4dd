(** Expansion and projection are inverse to each other. *)
Set Warnings "-notation-overridden,-ambiguous-paths".
From mathcomp Require Import all_ssreflect all_algebra.
From Verif Require Import LinalgModel LinalgSpec LinalgProofs1 LinalgProofs3 LinalgProofs4
  FieldTac MatrixModel MatrixSpec MatrixProofs1 EigenSpec EigenProofs1 EigenProofs2 SuModel SuSpec
  AlgebraModel AlgebraSpec AlgebraProofs1 AlgebraProofs2.
Set Implicit Arguments.
Unset Strict Implicit.
Unset Printing Implicit Defensive.
Import Order.TTheory GRing.Theory Num.Theory.
Local Open Scope ring_scope.

Local Arguments MatrixModel.of_nat : simpl never.

Section PureField.
Variables (K : Type) (zero one : K) (add mul sub div : K -> K -> K) (opp inv : K -> K).
Hypothesis FT : field_theory zero one add mul sub opp div inv eq.
Add Field K_field : FT.
Notation "a + b" := (add a b).
Notation "a * b" := (mul a b).
Notation "a - b" := (sub a b).
Notation "a / b" := (div a b).
Notation "- a" := (opp a).

Lemma parts_field : forall x c I, one + one <> zero -> I <> zero ->
  (x + c) / (one + one) + I * ((x - c) / ((one + one) * I)) = x.
Proof. by move=> x c I n2 nI; field. Qed.

Lemma im_field : forall x c I, one + one <> zero -> I <> zero ->
  I * ((x - c) / ((one + one) * I)) = inv (one + one) * (x - c).
Proof. by move=> x c I n2 nI; field. Qed.

Lemma diag_field : forall i j c q, q <> zero -> q * q = (one + one) * (i * j) ->
  i * j * (c / q) * (one + one) / q = c.
Proof.
move=> i j c q q0 E.
have -> : i * j * (c / q) * (one + one) / q = c * ((one + one) * (i * j)) / (q * q) by field.
by rewrite -E; field.
Qed.

Lemma tele_field : forall i s y q, i <> zero -> i + one <> zero -> one + one <> zero -> q <> zero ->
  q * q = (one + one) * (i * (i + one)) ->
  (s - i * y) * (one + one) / q / q = s / i - (s + y) / (i + one).
Proof.
move=> i s y q i0 i1 n2 q0 E.
have -> : (s - i * y) * (one + one) / q / q = (s - i * y) * (one + one) / (q * q) by field.
by rewrite E; field.
Qed.

Lemma tele2_field : forall i s y, i <> zero -> i + one <> zero ->
  i * (s / i - (s + y) / (i + one)) = (s - i * y) / (i + one).
Proof. by move=> i s y i0 i1; field. Qed.

Lemma last_field : forall i s y t n, i + one <> zero -> n <> zero ->
  (s + y) / (i + one) - t / n - (s - i * y) / (i + one) = y - t / n.
Proof. by move=> i s y t n i1 n0; field. Qed.

Lemma gen_field : forall Y K a t p, (Y - K * a) * t * p = t * (p * Y + - K * p * a).
Proof. by move=> Y K' a t p; ring. Qed.
End PureField.

Section Inverse.
Variables (F : numFieldType) (f : F -> F) (u : F) (cj : {rmorphism F -> F}) (re im root : F -> F) (I : F).
Hypothesis P : complex_parts cj re im root I.
Let C : complex_numbers cj re root. Proof. by case: P. Qed.
Notation S := (field_scalars f u).
Notation nrm := (nrm root).

Lemma two0 : (2%:R : F) != 0. Proof. by rewrite pnatr_eq0. Qed.
Lemma dbl : forall x : F, x + x = x * 2%:R. Proof. by move=> x; rewrite mulr_natr mulr2n. Qed.
Lemma natS : forall i, i.+1%:R = i%:R + 1 :> F. Proof. by move=> i; rewrite -addn1 natrD. Qed.
Lemma II : I * I = -1. Proof. by case: P => _ []. Qed.
Lemma cjI : cj I = - I. Proof. by case: P => _ []. Qed.
Lemma I0 : I != 0.
Proof. by apply: contra_eq_neq II => ->; rewrite mul0r eq_sym oppr_eq0 oner_eq0. Qed.
Lemma reE : forall x, re x = (x + cj x) / 2%:R. Proof. by case: C. Qed.
Lemma imE : forall x, im x = (x - cj x) / (2%:R * I). Proof. by case: P. Qed.

Lemma im_real : forall x, im x \is Num.real.
Proof.
move=> x; apply: (real_cj C); rewrite imE fmorph_div rmorphB rmorphM (cjK C) cjI rmorph_nat.
by rewrite mulrN invrN mulrN -mulNr opprB.
Qed.

Lemma parts : forall x, re x + I * im x = x.
Proof.
by move=> x; rewrite reE imE; apply: (parts_field (mc_field F)); apply/eqP; rewrite ?two0 ?I0.
Qed.

Lemma re_complex : forall a b, a \is Num.real -> b \is Num.real -> re (a + I * b) = a.
Proof.
move=> a b ra rb; rewrite reE rmorphD rmorphM cjI !(cj_real C) // mulNr addrACA subrr addr0.
by rewrite dbl mulfK ?two0.
Qed.

Lemma im_complex : forall a b, a \is Num.real -> b \is Num.real -> im (a + I * b) = b.
Proof.
move=> a b ra rb; rewrite imE rmorphD rmorphM cjI !(cj_real C) // mulNr opprD opprK addrACA subrr add0r.
by rewrite dbl [I * b]mulrC -[b * I * _]mulrA [I * _]mulrC mulfK // mulf_neq0 ?two0 ?I0.
Qed.

Lemma im_I : forall b, b \is Num.real -> im (I * b) = b.
Proof. by move=> b rb; rewrite -[I * b]add0r im_complex // real0. Qed.

(** *** The diagonal *)

Lemma rsum_sum : forall n (r : nat -> F) i, (i <= n)%N ->
  \sum_(0 <= j < i) rsum n r j = i%:R * \sum_(i <= m < n) r m.
Proof.
move=> n r; elim=> [|i IH] hi; first by rewrite big_geq // mul0r.
rewrite big_nat_recr //= IH ?(ltnW hi) // [\sum_(i <= m < n) _](big_ltn hi) /rsum.
by rewrite mulrDr addrC addrA subrK -[in RHS]add1n natrD mulrDl mul1r.
Qed.

Lemma rsum_inv : forall n (r : nat -> F) i, (i < n)%N ->
  \sum_(0 <= j < i) rsum n r j - i%:R * rsum n r i = i%:R * i.+1%:R * r i.
Proof.
move=> n r i hi; rewrite rsum_sum ?(ltnW hi) // (big_ltn hi) /rsum -mulrBr opprB.
rewrite addrACA subrr addr0 -mulrA -[in RHS]addn1 natrD; congr (_ * _).
by rewrite mulrDl mul1r addrC.
Qed.

Lemma sum_real : forall m n (g : nat -> F), (forall i, (m <= i < n)%N -> g i \is Num.real) ->
  \sum_(m <= i < n) g i \is Num.real.
Proof. by move=> m n g H; rewrite big_nat_cond rpred_sum // => i /andP [/H]. Qed.

Lemma nrm_real : forall i, nrm i \is Num.real.
Proof. by move=> i; rewrite ger0_real // (root_ge0 C) // !mulr_ge0 ?ler0n. Qed.

Lemma rsum_real : forall n c j, (j < n)%N -> (forall k, (k < n - 1)%N -> c k \is Num.real) ->
  rsum n (fun i => c (i - 1)%N / nrm i) j \is Num.real.
Proof.
move=> n c j jn H.
have R : forall i, (0 < i)%N -> (i < n)%N -> c (i - 1)%N / nrm i \is Num.real.
  by move=> i i0 hi; rewrite realM ?realV ?nrm_real // H // ltn_sub2r // (leq_ltn_trans _ hi).
rewrite /rsum rpredB //; first by apply: sum_real => i /andP [ji hi]; apply: R => //; apply: leq_ltn_trans ji.
case: (posnP j) => [->|j0]; first by rewrite mul0r real0.
by rewrite realM ?realn // R.
Qed.

Lemma project_expand : forall n c k, (0 < n)%N -> real_components (n * n - 1) c -> (k < n * n - 1)%N ->
  project_to_algebra S cj re im root n (expand S cj root I n c) k = c k.
Proof.
move=> n c k n0 R kn; rewrite (projectE P) //.
have nn : (n - 1 <= n * n - 1)%N by rewrite leq_sub2r // leq_pmulr.
have Rd : forall k, (k < n - 1)%N -> c k \is Num.real by move=> x xn; apply: R; apply: leq_trans nn.
case: ltnP => [k1|nk].
  have E : forall j, (j < n)%N -> im (expand S cj root I n c j j) = rsum n (fun i => c (i - 1)%N / nrm i) j.
    by move=> j jn; rewrite (expandE P) // eqxx im_I // rsum_real.
  have kn1 : (k.+1 < n)%N by move: k1; rewrite ltn_subRL add1n.
  rewrite /ysum (eq_big_nat _ _ (F2 := fun j => rsum n (fun i => c (i - 1)%N / nrm i) j)); last first.
    by move=> j /andP [_ jk]; rewrite E // (leq_trans jk) // ltnW.
  rewrite E // rsum_inv // subn1 /=.
  have q0 := lt0r_neq0 (nrm_gt0 P (ltn0Sn k)).
  apply: (diag_field (mc_field F)); first by apply/eqP.
  exact: (nrm2 P).
have /andP [] : ((pair_at n k).1 < (pair_at n k).2)%N && ((pair_at n k).2 < n)%N.
  by rewrite -mem_pairs -surjective_pairing pair_mem.
have E := pos_pair n0 nk kn.
rewrite /off; move: (pair_at n k) E => [i j] /= E ij jn.
have ijn : (i < n)%N by apply: ltn_trans jn.
have p1 := pos_lt ij jn; have p0 := ltnW p1.
rewrite !(expandE P) // ltn_eqF // ij gtn_eqF // [(j < i)%N]ltnNge (ltnW ij) /=.
set v := velem _ _ _ _ _ _.
have -> : v - cj (- cj v) = c (pos n i j) + I * c (pos n i j).+1.
  rewrite rmorphN opprK (cjK C) /v /velem dbl mulrDl -!mulrA mulVf ?two0 // !mulr1.
  by [].
rewrite [in RHS]E; case: (odd _); rewrite ?addn1 ?addn0.
  by rewrite im_complex ?R.
by rewrite re_complex ?R.
Qed.

Lemma tele_sum : forall n (s : nat -> F) j, (j < n)%N ->
  \sum_(j.+1 <= i < n) (s i / i%:R - s i.+1 / i.+1%:R) = s j.+1 / j.+1%:R - s n / n%:R.
Proof.
move=> n s j; elim: n => // n IH; rewrite ltnS leq_eqVlt => /orP [/eqP ->|jn].
  by rewrite big_geq // subrr.
by rewrite big_nat_recr //= IH // addrA subrK.
Qed.

Lemma rsum_project : forall n (y : nat -> F) j, (j < n)%N ->
  let s i := \sum_(0 <= k < i) y k in
  rsum n (fun i => (s i - i%:R * y i) * 2%:R / nrm i / nrm i) j = y j - s n / n%:R.
Proof.
move=> n y j jn s; rewrite /rsum.
have n0 : (0 < n)%N by apply: leq_ltn_trans jn.
have sS : forall i, s i.+1 = s i + y i by move=> i; rewrite /s big_nat_recr.
have T : forall i, (0 < i)%N ->
    (s i - i%:R * y i) * 2%:R / nrm i / nrm i = s i / i%:R - s i.+1 / i.+1%:R.
  move=> i i0; rewrite sS (natS i).
  have i1 : i%:R + 1 <> 0 :> F by rewrite -natS; apply/eqP; rewrite pnatr_eq0.
  have i2 : i%:R <> 0 :> F by apply/eqP; rewrite pnatr_eq0 -lt0n.
  have q0 : nrm i <> 0 by apply/eqP; rewrite lt0r_neq0 ?(nrm_gt0 P).
  have E : nrm i * nrm i = 2%:R * (i%:R * (i%:R + 1)) by rewrite -natS (nrm2 P).
  exact: (@tele_field _ _ _ _ _ _ _ _ _ (mc_field F) i%:R (s i) (y i) (nrm i) i2 i1 (elimN eqP two0) q0 E).
rewrite (eq_big_nat _ _ (F2 := fun i => s i / i%:R - s i.+1 / i.+1%:R)); last first.
  by move=> i /andP [ji _]; rewrite T // (leq_ltn_trans _ ji).
rewrite tele_sum //.
have -> : j%:R * ((s j - j%:R * y j) * 2%:R / nrm j / nrm j) = (s j - j%:R * y j) / j.+1%:R.
  case: (posnP j) => [e|j0]; first by rewrite e !mul0r /s big_geq // subr0 mul0r.
  rewrite T // sS (natS j).
  have i1 : j%:R + 1 <> 0 :> F by rewrite -natS; apply/eqP; rewrite pnatr_eq0.
  have i2 : j%:R <> 0 :> F by apply/eqP; rewrite pnatr_eq0 -lt0n.
  exact: (@tele2_field _ _ _ _ _ _ _ _ _ (mc_field F) j%:R (s j) (y j) i2 i1).
rewrite sS (natS j).
have i1 : j%:R + 1 <> 0 :> F by rewrite -natS; apply/eqP; rewrite pnatr_eq0.
have i2 : n%:R <> 0 :> F by apply/eqP; rewrite pnatr_eq0 -lt0n.
exact: (@last_field _ _ _ _ _ _ _ _ _ (mc_field F) j%:R (s j) (y j) (s n) n%:R i1 i2).
Qed.

Lemma expand_project : forall n A, (0 < n)%N ->
  mxr n n (expand S cj root I n (project_to_algebra S cj re im root n A)) = algebra_part cj (mxr n n A).
Proof.
move=> n A n0; apply/matrixP => r q; rewrite !mxE (expandE P) //.
have nn : (n - 1 <= n * n - 1)%N by rewrite leq_sub2r // leq_pmulr.
pose y j := im (A j j).
have Iy : forall j, I * y j = 2%:R^-1 * (A j j - cj (A j j)).
  move=> j; rewrite /y imE.
  exact: (@im_field _ _ _ _ _ _ _ _ _ (mc_field F) _ _ _ (elimN eqP two0) (elimN eqP I0)).
case: (r =P q) => [<-|/eqP rq].
  rewrite eqxx mulr1n (_ : rsum _ _ _ = y r - (\sum_(0 <= k < n) y k) / n%:R); last first.
    have K : forall i, (0 < i)%N -> (i < n)%N -> project_to_algebra S cj re im root n A (i - 1)%N / nrm i
      = (\sum_(0 <= k < i) y k - i%:R * y i) * 2%:R / nrm i / nrm i.
      move=> i i0 hi; have hi1 : (i - 1 < n - 1)%N by rewrite ltn_sub2r // (leq_ltn_trans _ hi).
      rewrite (projectE P) //; last exact: leq_trans hi1 nn.
      by rewrite hi1 -[(i - 1).+1]addn1 subnK.
    rewrite -rsum_project // /rsum; congr (_ - _).
      apply: eq_big_nat => i /andP [ri hi]; apply: K => //; exact: leq_ltn_trans ri.
    by case: (posnP r) => [->|r0]; rewrite ?mul0r // K.
  rewrite mulrBr mulrA Iy; congr (_ - _ / _).
  rewrite big_mkord mulr_sumr /mxtrace; apply: eq_bigr => j _.
  by rewrite Iy !mxE.
rewrite (_ : (r == q :> nat) = false); last by apply/eqP => /val_inj /eqP; rewrite (negbTE rq).
rewrite ?(negbTE rq) mulr0n subr0.
have V : forall i j, (i < j)%N -> (j < n)%N ->
    velem I n (project_to_algebra S cj re im root n A) 2%:R^-1 i j = 2%:R^-1 * (A i j - cj (A j i)).
  move=> i j ij jn; have p1 := pos_lt ij jn; have p0 := ltnW p1.
  rewrite /velem !(projectE P) // ltnNge pos_ge /= ltnNge (leq_trans (pos_ge n i j)) //=.
  have := pos_odd n i j false; have := pos_odd n i j true.
  have := pair_pos false ij jn; have := pair_pos true ij jn.
  rewrite addn0 addn1 => -> -> -> -> /=.
  by rewrite mulrA -mulrDl parts mulrC.
case: ltngtP => [rq1|rq1|/val_inj e]; last by rewrite e eqxx in rq.
  by rewrite V.
rewrite V // rmorphM rmorphB (cjK C) fmorphV rmorph_nat -mulrN opprB.
by [].
Qed.
End Inverse.
