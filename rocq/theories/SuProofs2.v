(** The determinant, and products of rotations. *)
Set Warnings "-notation-overridden,-ambiguous-paths".
From mathcomp Require Import all_ssreflect all_algebra all_fingroup.
From Verif Require Import LinalgModel LinalgSpec LinalgProofs1 LinalgProofs2 LinalgProofs3 LinalgProofs4
  LinalgProps FieldTac MatrixModel MatrixSpec MatrixProofs1 EigenSpec EigenProofs1 EigenProofs2 SuModel SuSpec SuProofs1.
Set Implicit Arguments.
Unset Strict Implicit.
Unset Printing Implicit Defensive.
Import Order.TTheory GRing.Theory Num.Theory.
Local Open Scope ring_scope.

(** Quaternions. *)
Section Quaternion.
Variables (R : Type) (zero one : R) (add mul sub : R -> R -> R) (opp : R -> R).
Hypothesis RT : ring_theory zero one add mul sub opp eq.
Add Ring R_ring : RT.
Notation "x + y" := (add x y).
Notation "x - y" := (sub x y).
Notation "x * y" := (mul x y).
Notation "- x" := (opp x).
Variables (a b c d I : R).
Hypothesis II : I * I = - one.
Hypothesis N : a * a + b * b + c * c + d * d = one.
Let x := a + I * d.
Let y := a + I * - d.
Let z := c + I * b.
Let t := - c + I * b.
Let x' := a + - I * d.
Let y' := a + - I * - d.
Let z' := c + - I * b.
Let t' := - c + - I * b.

Lemma quat00 : x' * x + t' * t = one.
Proof. by rewrite -N /x /x' /t /t'; ring [II]. Qed.
Lemma quat01 : x' * z + t' * y = zero.
Proof. by rewrite /x' /z /t' /y; ring [II]. Qed.
Lemma quat10 : z' * x + y' * t = zero.
Proof. by rewrite /z' /x /y' /t; ring [II]. Qed.
Lemma quat11 : z' * z + y' * y = one.
Proof. by rewrite -N /z' /z /y' /y; ring [II]. Qed.
Lemma quat_det : x * y - z * t = one.
Proof. by rewrite -N /x /y /z /t; ring [II]. Qed.

End Quaternion.

Section Embed.
Variables (F : fieldType) (cj : {rmorphism F -> F}).

Definition mul2 (X Y : nat -> nat -> F) : nat -> nat -> F := fun i j => X i 0%N * Y 0%N j + X i 1%N * Y 1%N j.

Lemma embed2_adjoint : forall n p q (X : nat -> nat -> F), p != q ->
  adjoint cj (embed2 n p q X) = embed2 n p q (fun i j => cj (X j i)).
Proof.
move=> n p q X pq; apply/matrixP => i j; rewrite !mxE.
have qp : (q == p) = false by rewrite eq_sym (negbTE pq).
rewrite -![_ == _ :> 'I_n]val_eqE /=.
case: (i == p :> nat) / eqP => [->|ip].
  case: (j == p :> nat) / eqP => // jp; case: (j == q :> nat) / eqP => // jq.
  by rewrite rmorph0.
case: (i == q :> nat) / eqP => [->|iq].
  case: (j == p :> nat) / eqP => // jp; case: (j == q :> nat) / eqP => // jq.
  by rewrite rmorph0.
case: (j == p :> nat) / eqP => [->|jp]; first by rewrite rmorph0 (introF eqP ip).
case: (j == q :> nat) / eqP => [->|jq]; first by rewrite rmorph0 (introF eqP iq).
by rewrite eq_sym; case: eqP; rewrite ?rmorph1 ?rmorph0.
Qed.

End Embed.

Section Su.
Variables (F : numFieldType) (f : F -> F) (u : F) (cj : {rmorphism F -> F}) (re root : F -> F).
Variables (I : F) (turn : nat -> F -> F).
Notation S := (field_scalars f u).
Hypothesis C : complex_numbers cj re root.

Lemma embed2_unitary : forall n p q (X : nat -> nat -> F), (p < n)%N -> (q < n)%N -> p != q ->
  (forall i j, (i < 2)%N -> (j < 2)%N -> cj (X 0%N i) * X 0%N j + cj (X 1%N i) * X 1%N j = (i == j)%:R) ->
  unitary cj (embed2 n p q X).
Proof.
move=> n p q X pn qn pq H; rewrite /unitary embed2_adjoint //.
pose B : nat -> nat -> F := fun i j =>
  if (i == p) then if j == p then X 0%N 0%N else if j == q then X 0%N 1%N else 0
  else if (i == q) then if j == p then X 1%N 0%N else if j == q then X 1%N 1%N else 0
  else (i == j)%:R.
have -> : embed2 n p q X = mxr n n B by apply/matrixP => i j; rewrite !mxE.
rewrite -(leftE f u) //; apply/matrixP => i j; rewrite !mxE left_loop // ltn_ord /B !eqxx /=.
have qp : (q == p) = false by rewrite eq_sym (negbTE pq).
rewrite qp -[_ == j]val_eqE /=.
case: (i == p :> nat) / eqP => [ip|ip].
  rewrite ip; case: (j == p :> nat) / eqP => [->|jp]; first by rewrite eqxx H.
  rewrite [p == j]eq_sym; move/eqP/negbTE: (jp) => ->.
  by case: eqP => // jq; [rewrite H|rewrite !mulr0 addr0].
case: (i == q :> nat) / eqP => [iq|iq].
  rewrite iq; case: (j == p :> nat) / eqP => [->|jp]; first by rewrite qp H.
  by rewrite [q == j]eq_sym; case: eqP => // jq; rewrite ?H // !mulr0 addr0.
by case: eqP.
Qed.

(** ** The determinant *)

Lemma det_adjoint : forall n (U : 'M[F]_n), \det (adjoint cj U) = cj (\det U).
Proof.
move=> n U; have -> : adjoint cj U = map_mx cj (U^T) by apply/matrixP => i j; rewrite !mxE.
by rewrite det_map_mx det_tr.
Qed.

Lemma unitary_det : forall n (U : 'M[F]_n), unitary cj U -> `|\det U| = 1.
Proof.
move=> n U /(congr1 determinant); rewrite det_mulmx det_adjoint matrix.det1 mulrC (cj_norm C) => /eqP.
by rewrite sqrp_eq1 ?normr_ge0 // => /eqP.
Qed.

Lemma unitary_unit : forall n (U : 'M[F]_n), unitary cj U -> U \in unitmx.
Proof. by move=> n U /unitary_det N; rewrite unitmxE unitfE -normr_eq0 N oner_eq0. Qed.

Lemma adjointZ : forall n (c : F) (U : 'M[F]_n), adjoint cj (c *: U) = cj c *: adjoint cj U.
Proof. by move=> n c U; apply/matrixP => i j; rewrite !mxE rmorphM. Qed.

Lemma unitaryZ : forall n (c : F) (U : 'M[F]_n), `|c| = 1 -> unitary cj U -> unitary cj (c *: U).
Proof.
move=> n c U c1 UU; rewrite /unitary adjointZ -scalemxAr -scalemxAl scalerA UU.
by rewrite (cj_norm C) c1 expr1n scale1r.
Qed.

Lemma unitaryM : forall n (U V : 'M[F]_n), unitary cj U -> unitary cj V -> unitary cj (U *m V).
Proof.
move=> n U V UU UV; rewrite /unitary adjointM mulmxA -[_ *m _ *m U]mulmxA UU mulmx1.
exact: UV.
Qed.

Lemma unitary1 : forall n, unitary cj (1%:M : 'M[F]_n).
Proof.
move=> n; rewrite /unitary mulmx1; apply/matrixP => i j; rewrite !mxE eq_sym.
by case: eqP; rewrite ?rmorph1 ?rmorph0.
Qed.

(** ** A unitary matrix is not changed *)

Lemma lower_unitary : forall n (L : 'M[F]_n), lower_positive L -> unitary cj L -> L = 1%:M.
Proof.
move=> n L [Z P] U; have O := mulmx1C U.
have OE : forall i j : 'I_n, \sum_k L i k * cj (L j k) = (i == j)%:R.
  by move=> i j; move/matrixP/(_ i j): O; rewrite !mxE => <-; apply: eq_bigr => k _; rewrite !mxE.
suff H : forall m (j : 'I_n), (j < m)%N -> forall i : 'I_n, L i j = (i == j)%:R.
  by apply/matrixP => i j; rewrite (H n) // mxE.
elim=> // m IH j; rewrite ltnS leq_eqVlt => /orP [/eqP jm|/IH //] i.
have R0 : forall k : 'I_n, k != j -> L j k = 0.
  move=> k; rewrite neq_ltn => /orP [lt|lt]; last exact: Z.
  by rewrite IH -?jm // -val_eqE gtn_eqF.
have Sj : forall i : 'I_n, L i j * cj (L j j) = (i == j)%:R.
  move=> i'; rewrite -OE (bigD1 j) //= big1 ?addr0 // => k kj.
  by rewrite [L j k]R0 // rmorph0 mulr0.
have Ljj : L j j = 1.
  have := Sj j; rewrite eqxx (cj_norm C) => /eqP; rewrite sqrp_eq1 ?normr_ge0 // gtr0_norm //.
  by move/eqP.
by rewrite -Sj Ljj rmorph1 mulr1.
Qed.

Lemma lower_quotient : forall n (L L' W : 'M[F]_n), lower_positive L -> lower_positive L' ->
  W *m L = L' -> lower_positive W.
Proof.
move=> n L L' W [Z P] [Z' P'] E.
have WE : forall i j : 'I_n, (forall k : 'I_n, (j < k)%N -> W i k = 0) -> W i j * L j j = L' i j.
  move=> i j H; rewrite -E mxE (bigD1 j) //= big1 ?addr0 // => k.
  by rewrite neq_ltn => /orP [lt|lt]; [rewrite Z // mulr0|rewrite H // mul0r].
have H : forall m (j i : 'I_n), (n - j <= m)%N -> (i < j)%N -> W i j = 0.
  elim=> [|m IH] j i; first by rewrite leqn0 subn_eq0 leqNgt ltn_ord.
  move=> jm ij; have /eqP : W i j * L j j = 0.
    rewrite WE ?Z' // => k jk; apply: IH (ltn_trans ij jk).
    by rewrite -ltnS; apply: leq_trans jm; rewrite ltn_sub2l.
  by rewrite mulf_eq0 [L j j == 0]gt_eqF // orbF => /eqP.
split=> [i j ij|i]; first exact: (H n j i (leq_subr _ _) ij).
have := P' i; rewrite -WE => [|k ik]; last exact: (H n k i (leq_subr _ _) ik).
by rewrite pmulr_lgt0.
Qed.

Lemma lower_unique : forall n (A L L' : 'M[F]_n), lower_positive L -> lower_positive L' ->
  unitary cj (L *m A) -> unitary cj (L' *m A) -> L *m A = L' *m A.
Proof.
move=> n A L L' LP LP' UL UL'.
have UW : unitary cj ((L' *m A) *m adjoint cj (L *m A)).
  by apply: (unitaryM UL'); rewrite /unitary (adjointK C); exact: mulmx1C.
have W1 : (L' *m A) *m adjoint cj (L *m A) = 1%:M.
  apply: lower_unitary UW; apply: (@lower_quotient n L L') => //.
  have UA : A \in unitmx by have := unitary_unit UL; rewrite unitmx_mul => /andP [].
  by apply: (can_inj (mulmxK UA)); rewrite -!mulmxA UL mulmx1.
by rewrite -[L' *m A]mulmx1 -UL mulmxA W1 mul1mx.
Qed.

Lemma make_unitary_fix : forall n M, unitary cj (mxr n n M) ->
  mxr n n (make_unitary S cj root n M) = mxr n n M.
Proof.
move=> n M UM; have [UR [L [LP E]]] := make_unitaryE f u C (unitary_unit UM).
rewrite E (@lower_unitary n L) // ?mul1mx //.
have UA : unitary cj (adjoint cj (mxr n n M)) by rewrite /unitary (adjointK C) (mulmx1C UM).
have -> : L = mxr n n (make_unitary S cj root n M) *m adjoint cj (mxr n n M).
  by rewrite E -mulmxA (mulmx1C UM) mulmx1.
exact: unitaryM.
Qed.

(** ** fix_det *)

Hypothesis fp : positive_scale f.
Hypothesis T : phases turn.

Lemma fix_detE : forall n M, (0 < n)%N ->
  mxr n n (fix_det S turn n M) = turn n (\det (mxr n n M)) *: mxr n n M.
Proof.
move=> n M n0; apply/matrixP => i j; rewrite !mxE /fix_det.
rewrite (@fill F f u n n _ (fun _ _ x => x * turn n (det S n M))); last by move=> a b N r c _ _; rewrite setE; case: eqP => // ->; case: eqP => // ->.
by rewrite !ltn_ord /= mulrC C59_det.
Qed.

Lemma fix_det_ok : forall n M, (0 < n)%N -> unitary cj (mxr n n M) ->
  let R := mxr n n (fix_det S turn n M) in
  [/\ special_unitary cj R, exists w, `|w| = 1 /\ R = w *: mxr n n M &
      \det (mxr n n M) = 1 -> R = mxr n n M].
Proof.
move=> n M n0 UM R; have N1 := unitary_det UM.
have d0 : \det (mxr n n M) != 0 by rewrite -normr_eq0 N1 oner_eq0.
have [w1 wd wp] := T n0 d0.
have RE : R = turn n (\det (mxr n n M)) *: mxr n n M by exact: fix_detE.
split.
- by rewrite RE; split; [exact: unitaryZ|rewrite detZ wd].
- by exists (turn n (\det (mxr n n M))).
by move=> d1; rewrite RE wp ?scale1r // d1 ltr01.
Qed.

Lemma reunitarize_ok : forall n M, (0 < n)%N -> mxr n n M \in unitmx ->
  let R := mxr n n (reunitarize S cj root turn n M) in
  special_unitary cj R /\
  exists w L, [/\ `|w| = 1, lower_positive L & R = w *: (L *m mxr n n M)].
Proof.
move=> n M n0 UM R; have [UR [L [LP E]]] := make_unitaryE f u C UM.
have [SU [w [w1 Ew]] _] := fix_det_ok n0 UR.
by split=> //; exists w, L; split=> //; rewrite /R /reunitarize Ew E.
Qed.

Lemma reunitarize_fix : forall n M, (0 < n)%N -> special_unitary cj (mxr n n M) ->
  mxr n n (reunitarize S cj root turn n M) = mxr n n M.
Proof.
move=> n M n0 [UM d1]; have E := make_unitary_fix UM.
have UN : unitary cj (mxr n n (make_unitary S cj root n M)) by rewrite E.
have [_ _ H] := fix_det_ok n0 UN.
by rewrite /reunitarize H E.
Qed.

(** ** Random matrices *)

Hypothesis HI : imaginary_unit cj I.

Definition good_draw (v : nat -> F) : Prop :=
  (forall i, (i < 4)%N -> v i \is Num.real) /\ exists2 i, (i < 4)%N & v i != 0.

Lemma random2_ok : forall v, good_draw v ->
  let X := random2 S root I v in
  (forall i j, (i < 2)%N -> (j < 2)%N -> cj (X 0%N i) * X 0%N j + cj (X 1%N i) * X 1%N j = (i == j)%:R)
  /\ X 0%N 0%N * X 1%N 1%N - X 0%N 1%N * X 1%N 0%N = 1.
Proof.
move=> v [vR [i0 i04 v0]]; rewrite /random2.
rewrite (loop_sum (fun k => `|v k| ^+ 2)) // add0r big_mkord.
set N := \sum_(_ < _) _.
have N0 : 0 < N.
  rewrite lt0r sumr_ge0 ?andbT => [|k _]; last by rewrite exprn_ge0.
  rewrite psumr_eq0 => [|k _]; last by rewrite exprn_ge0.
  apply/allPn; exists (Ordinal i04); first by rewrite mem_index_enum.
  by rewrite /= expf_eq0 /= normr_eq0.
have R0 := root_gt0 C N0.
pose w i := v i / root N.
have qE : forall i, SuModel.quotient S (v i) (root N) = w i by move=> i; rewrite /SuModel.quotient /= gt_eqF.
have wj : forall i, (i < 4)%N -> cj (w i) = w i.
  move=> i i4; apply: (cj_real C); rewrite realM ?vR // realV ger0_real // ltW //.
have Nw : w 0%N * w 0%N + w 1%N * w 1%N + w 2%N * w 2%N + w 3%N * w 3%N = 1.
  have sq : forall i, (i < 4)%N -> w i * w i = `|v i| ^+ 2 / N.
    move=> i i4; rewrite /w mulrACA -invfM -!expr2 (rootK C (ltW N0)); congr (_ / _).
    by rewrite real_normK // vR.
  rewrite !sq // -!mulrDl -[X in X / _](_ : N = _) ?divff ?gt_eqF //.
  by rewrite /N !big_ord_recr big_ord0 /= add0r.
have [II Ij] := HI; have FT := mc_ring F; clearbody w.
rewrite /= /complex !qE /= /set /=.
split; last by exact: (quat_det FT II Nw).
case=> [|[|i]] [|[|j]] //= _ _; rewrite !rmorphD !rmorphM ?rmorphN ?wj // Ij ?rmorphN ?wj //.
- exact: (quat00 FT II Nw).
- exact: (quat01 FT _ _ _ _ II).
- exact: (quat10 FT _ _ _ _ II).
- exact: (quat11 FT II Nw).
Qed.

Lemma random_hit_ok : forall n draw M k, (forall i, good_draw (draw i)) -> unitary cj (mxr n n M) ->
  unitary cj (mxr n n (random_hit S root I n draw (M, k)).1).
Proof.
move=> n draw M k G UM; rewrite /random_hit.
pose P (_ : nat) (st : mat S * nat) := unitary cj (mxr n n st.1).
apply: (loopP (P := P)) => //.
move=> r st /andP [_ rn] H; have rn2 : (r < n)%N := leq_trans rn (leq_subr _ _).
apply: (loopP (P := P)) => // q [M' k'] /andP [rq qn] H' /=.
have rn' : (r < n)%N by exact: ltn_trans rq qn.
have rq' : r != q by rewrite ltn_eqF.
rewrite /P leftE //; apply: unitaryM => //; apply: embed2_unitary => //.
by have [] := random2_ok (G k').
Qed.

Lemma random_ok : forall n nhits draw, (0 < n)%N -> (forall i, good_draw (draw i)) ->
  special_unitary cj (mxr n n (random S cj root I turn n nhits draw)).
Proof.
move=> n nhits draw n0 G; rewrite /random.
pose P (h : nat) (st : mat S * nat) := unitary cj (mxr n n st.1) /\ (Nat.modulo h.-1 16 == 0%N -> \det (mxr n n st.1) = 1).
set st := loop _ _ _ _.
have : P nhits.+1 st.
  apply: (loopP (P := P)) => //.
    rewrite /P of_scalarE; split=> /=; first exact: unitary1.
    by rewrite matrix.det1.
  move=> h [M k] /andP [h1 _] [H _] /=.
  have := random_hit_ok k G H; case: (random_hit _ _ _ _ _) => M' k' /= UM'.
  rewrite /P /=; case: (PeanoNat.Nat.eqb_spec (Nat.modulo h 16) 0) => hm; last first.
    by split=> // /eqP.
  by have [[U D] _] := reunitarize_ok n0 (unitary_unit UM').
case: st => M k [/= UM D]; case: (PeanoNat.Nat.eqb_spec _ 0) => hm.
  by split=> //; apply: D; apply/eqP.
by have [SU _] := reunitarize_ok n0 (unitary_unit UM).
Qed.

End Su.
