(** Making the rows of a matrix orthonormal. *)
Set Warnings "-notation-overridden,-ambiguous-paths".
From mathcomp Require Import all_ssreflect all_algebra all_fingroup.
From Verif Require Import LinalgModel LinalgSpec LinalgProofs1 LinalgProofs3 LinalgProofs4
  MatrixModel MatrixSpec MatrixProofs1 EigenSpec EigenProofs1 SuModel SuSpec.
Set Implicit Arguments.
Unset Strict Implicit.
Unset Printing Implicit Defensive.
Import Order.TTheory GRing.Theory Num.Theory.
Local Open Scope ring_scope.

Section Rows.
Variables (F : numFieldType) (f : F -> F) (u : F) (cj : {rmorphism F -> F}) (re root : F -> F).
Notation S := (field_scalars f u).
Hypothesis C : complex_numbers cj re root.
Implicit Types (M N : nat -> nat -> F).

(** The product of the rows i and j. *)
Definition ip n M i j : F := \sum_(k < n) cj (M i k) * M j k.

Lemma ip_conj : forall n M i j, cj (ip n M i j) = ip n M j i.
Proof.
move=> n M i j; rewrite /ip rmorph_sum; apply: eq_bigr => k _ /=.
by rewrite rmorphM (cjK C) mulrC.
Qed.

Lemma ip_norm : forall n M i, ip n M i i = \sum_(k < n) `|M i k| ^+ 2.
Proof. by move=> n M i; apply: eq_bigr => k _; rewrite mulrC (cj_norm C). Qed.

Lemma ip_ge0 : forall n M i, 0 <= ip n M i i.
Proof. by move=> n M i; rewrite ip_norm sumr_ge0 // => k _; rewrite exprn_ge0. Qed.

(** ** One row *)

Lemma normalize_rowE : forall n r M k i,
  normalize_row S root n r M k i
  = if (k == r) && (i < n)%N then M r i * SuModel.quotient S 1 (root (ip n M r r)) else M k i.
Proof.
move=> n r M k i; rewrite /normalize_row.
rewrite (loop_sum (fun k => `|M r k| ^+ 2)) // add0r big_mkord -ip_norm.
set c := SuModel.quotient _ _ _.
rewrite (@fill_row F f u n r _ (fun _ x => x * c)); last by move=> j N a b jn; rewrite setE.
by case: (k == r) / eqP => [->|].
Qed.

Lemma orthogonalize_rowE : forall n r j M k i, j != r ->
  orthogonalize_row S cj n r j M k i
  = if (k == j) && (i < n)%N then M j i - ip n M r j * M r i else M k i.
Proof.
move=> n r j M k i jr; rewrite /orthogonalize_row.
rewrite (loop_sum (fun k => cj (M r k) * M j k)) // add0r big_mkord -/(ip n M r j).
pose Q a (N : mat S) := forall k i, N k i = if (k == j) && (i < a)%N then M j i - ip n M r j * M r i else M k i.
move: k i; apply: (loopP (P := Q)) => //; first by move=> k i; rewrite andbF.
move=> a N /andP [_ an] H k i; rewrite setE /= !H ltnn andbF [r == j]eq_sym (negbTE jr) /= ltnS [(i <= a)%N]leq_eqVlt.
by case: (k == j) / eqP => [->|] //=; case: (i == a) / eqP => [->|].
Qed.

(** ** One round *)

Definition round n r M : mat S :=
  loop r.+1 n (fun j M => orthogonalize_row S cj n r j M) (normalize_row S root n r M).

Lemma roundE : forall n r M k i, (r < n)%N -> (k < n)%N -> (i < n)%N ->
  let c := SuModel.quotient S 1 (root (ip n M r r)) in
  round n r M k i = if k == r then c * M r i
    else if (r < k)%N then M k i - (cj c * ip n M r k) * (c * M r i) else M k i.
Proof.
move=> n r M k i rn kn iN c; rewrite /round; set N := normalize_row _ _ _ _ _.
have NE : forall k i, N k i = if (k == r) && (i < n)%N then M r i * c else M k i.
  by move=> k' i'; rewrite /N normalize_rowE.
have IE : forall j, j != r -> ip n N r j = cj c * ip n M r j.
  move=> j jr; rewrite /ip mulr_sumr; apply: eq_bigr => l _.
  by rewrite !NE eqxx ltn_ord (negbTE jr) /= rmorphM [cj (M r l) * cj c]mulrC -mulrA.
pose Q a (R : mat S) := forall k i, (i < n)%N ->
  R k i = if (r < k < a)%N then N k i - ip n N r k * N r i else N k i.
have : Q n (loop r.+1 n (fun j M => orthogonalize_row S cj n r j M) N).
  apply: (loopP (P := Q)) => //.
    move=> k' i' _; case: andP => // -[a b]; by move: a; rewrite ltnNge -ltnS b.
  move=> a R /andP [ra an] H k' i' iN'.
  have ar : a != r by rewrite gtn_eqF.
  rewrite orthogonalize_rowE // iN' andbT.
  have -> : ip n R r a = ip n N r a.
    by apply: eq_bigr => l _; rewrite !H // ltnn ltnn andbF.
  rewrite !H // !ltnn andbF /= ltnS [(k' <= a)%N]leq_eqVlt.
  by case: (k' == a) / eqP => [->|] //=; rewrite ra.
move=> H; rewrite H // kn andbT !NE eqxx iN andbT /=.
case: (k == r) / eqP => [->|/eqP kr]; first by rewrite ltnn mulrC.
by rewrite IE // [M r i * c]mulrC.
Qed.

(** ** Matrices *)

Section Matrix.
Variables (n : nat) (A : 'M[F]_n).

Definition row_op (r : 'I_n) (c : F) (g : 'I_n -> F) (X : 'M[F]_n) : 'M[F]_n :=
  \matrix_(k, i) if k == r then c * X r i else if (r < k)%N then X k i - g k * (c * X r i) else X k i.

Lemma row_opM : forall r c g (X Y : 'M[F]_n), row_op r c g (X *m Y) = row_op r c g X *m Y.
Proof.
move=> r c g X Y; apply/matrixP => k i; rewrite !mxE.
case: (k =P r) => kr.
  by rewrite mulr_sumr; apply: eq_bigr => l _; rewrite mxE kr eqxx mulrA.
case: ifP => rk; last by apply: eq_bigr => l _; rewrite mxE (introF eqP kr) rk.
rewrite !mulr_sumr -sumrB; apply: eq_bigr => l _.
by rewrite mxE (introF eqP kr) rk mulrBl !mulrA.
Qed.

Lemma lower_positive1 : lower_positive (1%:M : 'M[F]_n).
Proof.
split=> [i j ij|i]; rewrite !mxE ?eqxx ?ltr01 //.
by case: eqP => // E; move: ij; rewrite E ltnn.
Qed.

Lemma lower_positive_unit : forall L : 'M[F]_n, lower_positive L -> L \in unitmx.
Proof.
move=> L [Z P]; rewrite unitmxE det_trig; last by apply/is_trig_mxP.
by rewrite unitfE; apply/prodf_neq0 => i _; rewrite gt_eqF.
Qed.

Lemma lower_positive_op : forall r c g L, 0 < c -> lower_positive L -> lower_positive (row_op r c g L).
Proof.
move=> r c g L c0 [Z P]; split=> [i j ij|i]; rewrite !mxE.
  case: eqP => [E|_]; first by rewrite -E Z // mulr0.
  by case: ifP => ri; rewrite !Z ?mulr0 ?subr0 // (ltn_trans ri).
case: eqP => [E|_]; first by rewrite -E mulr_gt0.
by case: ifP => ri //; rewrite [L r i]Z // !mulr0 subr0.
Qed.

(** What holds after r rounds. *)
Definition rows_ok (r : nat) (M : mat S) : Prop :=
  (exists L, lower_positive L /\ mxr n n M = L *m A) /\
  forall i j, (i < r)%N -> (i < n)%N -> (j < n)%N -> ip n M i j = (i == j)%:R.

Lemma row_neq0 : forall r M, (r < n)%N -> mxr n n M \in unitmx -> 0 < ip n M r r.
Proof.
move=> r M rn U; rewrite lt0r ip_ge0 andbT; apply/eqP; rewrite ip_norm => /eqP.
rewrite psumr_eq0 => [/allP Z|k _]; last by rewrite exprn_ge0.
have R0 : row (Ordinal rn) (mxr n n M) = 0.
  apply/rowP => k; rewrite !mxE; have := Z k; rewrite mem_index_enum => /(_ isT) /=.
  by rewrite expf_eq0 /= normr_eq0 => /eqP.
have : row (Ordinal rn) (mxr n n M) *m invmx (mxr n n M) = delta_mx 0 (Ordinal rn).
  by rewrite rowE -mulmxA mulmxV // mulmx1.
rewrite R0 mul0mx => /matrixP /(_ 0 (Ordinal rn)); rewrite !mxE !eqxx /= => /esym /eqP.
by rewrite oner_eq0.
Qed.

Lemma round_ok : forall r M, A \in unitmx -> (r < n)%N -> rows_ok r M -> rows_ok r.+1 (round n r M).
Proof.
move=> r M UA rn [[L [LP ML]] O].
have UM : mxr n n M \in unitmx by rewrite ML unitmx_mul UA lower_positive_unit.
have N0 := row_neq0 rn UM; have R0 := root_gt0 C N0.
set c := (root (ip n M r r))^-1.
have c0 : 0 < c by rewrite invr_gt0.
have cE : SuModel.quotient S 1 (root (ip n M r r)) = c.
  by rewrite /SuModel.quotient /= gt_eqF // div1r.
have cc : cj c = c by rewrite (cj_ge0 C) // ltW.
have c2 : c * (c * ip n M r r) = 1.
  rewrite mulrA -expr2 /c exprVn -[X in _ * X](rootK C (ltW N0)) mulVf //.
  by rewrite expf_neq0 // gt_eqF.
have RE : forall k i, (k < n)%N -> (i < n)%N -> round n r M k i = if k == r then c * M r i
    else if (r < k)%N then M k i - (c * ip n M r k) * (c * M r i) else M k i.
  by move=> k i kn iN; rewrite roundE // cE cc.
split.
  exists (row_op (Ordinal rn) c (fun k => c * ip n M r k) L); split; first exact: lower_positive_op.
  by rewrite -row_opM -ML; apply/matrixP => k i; rewrite !mxE RE.
have In : forall i j, (i < n)%N -> (j < n)%N -> (i < r)%N ->
    ip n (round n r M) i j = if j == r then c * ip n M i r else if (r < j)%N then ip n M i j - (c * ip n M r j) * (c * ip n M i r) else ip n M i j.
  move=> i j iN jn ir; rewrite [ip n (round _ _ _) _ _]/ip.
  under eq_bigr => k _ do rewrite !RE // (ltn_eqF ir) ltnNge (ltnW ir) /=.
  move: (c * ip n M r j) => G; rewrite /ip.
  case: (j == r); first by rewrite mulr_sumr; apply: eq_bigr => k _; rewrite mulrCA.
  case: (r < j)%N => //; rewrite !mulr_sumr -sumrB; apply: eq_bigr => k _.
  by rewrite mulrBr; congr (_ - _); rewrite mulrCA; congr (_ * _); rewrite mulrCA.
have Ir : forall j, (j < n)%N ->
    ip n (round n r M) r j = if j == r then c * (c * ip n M r r) else if (r < j)%N then c * ip n M r j - (c * ip n M r j) * (c * (c * ip n M r r)) else c * ip n M r j.
  move=> j jn; rewrite [ip n (round _ _ _) _ _]/ip.
  under eq_bigr => k _ do rewrite !RE // eqxx rmorphM cc -[c * cj _ * _]mulrA.
  case: (j == r).
    by rewrite /ip !mulr_sumr; apply: eq_bigr => k _; congr (_ * _); rewrite mulrCA.
  case: (r < j)%N; last by rewrite /ip mulr_sumr.
  rewrite /ip !mulr_sumr -sumrB; apply: eq_bigr => k _.
  rewrite !mulrBr; congr (_ - _).
  move: (\sum_i _) => H; by rewrite [cj (M r k) * (H * _)]mulrCA [c * (H * _)]mulrCA [cj (M r k) * (c * _)]mulrCA.
move=> i j; rewrite ltnS leq_eqVlt => /orP [/eqP ->|ir] iN jn.
  rewrite Ir // [r == j]eq_sym; case: (j == r) / eqP => [_|/eqP jr]; first exact: c2.
  rewrite c2 mulr1 subrr; case: ltnP => // jr'.
  have lt : (j < r)%N by rewrite ltn_neqAle jr.
  by rewrite -ip_conj O // (negbTE jr) rmorph0 mulr0.
have ir0 : ip n M i r = 0 by rewrite O // ltn_eqF.
rewrite In // ir0 !mulr0 subr0; case: (j == r) / eqP => [->|_]; first by rewrite ltn_eqF.
by case: ifP => _; rewrite O.
Qed.

Lemma make_unitary_ok : forall M, mxr n n M = A -> A \in unitmx ->
  rows_ok n (make_unitary S cj root n M).
Proof.
move=> M MA UA; rewrite /make_unitary; apply: (loopP (P := rows_ok)) => //.
  by split=> //; exists 1%:M; split; [exact: lower_positive1|rewrite mul1mx].
by move=> r N /andP [_ rn] H; apply: round_ok.
Qed.

End Matrix.

Theorem make_unitaryE : forall n M, mxr n n M \in unitmx ->
  let R := mxr n n (make_unitary S cj root n M) in
  unitary cj R /\ exists L : 'M[F]_n, lower_positive L /\ R = L *m mxr n n M.
Proof.
move=> n M UM R; have [[L [LP LE]] O] := make_unitary_ok (Logic.eq_refl _) UM.
split; last by exists L.
rewrite /unitary; apply: mulmx1C; apply/matrixP => i j; rewrite !mxE.
rewrite [i == j]eq_sym -[(j == i)%:R](O j i) //; apply: eq_bigr => k _; rewrite !mxE.
by rewrite mulrC.
Qed.

End Rows.
