(** The derivative of a characteristic polynomial and Newton's identities. *)
Set Warnings "-notation-overridden,-ambiguous-paths".
From mathcomp Require Import all_ssreflect all_algebra all_fingroup.
Set Implicit Arguments.
Unset Strict Implicit.
Unset Printing Implicit Defensive.
Import GRing.Theory.
Local Open Scope ring_scope.

Section Newton.
Variable F : fieldType.

Lemma deriv_prod_seq : forall (I : eqType) (r : seq I) (g : I -> {poly F}), uniq r ->
  (\prod_(i <- r) g i)^`() = \sum_(i <- r) (g i)^`() * \prod_(j <- r | j != i) g j.
Proof.
move=> I r g; elim: r => [|i r IH] /=; first by rewrite !big_nil -polyC1 derivC.
case/andP=> ir ur; rewrite !big_cons derivM (IH ur) eqxx /=; congr (_ * _ + _).
  rewrite big_seq [RHS]big_seq_cond; apply: eq_bigl => j.
  by case: (boolP (j \in r)) => //= jr; symmetry; apply: contraNneq ir => <-.
rewrite mulr_sumr big_seq [RHS]big_seq; apply: eq_bigr => k kr.
rewrite big_cons; have -> : i != k by apply: contraNneq ir => ->.
by rewrite mulrCA.
Qed.

Lemma deriv_prod : forall n (g : 'I_n -> {poly F}),
  (\prod_i g i)^`() = \sum_i (g i)^`() * \prod_(j | j != i) g j.
Proof. by move=> n g; rewrite deriv_prod_seq // index_enum_uniq. Qed.

Variables (n : nat) (A : 'M[F]_n.+1).
Notation p := (char_poly A).
Notation X := (char_poly_mx A).
Notation B := (\adj X).

Lemma deriv_entry : forall i j, (X i j)^`() = (i == j)%:R.
Proof.
by move=> i j; rewrite !mxE derivB derivC subr0; case: (i == j); rewrite ?derivX ?mulr1n ?mulr0n ?derivC ?raddf0.
Qed.

Lemma deriv_char_poly : p^`() = \tr B.
Proof.
rewrite /char_poly /determinant raddf_sum /=.
pose N i : 'M[{poly F}]_n.+1 := \matrix_(k, l) if k == i then (i == l)%:R else X k l.
transitivity (\sum_i \det (N i)).
  rewrite /determinant exchange_big /=; apply: eq_bigr => s _.
  rewrite -mulr_sumr -[LHS]/(deriv _).
  have -> : deriv ((-1) ^+ s * \prod_i X i (s i)) = (-1) ^+ s * deriv (\prod_i X i (s i)).
    by rewrite -signr_odd; case: (odd s); rewrite ?expr0 ?expr1 ?mul1r ?mulN1r ?derivN.
  congr (_ * _); rewrite deriv_prod; apply: eq_bigr => i _.
  rewrite [RHS](bigD1 i) //= deriv_entry [N i i _]mxE eqxx; congr (_ * _).
  by apply: eq_bigr => j ji; rewrite [N i j _]mxE (negbTE ji).
apply: eq_bigr => i _; rewrite (expand_det_row _ i) (bigD1 i) //= big1 => [|l li].
  rewrite addr0 mxE !eqxx mul1r /adjugate mxE.
  rewrite /cofactor; congr (_ * \det _); apply/matrixP=> k l; rewrite !mxE.
  by rewrite eq_sym (negbTE (neq_lift _ _)).
by rewrite mxE eqxx eq_sym (negbTE li) mul0r.
Qed.

(** The coefficients of the adjugate. *)
Definition Bk (k : nat) : 'M[F]_n.+1 := \matrix_(i, j) (B i j)`_k.

Lemma Bk_step : forall k, Bk k = A * Bk k.+1 + (p`_k.+1)%:M.
Proof.
move=> k; apply/matrixP=> i j.
have : (X *m B) i j = (p%:M : 'M_n.+1) i j by rewrite mul_mx_adj.
rewrite mxE => /(congr1 (fun q : {poly F} => q`_k.+1)).
rewrite coef_sum !mxE => E.
have -> : p`_k.+1 *+ (i == j) = (p *+ (i == j))`_k.+1 by rewrite coefMn.
rewrite -E.
have -> : \sum_l (X i l * B l j)`_k.+1 = (B i j)`_k - \sum_l A i l * (B l j)`_k.+1.
  rewrite (eq_bigr (fun l => ('X *+ (i == l) * B l j)`_k.+1 - A i l * (B l j)`_k.+1)); last first.
    by move=> l _; rewrite !mxE mulrBl coefB coefCM.
  rewrite sumrB; congr (_ - _); rewrite (bigD1 i) //= big1 => [|l li].
    by rewrite eqxx mulr1n coefXM addr0.
  by rewrite eq_sym (negbTE li) mulr0n mul0r coef0.
rewrite addrCA.
have -> : \sum_l A i l * Bk k.+1 l j = \sum_l A i l * (B l j)`_k.+1.
  by apply: eq_bigr => l _; rewrite mxE.
by rewrite subrr addr0 [B i j]mxE.
Qed.

Lemma p_high : forall k, (n.+1 < k)%N -> p`_k = 0.
Proof. by move=> k nk; rewrite nth_default // size_char_poly. Qed.

Lemma p_lead : p`_n.+1 = 1.
Proof. by have := char_poly_monic A; rewrite monicE lead_coefE size_char_poly => /eqP. Qed.

Lemma Bk_high : forall k, (n < k)%N -> Bk k = 0.
Proof.
move=> k nk.
pose d := (\max_i \max_j size (B i j))%N.
have H : forall e k, (n < k)%N -> (d <= k + e)%N -> Bk k = 0.
  elim=> [|e IH] {nk}k nk dk.
    apply/matrixP=> i j; rewrite [LHS]mxE [RHS]mxE nth_default //.
    apply: leq_trans (_ : (d <= k)%N); last by rewrite -(addn0 k).
    apply: leq_trans (leq_bigmax (F := fun j => size (B i j)) j) _.
    exact: (leq_bigmax (F := fun i => \max_j size (B i j)) i).
  rewrite Bk_step p_high ?ltnS // raddf0 addr0 (IH k.+1) ?mulr0 //; first exact: ltnW.
  by rewrite addSnnS.
by apply: (H d) => //; rewrite leq_addl.
Qed.

Lemma Bk_sum : forall j, (j <= n)%N -> Bk (n - j) = \sum_(i < j.+1) p`_(n.+1 - j + i) *: A ^+ i.
Proof.
elim=> [|j IH] jn.
  by rewrite subn0 Bk_step Bk_high // mulr0 add0r big_ord1 subn0 addn0 p_lead scale1r.
have E : (n - j = (n - j.+1).+1)%N by rewrite subnS prednK // subn_gt0.
rewrite Bk_step -E IH ?(ltnW jn) // [RHS]big_ord_recl addn0 expr0 addrC; congr (_ + _).
  by rewrite scalemx1 subSS.
rewrite mulr_sumr; apply: eq_bigr => i _; rewrite -scalerAr -exprS /= /bump /= add1n.
by congr (_`_ _ *: _); rewrite subSS addnS subSn ?(ltnW jn) // E addSn.
Qed.

Lemma cayley_hamilton : \sum_(i < n.+2) p`_i *: A ^+ i = 0.
Proof.
have <- : horner_mx A p = \sum_(i < n.+2) p`_i *: A ^+ i.
  rewrite -{1}[p]coefK poly_def size_char_poly linear_sum; apply: eq_bigr => i _.
  by rewrite linearZ rmorphX /= horner_mx_X.
exact: Cayley_Hamilton.
Qed.

(** Newton's identities. *)
Lemma newton : forall j, (j <= n.+1)%N ->
  p`_(n.+1 - j) *+ j = - \sum_(1 <= i < j.+1) p`_(n.+1 - j + i) * \tr (A ^+ i).
Proof.
move=> j jn.
have T1 : \sum_(i < j.+1) p`_(n.+1 - j + i) * \tr (A ^+ i) = p`_(n.+1 - j) *+ (n.+1 - j).
  move: jn; rewrite leq_eqVlt => /orP [/eqP ->|jn].
    rewrite subnn mulr0n; transitivity (\tr (\sum_(i < n.+2) p`_i *: A ^+ i)).
      by rewrite raddf_sum; apply: eq_bigr => i _; rewrite add0n /= mxtraceZ.
    by rewrite cayley_hamilton raddf0.
  have <- : \tr (Bk (n - j)) = \sum_(i < j.+1) p`_(n.+1 - j + i) * \tr (A ^+ i).
    rewrite Bk_sum // raddf_sum; apply: eq_bigr => i _ /=; exact: mxtraceZ.
  have := congr1 (fun q : {poly F} => q`_(n - j)) deriv_char_poly.
  rewrite coef_deriv -subSn // => ->.
  by rewrite coef_sum; apply: eq_bigr => i _; rewrite [Bk _ _ _]mxE.
have := T1; rewrite -(big_mkord xpredT (fun i => p`_(n.+1 - j + i) * \tr (A ^+ i))) big_ltn //.
rewrite addn0 expr0 mxtrace1 mulr_natr; set x := p`_(n.+1 - j); set y := \sum_(1 <= i < _) _.
have -> : x *+ n.+1 = x *+ (n.+1 - j) + x *+ j by rewrite -mulrnDr subnK.
rewrite -addrA => E; apply/eqP; rewrite -addr_eq0; apply/eqP.
by apply: (addrI (x *+ (n.+1 - j))); rewrite E addr0.
Qed.

End Newton.
