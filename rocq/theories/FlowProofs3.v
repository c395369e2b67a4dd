(** The Zeuthen force. *)
Set Warnings "-notation-overridden,-ambiguous-paths".
From Coq Require Import ZArith List.
From mathcomp Require Import all_ssreflect all_fingroup all_algebra.
From Verif Require Import LinalgSpec AlgebraModel AlgebraSpec AlgebraProofs2 AlgebraProofs4 AlgebraProps
  GaugeModel GaugeSpec GaugeMatrix GaugeProofs1 GaugeProofs2 MatrixSpec ForceModel ForceSpec
  ForceProofs1 ForceProofs2 ForceProofs3 ForceProofs4 ForceProofs5 ForceProofs7 ForceProofs10 ForceProps
  GaussModel GaussSpec GaussProofs1 GaussProofs7 FlowModel FlowSpec FlowProofs1 FlowProofs2.
Set Implicit Arguments.
Unset Strict Implicit.
Unset Printing Implicit Defensive.
Import Order.TTheory GRing.Theory Num.Theory.
Local Open Scope ring_scope.

(** ** A special unitary matrix that does not commute with a given one *)
Section Rotate.
Variables (C : numClosedFieldType) (n : nat).
Notation CM := (complex_matrices C n).
Implicit Types (A h : 'M[C]_n).

Lemma special_r h : h *m dg h = 1%:M -> \det h = 1 -> special h.
Proof. by move=> H D; split=> //; split; [exact: H|exact: (mulmx1C H)]. Qed.

Lemma dg_diag (v : 'rV[C]_n) : dg (diag_mx v) = diag_mx (map_mx conjC v).
Proof. by apply/matrixP => i j; rewrite !mxE rmorphMn eq_sym; case: eqP => // ->. Qed.

Lemma diag_conj (v : 'rV[C]_n) A i j : (dg (diag_mx v) *m A *m diag_mx v) i j = (v 0 i)^* * A i j * v 0 j.
Proof. by rewrite dg_diag mul_mx_diag mul_diag_mx !mxE. Qed.

Lemma diag_special (v : 'rV[C]_n) : (forall i, v 0 i * (v 0 i)^* = 1) -> \prod_i v 0 i = 1 -> special (diag_mx v).
Proof.
move=> H P; apply: special_r; last by rewrite det_diag.
rewrite dg_diag mulmx_diag -[1%:M]diag_const_mx; congr diag_mx.
by apply/rowP => i; rewrite !mxE H.
Qed.

Definition phases (i j : 'I_n) : 'rV[C]_n := \row_k (if k == i then 'i else if k == j then - 'i else 1).

Lemma phases_special i j : i != j -> special (diag_mx (phases i j)).
Proof.
move=> ij; apply: diag_special => [k|].
  rewrite mxE; case: (k == i); first by rewrite conjCi mulrN -expr2 sqrCi opprK.
  by case: (k == j); rewrite ?rmorphN ?conjCi ?opprK ?rmorph1 ?mulr1 // mulNr -expr2 sqrCi opprK.
rewrite (bigD1 i) //= (bigD1 j) /=; last by rewrite eq_sym.
rewrite big1 ?mulr1 => [|k /andP [/negbTE ki /negbTE kj]]; last by rewrite mxE ki kj.
by rewrite !mxE eqxx eq_sym (negbTE ij) eqxx mulrN -expr2 sqrCi opprK.
Qed.

Definition sign_row (i : 'I_n) : 'rV[C]_n := \row_k (if k == i then -1 else 1).
Definition swap (i j : 'I_n) : 'M[C]_n := diag_mx (sign_row i) *m perm_mx (tperm i j).

Lemma dg_perm (s : 'S_n) : dg (perm_mx s : 'M[C]_n) = perm_mx s^-1.
Proof.
rewrite -tr_perm_mx /dg; congr (_^T); apply/matrixP => i j; rewrite !mxE; case: eqP => _; by rewrite ?rmorph1 ?rmorph0.
Qed.

Lemma sign_diag i : diag_mx (sign_row i) *m dg (diag_mx (sign_row i)) = 1%:M.
Proof.
rewrite dg_diag mulmx_diag -[1%:M]diag_const_mx; congr diag_mx.
by apply/rowP => k; rewrite !mxE; case: eqP => _; rewrite ?rmorphN ?rmorph1 ?mulrN1 ?opprK ?mulr1.
Qed.

Lemma swap_special i j : i != j -> special (swap i j).
Proof.
move=> ij; apply: special_r.
  rewrite /swap dg_mul dg_perm !mulmxA -(mulmxA _ (perm_mx _) (perm_mx _)) -perm_mxM mulgV perm_mx1 mulmx1; exact: sign_diag.
rewrite /swap det_mulmx det_diag det_perm odd_tperm ij expr1 (bigD1 i) //= mxE eqxx big1 => [|k /negbTE ki].
  by rewrite mulr1 mulrN1 opprK.
by rewrite mxE ki.
Qed.

Lemma swap_conj A i j : (forall a b, a != b -> A a b = 0) -> (dg (swap i j) *m A *m swap i j) i i = A j j.
Proof.
move=> H; rewrite /swap dg_mul dg_perm.
have -> : perm_mx (tperm i j)^-1 *m dg (diag_mx (sign_row i)) *m A *m (diag_mx (sign_row i) *m perm_mx (tperm i j))
   = perm_mx (tperm i j)^-1 *m A *m perm_mx (tperm i j).
  rewrite !mulmxA -2!(mulmxA (perm_mx _)); congr (_ *m _ *m _).
  apply/matrixP => a b; rewrite diag_conj !mxE; case: (eqVneq a b) => [->|ab]; last by rewrite H // mulr0 mul0r.
  case: eqP => _; rewrite ?rmorphN ?rmorph1 ?mulN1r ?mulrN1 ?opprK ?mul1r ?mulr1 //.
by rewrite -row_permE tpermV -[perm_mx (tperm i j)]/(perm_mx (tperm i j)) -{2}(invgK (tperm i j)) -col_permE !mxE tpermV tpermL.
Qed.

Lemma rotated A : A != 0 -> \tr A = 0 -> exists2 h, special h & dg h *m A *m h <> A.
Proof.
move=> nz T.
case: (pickP (fun p : 'I_n * 'I_n => (p.1 != p.2) && (A p.1 p.2 != 0))) => [[i j] /= /andP [ij Aij]|D].
  exists (diag_mx (phases i j)); first exact: phases_special.
  move=> /matrixP /(_ i j); rewrite diag_conj !mxE eqxx eq_sym (negbTE ij) eqxx conjCi.
  rewrite mulrN !mulNr opprK mulrAC -expr2 sqrCi mulN1r => E.
  have : A i j *+ 2 == 0 by rewrite mulr2n -{1}E addNr.
  by rewrite mulrn_eq0 (negbTE Aij).
have Dg a b : a != b -> A a b = 0.
  by move=> ab; apply/eqP; move: (D (a, b)); rewrite /= ab /= => /negbFE.
case: (pickP (fun p : 'I_n * 'I_n => A p.1 p.1 != A p.2 p.2)) => [[i j] /= Aij|E].
  exists (swap i j); first by apply: swap_special; apply: contraNneq Aij => ->.
  by move=> /matrixP /(_ i i); rewrite (swap_conj i j Dg) => e; move: Aij; rewrite e eqxx.
case/negP: nz; apply/eqP/matrixP => i j; rewrite [RHS]mxE.
case: (eqVneq i j) => [<-|]; last exact: Dg.
have S : \tr A = A i i *+ n.
  have -> : A i i *+ n = \sum_(k < n) A i i by rewrite sumr_const card_ord.
  apply: eq_bigr => k _.
  by apply/eqP; move: (E (k, i)); rewrite /= => /negbFE.
move: T; rewrite S => /eqP; rewrite mulrn_eq0 => /orP [/eqP z|/eqP //].
by have := leq_ltn_trans (leq0n i) (ltn_ord i); rewrite lt0n => /eqP /(_ z).
Qed.
End Rotate.
