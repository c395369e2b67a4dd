(** Triangular factors, and columns without a pivot. *)
Set Warnings "-notation-overridden,-ambiguous-paths".
From mathcomp Require Import all_ssreflect all_algebra all_fingroup.
From Verif Require Import LinalgModel LinalgSpec LinalgProofs1 LinalgProofs2.
Set Implicit Arguments.
Unset Strict Implicit.
Unset Printing Implicit Defensive.
Import GRing.Theory Num.Theory.
Local Open Scope ring_scope.

Lemma eqbE : forall a b : nat, Nat.eqb a b = (a == b).
Proof. by move=> a b; apply/PeanoNat.Nat.eqb_spec/eqP. Qed.

Section Factors.
Variable F : fieldType.
Implicit Types (a A : nat -> nat -> F).

Definition lo a (i j : nat) : F := if (j < i)%N then a i j else (i == j)%:R.
Definition up a (i j : nat) : F := if (i <= j)%N then a i j else 0.

(** The element of the product of the triangular factors. *)
Definition prod a (r c : nat) : F :=
  \sum_(0 <= k < minn r c) a r k * a k c + (if (r <= c)%N then a r c else a r c * a c c).

Lemma sum_below : forall a r c N, (N <= r)%N -> (N <= c.+1)%N ->
  \sum_(0 <= k < N) lo a r k * up a k c = \sum_(0 <= k < N) a r k * a k c.
Proof.
move=> a r c N Nr Nc; apply: eq_big_nat => k /andP [_ kN].
by rewrite /lo /up (leq_trans kN Nr) -ltnS (leq_trans kN Nc).
Qed.

Lemma prod_sum : forall a r c N, (minn r c < N)%N ->
  \sum_(0 <= k < N) lo a r k * up a k c = prod a r c.
Proof.
move=> a r c N mN; rewrite (@big_cat_nat _ _ _ (minn r c)) ?(ltnW mN) //=.
rewrite sum_below; [|exact: geq_minl|by rewrite leqW // geq_minr].
rewrite /prod; congr (_ + _); rewrite big_ltn // big1_seq ?addr0.
  rewrite /lo /up; case: (leqP r c) => rc.
    by rewrite ltnn eqxx mul1r rc.
  by rewrite rc leqnn.
move=> k /andP [_]; rewrite mem_index_iota => /andP [mk _].
rewrite /lo /up; case: (leqP r c) => rc.
  rewrite (minn_idPl rc) in mk.
  by rewrite ltnNge (ltnW mk) /= (ltn_eqF mk) mul0r.
rewrite (minn_idPr (ltnW rc)) in mk.
by rewrite [(k <= c)%N]leqNgt mk mulr0.
Qed.

Lemma product : forall n a, lower n a *m upper n a = mx n (prod a).
Proof.
move=> n a; apply/matrixP => r c; rewrite !mxE -(@prod_sum a r c n).
  by rewrite big_mkord; apply: eq_bigr => k _; rewrite !mxE /lo /up.
by rewrite gtn_min ltn_ord.
Qed.

Lemma det_lower : forall n a, \det (lower n a) = 1.
Proof.
move=> n a; rewrite det_trig; last first.
  by apply/is_trig_mxP => i j ij; rewrite mxE ltnNge (ltnW ij) /= -val_eqE /= (ltn_eqF ij).
by apply: big1 => i _; rewrite mxE ltnn eqxx.
Qed.

Lemma det_upper : forall n a, \det (upper n a) = \prod_(i < n) a i i.
Proof.
move=> n a; rewrite -det_tr det_trig; last first.
  by apply/is_trig_mxP => i j ij; rewrite !mxE leqNgt ij.
by apply: eq_bigr => i _; rewrite !mxE leqnn.
Qed.

Lemma permuted : forall n (s : 'S_n) A (B : nat -> nat -> F),
  (forall r c : 'I_n, A (s r) c = B r c) -> row_perm s (mx n A) = mx n B.
Proof. by move=> n s A B H; apply/matrixP => r c; rewrite !mxE H. Qed.

Lemma det_permuted : forall n (s : 'S_n) A, \det (row_perm s (mx n A)) = (-1) ^+ s * \det (mx n A).
Proof. by move=> n s A; rewrite row_permE det_mulmx det_perm. Qed.

Lemma det_factors : forall n (s : 'S_n) A a,
  (forall r c : 'I_n, A (s r) c = prod a r c) ->
  \det (mx n A) = (-1) ^+ s * \prod_(i < n) a i i.
Proof.
move=> n s A a H.
have := det_permuted s A; rewrite (permuted H) -product det_mulmx det_lower det_upper mul1r => ->.
by rewrite mulrA -signr_addb addbb mul1r.
Qed.

(** Column j has no element left to divide by: the first j + 1 columns are
    combinations of j vectors. *)
Lemma singular : forall n (s : 'S_n) A a j, (j < n)%N ->
  (forall (r : 'I_n) c, (c < j)%N -> A (s r) c = prod a r c) ->
  (forall r : 'I_n, A (s r) j =
     \sum_(0 <= k < minn r j) a r k * a k j + (if (r < j)%N then a r j else 0)) ->
  \det (mx n A) = 0.
Proof.
move=> n s A a j jn H1 H2; apply/eqP; apply: contraT => nz.
have fullA : row_full (row_perm s (mx n A)).
  by rewrite row_full_unit unitmxE det_permuted unitfE mulf_neq0 ?signr_eq0.
pose B : 'M[F]_(n, j) := \matrix_(r, k) lo a r k.
pose C : 'M[F]_(j, j.+1) := \matrix_(k, c) up a k c.
have E : row_perm s (mx n A) *m pid_mx j.+1 = B *m C.
  apply/matrixP => r c; rewrite !mxE.
  have cn : (c < n)%N by exact: leq_trans (ltn_ord c) jn.
  rewrite (bigD1 (Ordinal cn)) //= big1 ?addr0 => [|k kc]; last first.
    by rewrite !mxE [k == c :> nat](negbTE kc) mulr0.
  rewrite [pid_mx _ _ _]mxE /= eqxx ltn_ord mulr1 !mxE /=.
  transitivity (\sum_(0 <= k < j) lo a r k * up a k c); last first.
    by rewrite big_mkord; apply: eq_bigr => k _; rewrite !mxE.
  case: (ltnP c j) => cj; first by rewrite H1 // prod_sum // gtn_min cj orbT.
  have cE : c = j :> nat by apply/eqP; rewrite eqn_leq cj -ltnS ltn_ord.
  rewrite /= cE H2; case: (ltnP r j) => rj.
    rewrite prod_sum ?gtn_min ?rj //.
    by rewrite /prod (ltnW rj) (minn_idPl (ltnW rj)).
  by rewrite addr0 sum_below.
have R : \rank (row_perm s (mx n A) *m (pid_mx j.+1 : 'M_(n, j.+1))) = j.+1.
  by rewrite (eqmxMfull _ fullA) rank_pid_mx.
have := mulmx_max_rank B C; rewrite -E R ltnn //.
Qed.
End Factors.
