(** Matrix operations. *)
Set Warnings "-notation-overridden,-ambiguous-paths".
From mathcomp Require Import all_ssreflect all_algebra all_fingroup.
From Verif Require Import LinalgModel LinalgSpec LinalgProofs1 LinalgProofs2 LinalgProofs3 LinalgProofs4 MatrixModel MatrixSpec.
Set Implicit Arguments.
Unset Strict Implicit.
Unset Printing Implicit Defensive.
Import GRing.Theory Num.Theory.
Local Open Scope ring_scope.

Section Ops.
Variables (F : numFieldType) (f : F -> F) (u : F) (cj : {rmorphism F -> F}).
Notation S := (field_scalars f u).
Implicit Types (a b A B M res : nat -> nat -> F).

(** ** Double loops that treat each element once *)

Lemma fill_row : forall m i (body : nat -> mat S -> mat S) (V : nat -> F -> F) res,
  (forall j M r c, (j < m)%N ->
     body j M r c = if (r == i) && (c == j) then V j (M i j) else M r c) ->
  forall r c, loop 0 m body res r c = if (r == i) && (c < m)%N then V c (res r c) else res r c.
Proof.
move=> m i body V res Hb.
pose P k (M : mat S) := forall r c, M r c = if (r == i) && (c < k)%N then V c (res r c) else res r c.
apply: (loopP (P := P)) => //; first by move=> r c; rewrite andbF.
move=> k M /andP [_ km] H r c; rewrite Hb // !H ltnn andbF ltnS [(c <= k)%N]leq_eqVlt.
case: (r == i) / eqP => [->|] //=; case: (c == k) / eqP => [->|] //=.
Qed.

Lemma fill : forall n m (body : nat -> nat -> mat S -> mat S) (V : nat -> nat -> F -> F) res,
  (forall i j M r c, (i < n)%N -> (j < m)%N ->
     body i j M r c = if (r == i) && (c == j) then V i j (M i j) else M r c) ->
  forall r c, loop 0 n (fun i M => loop 0 m (body i) M) res r c
    = if (r < n)%N && (c < m)%N then V r c (res r c) else res r c.
Proof.
move=> n m body V res Hb.
pose P k (M : mat S) := forall r c,
  M r c = if (r < k)%N && (c < m)%N then V r c (res r c) else res r c.
apply: (loopP (P := P)) => // k M /andP [_ kn] H r c.
rewrite (@fill_row m k _ (V k)); last by move=> *; apply: Hb.
rewrite H ltnS [(r <= k)%N]leq_eqVlt; case: (r == k) / eqP => [->|] //=.
by rewrite ltnn; case: (c < m)%N.
Qed.

Lemma fill_col : forall m i (body : nat -> mat S -> mat S) (V : nat -> F -> F) res,
  (forall j M r c, (j < m)%N ->
     body j M r c = if (r == j) && (c == i) then V j (M j i) else M r c) ->
  forall r c, loop 0 m body res r c = if (c == i) && (r < m)%N then V r (res r c) else res r c.
Proof.
move=> m i body V res Hb.
pose P k (M : mat S) := forall r c, M r c = if (c == i) && (r < k)%N then V r (res r c) else res r c.
apply: (loopP (P := P)) => //; first by move=> r c; rewrite andbF.
move=> k M /andP [_ km] H r c; rewrite Hb // !H ltnn andbF ltnS [(r <= k)%N]leq_eqVlt.
case: (c == i) / eqP => [->|] //=; case: (r == k) / eqP => [->|] //=.
Qed.

Lemma fillT : forall n m (body : nat -> nat -> mat S -> mat S) (V : nat -> nat -> F -> F) res,
  (forall i j M r c, (i < n)%N -> (j < m)%N ->
     body i j M r c = if (r == j) && (c == i) then V i j (M j i) else M r c) ->
  forall r c, loop 0 n (fun i M => loop 0 m (body i) M) res r c
    = if (c < n)%N && (r < m)%N then V c r (res r c) else res r c.
Proof.
move=> n m body V res Hb.
pose P k (M : mat S) := forall r c,
  M r c = if (c < k)%N && (r < m)%N then V c r (res r c) else res r c.
apply: (loopP (P := P)) => // k M /andP [_ kn] H r c.
rewrite (@fill_col m k _ (V k)); last by move=> *; apply: Hb.
rewrite H ltnS [(c <= k)%N]leq_eqVlt; case: (c == k) / eqP => [->|] //=.
by rewrite ltnn; case: (r < m)%N.
Qed.

(** ** A sum kept in one element *)

Lemma cell_sum : forall lo l i j (g : nat -> F) M, (lo <= l)%N ->
  forall r c, loop lo l (fun k M => set S M i j (M i j + g k)) M r c
  = if (r == i) && (c == j) then M i j + \sum_(lo <= k < l) g k else M r c.
Proof.
move=> lo l i j g M ll.
pose P k (N : mat S) := forall r c,
  N r c = if (r == i) && (c == j) then M i j + \sum_(lo <= k < k) g k else M r c.
suff : P l (loop lo l (fun k M => set S M i j (M i j + g k)) M) by [].
apply: (loopP (P := P)) => //.
  move=> r c; rewrite big_geq // addr0.
  by case: (r == i) / eqP => [->|] //; case: (c == j) / eqP => [->|].
move=> k N /andP [lk _] H r c; rewrite setE !H !eqxx /=.
by case: ((r == i) && (c == j)) => //; rewrite big_nat_recr //= addrA.
Qed.

Lemma cell_diff : forall l i j (g : nat -> F) M,
  forall r c, loop 0 l (fun k M => set S M i j (M i j - g k)) M r c
  = if (r == i) && (c == j) then M i j - \sum_(0 <= k < l) g k else M r c.
Proof.
move=> l i j g M r c.
rewrite (@cell_sum 0 l i j (fun k => - g k)) //; by rewrite sumrN.
Qed.

Lemma sum_first : forall l (g : nat -> F), (0 < l)%N ->
  g 0%N + \sum_(1 <= k < l) g k = \sum_(0 <= k < l) g k.
Proof. by move=> l g l0; rewrite [RHS]big_ltn. Qed.

Lemma product_cell : forall l i j (g : nat -> F) M, (0 < l)%N ->
  forall r c, loop 1 l (fun k M => set S M i j (M i j + g k)) (set S M i j (g 0%N)) r c
  = if (r == i) && (c == j) then \sum_(0 <= k < l) g k else M r c.
Proof.
move=> l i j g M l0 r c; rewrite cell_sum // !setE !eqxx /= sum_first //.
by case: ((r == i) && (c == j)).
Qed.

(** ** Products *)

Lemma op_mulE : forall n p m a b r c, (0 < p)%N -> (r < n)%N -> (c < m)%N ->
  op_mul S n p m a b r c = \sum_(0 <= k < p) a r k * b k c.
Proof.
move=> n p m a b r c p0 rn cm; rewrite /op_mul.
rewrite (@fill _ _ _ (fun i j _ => \sum_(0 <= k < p) a i k * b k j)) ?rn ?cm //.
by move=> i j M r' c' _ _; rewrite (@product_cell p i j (fun k => a i k * b k j)).
Qed.

Lemma op_mul_mx : forall n p m a b, (0 < p)%N ->
  mxr n m (op_mul S n p m a b) = mxr n p a *m mxr p m b.
Proof.
move=> n p m a b p0; apply/matrixP=> i j; rewrite !mxE op_mulE // big_mkord.
by apply: eq_bigr => k _; rewrite !mxE.
Qed.

Lemma multE : forall n m l a b res, (0 < l)%N ->
  mxr n m (mult S n m l (fun _ => a) (fun _ => b) res) = mxr n l a *m mxr l m b.
Proof.
move=> n m l a b res l0; apply/matrixP=> i j; rewrite !mxE /mult.
rewrite (@fill _ _ _ (fun i j _ => \sum_(0 <= k < l) a i k * b k j)); last first.
  by move=> i' j' M r' c' _ _; rewrite (@product_cell l i' j' (fun k => a i' k * b k j')).
by rewrite !ltn_ord /= big_mkord; apply: eq_bigr => k _; rewrite !mxE.
Qed.

Lemma mult_aaE : forall n m l a b res, (0 < l)%N ->
  mxr m n (mult_aa S cj n m l (fun _ => a) (fun _ => b) res)
  = adjoint cj (mxr n l a *m mxr l m b).
Proof.
move=> n m l a b res l0; apply/matrixP=> i j; rewrite !mxE /mult_aa.
rewrite (@fillT _ _ _ (fun i j _ => \sum_(0 <= k < l) cj (a i k * b k j))); last first.
  by move=> i' j' M r' c' _ _; rewrite (@product_cell l j' i' (fun k => cj (a i' k * b k j'))).
by rewrite !ltn_ord /= big_mkord rmorph_sum; apply: eq_bigr => k _; rewrite !mxE.
Qed.

Lemma mult_addE : forall n m l a b res,
  mxr n m (mult_add S n m l (fun _ => a) (fun _ => b) res)
  = mxr n m res + mxr n l a *m mxr l m b.
Proof.
move=> n m l a b res; apply/matrixP=> i j; rewrite !mxE /mult_add.
rewrite (@fill _ _ _ (fun i j x => x + \sum_(0 <= k < l) a i k * b k j)); last first.
  by move=> i' j' M r' c' _ _; rewrite (@cell_sum 0 l i' j' (fun k => a i' k * b k j')).
by rewrite !ltn_ord /= big_mkord; congr (_ + _); apply: eq_bigr => k _; rewrite !mxE.
Qed.

Lemma mult_subE : forall n m l a b res,
  mxr n m (mult_sub S n m l (fun _ => a) (fun _ => b) res)
  = mxr n m res - mxr n l a *m mxr l m b.
Proof.
move=> n m l a b res; apply/matrixP=> i j; rewrite !mxE /mult_sub.
rewrite (@fill _ _ _ (fun i j x => x - \sum_(0 <= k < l) a i k * b k j)); last first.
  by move=> i' j' M r' c' _ _; rewrite (@cell_diff l i' j' (fun k => a i' k * b k j')).
by rewrite !ltn_ord /= big_mkord; congr (_ - _); apply: eq_bigr => k _; rewrite !mxE.
Qed.

(** With a number; the matrix may be the result itself. *)
Lemma mult_scalarE : forall n m a x res,
  mxr n m (mult_scalar S n m (fun _ => a) (fun _ => x) res) = x *: mxr n m a.
Proof.
move=> n m a x res; apply/matrixP=> i j; rewrite !mxE /mult_scalar.
rewrite (@fill _ _ _ (fun i j _ => a i j * x)); last by move=> *; rewrite setE.
by rewrite !ltn_ord mulrC.
Qed.

Lemma mult_scalar_in_place : forall n m x res,
  mxr n m (mult_scalar S n m id (fun _ => x) res) = x *: mxr n m res.
Proof.
move=> n m x res; apply/matrixP=> i j; rewrite !mxE /mult_scalar.
rewrite (@fill _ _ _ (fun i j y => y * x)); last by move=> *; rewrite setE.
by rewrite !ltn_ord mulrC.
Qed.

Lemma mult_add_scalarE : forall n m a x res,
  mxr n m (mult_add_scalar S n m (fun _ => a) (fun _ => x) res) = mxr n m res + x *: mxr n m a.
Proof.
move=> n m a x res; apply/matrixP=> i j; rewrite !mxE /mult_add_scalar.
rewrite (@fill _ _ _ (fun i j y => y + a i j * x)); last by move=> *; rewrite setE.
by rewrite !ltn_ord mulrC.
Qed.

Lemma scaleE : forall n m x M, mxr n m (scale S n m x M) = x *: mxr n m M.
Proof.
move=> n m x M; apply/matrixP=> i j; rewrite !mxE /scale.
rewrite (@fill _ _ _ (fun i j y => y * x)); last by move=> *; rewrite setE.
by rewrite !ltn_ord mulrC.
Qed.

Lemma add_assignE : forall n m a M, mxr n m (add_assign S n m a M) = mxr n m M + mxr n m a.
Proof.
move=> n m a M; apply/matrixP=> i j; rewrite !mxE /add_assign.
rewrite (@fill _ _ _ (fun i j y => y + a i j)); last by move=> *; rewrite setE.
by rewrite !ltn_ord.
Qed.

Lemma of_scalarE : forall n x, mxr n n (of_scalar S n x) = x%:M.
Proof.
move=> n x; apply/matrixP=> i j; rewrite !mxE /of_scalar.
rewrite (@fill _ _ _ (fun i j _ => if Nat.eqb i j then x else 0)); last by move=> *; rewrite setE.
rewrite !ltn_ord /= LinalgProofs3.eqbE -(inj_eq val_inj) /=.
by case: (_ == _).
Qed.

Lemma diagonal : forall n (V : F -> F) M r c,
  loop 0 n (fun i M => set S M i i (V (M i i))) M r c
  = if (r == c) && (r < n)%N then V (M r c) else M r c.
Proof.
move=> n V M.
pose P k (N : mat S) := forall r c,
  N r c = if (r == c) && (r < k)%N then V (M r c) else M r c.
suff : P n (loop 0 n (fun i M => set S M i i (V (M i i))) M) by [].
apply: (loopP (P := P)) => //; first by move=> r c; rewrite andbF.
move=> k N _ H r c; rewrite setE !H eqxx ltnn ltnS [(r <= k)%N]leq_eqVlt /=.
case: (r == k) / eqP => [->|] //=.
by rewrite [c == k]eq_sym; case: (k == c) / eqP => [->|].
Qed.

Lemma add_scalarE : forall n x M, mxr n n (add_scalar S n (fun _ => x) M) = mxr n n M + x%:M.
Proof.
move=> n x M; apply/matrixP=> i j; rewrite !mxE /add_scalar (@diagonal n (fun y => y + x)).
rewrite ltn_ord andbT -(inj_eq val_inj) /=.
by case: (_ == _); rewrite ?addr0.
Qed.

Lemma sub_scalarE : forall n x M, mxr n n (sub_scalar S n x M) = mxr n n M - x%:M.
Proof.
move=> n x M; apply/matrixP=> i j; rewrite !mxE /sub_scalar (@diagonal n (fun y => y - x)).
rewrite ltn_ord andbT -(inj_eq val_inj) /=.
by case: (_ == _); rewrite ?subr0.
Qed.

(** ** Transposes, traces, vectors *)

Lemma transposeE : forall n m a, mxr m n (transpose S n m a) = (mxr n m a)^T.
Proof.
move=> n m a; apply/matrixP=> i j; rewrite !mxE /transpose.
rewrite (@fillT _ _ _ (fun i j _ => a i j)); last by move=> *; rewrite setE.
by rewrite !ltn_ord.
Qed.

Lemma daggerE : forall n m a, mxr m n (dagger S cj n m a) = adjoint cj (mxr n m a).
Proof.
move=> n m a; apply/matrixP=> i j; rewrite !mxE /dagger.
rewrite (@fillT _ _ _ (fun i j _ => cj (a i j))); last by move=> *; rewrite setE.
by rewrite !ltn_ord.
Qed.

Lemma loop_sum : forall lo n (g : nat -> F) x, (lo <= n)%N ->
  loop lo n (fun i r => r + g i) x = x + \sum_(lo <= i < n) g i.
Proof.
move=> lo n g x ln.
pose P k (y : F) := y = x + \sum_(lo <= i < k) g i.
apply: (loopP (P := P)) => //; first by rewrite /P big_geq // addr0.
by move=> k y /andP [lk _] ->; rewrite /P big_nat_recr //= addrA.
Qed.

Lemma loop_ext : forall (X : Type) lo n (g h : nat -> X -> X) x, (forall i y, g i y = h i y) ->
  loop lo n g x = loop lo n h x.
Proof.
move=> X lo n g h x E; rewrite /loop.
by elim: (List.seq lo _) x => //= i l IH x; rewrite E IH.
Qed.

Lemma traceE : forall n a, trace S n a = \tr (mxr n n a).
Proof.
move=> n a; rewrite /trace (@loop_sum 0 n (fun i => a i i)) // add0r big_mkord.
by apply: eq_bigr => i _; rewrite mxE.
Qed.

Lemma mul_traceE : forall n m a b, mul_trace S n m a b = \tr (mxr n m a *m mxr m n b).
Proof.
move=> n m a b; rewrite /mul_trace.
have -> : loop 0 n (fun i r => loop 0 m (fun j r => add S r (mul S (a i j) (b j i))) r) (zero S)
    = loop 0 n (fun i r => r + \sum_(0 <= j < m) a i j * b j i) (0 : F).
  by apply: loop_ext => i x; exact: (@loop_sum 0 m (fun j => a i j * b j i)).
rewrite (@loop_sum 0 n (fun i => \sum_(0 <= j < m) a i j * b j i)) // add0r big_mkord.
apply: eq_bigr => i _; rewrite mxE big_mkord.
by apply: eq_bigr => j _; rewrite !mxE.
Qed.

Lemma dotE : forall n (v w : nat -> F),
  (dot S cj n v w)%:M = adjoint cj (cv n v) *m cv n w :> 'M_1.
Proof.
move=> n v w; apply/matrixP=> i j; rewrite !ord1 !mxE eqxx mulr1n /dot.
rewrite (@loop_sum 0 n (fun i => cj (v i) * w i)) // add0r big_mkord.
by apply: eq_bigr => k _; rewrite !mxE.
Qed.

Lemma outerE : forall n p (v w : nat -> F),
  mxr n p (outer_product S cj n p v w) = cv n v *m adjoint cj (cv p w).
Proof.
move=> n p v w; apply/matrixP=> i j; rewrite !mxE big_ord1 !mxE /outer_product.
rewrite (@fill _ _ _ (fun i j _ => v i * cj (w j))); last by move=> *; rewrite setE.
by rewrite !ltn_ord.
Qed.

Lemma setv_sum : forall p i (g : nat -> F) (v : nat -> F), (0 < p)%N ->
  forall k, loop 1 p (fun k r => setv r i (r i + g k)) (setv v i (g 0%N)) k
    = if k == i then \sum_(0 <= k < p) g k else v k.
Proof.
move=> p i g v p0.
pose P m (w : nat -> F) := forall k, w k = if k == i then \sum_(0 <= k < m) g k else v k.
suff : P p (loop 1 p (fun k r => setv r i (r i + g k)) (setv v i (g 0%N))) by [].
apply: (loopP (P := P)) => //; first by move=> k; rewrite setvE big_nat1.
move=> k w _ H j; rewrite setvE !H eqxx.
by case: (j == i); rewrite // big_nat_recr.
Qed.

Lemma fill_vec : forall n (body : nat -> (nat -> F) -> nat -> F) (V : nat -> F) v,
  (forall i w k, (i < n)%N -> body i w k = if k == i then V i else w k) ->
  forall k, loop 0 n body v k = if (k < n)%N then V k else v k.
Proof.
move=> n body V v Hb.
pose P m (w : nat -> F) := forall k, w k = if (k < m)%N then V k else v k.
apply: (loopP (P := P)) => // m w /andP [_ mn] H k.
rewrite Hb // H ltnS [(k <= m)%N]leq_eqVlt.
by case: (k == m) / eqP => [->|].
Qed.

Lemma mat_vecK : forall n p a (v : nat -> F) i, (0 < p)%N -> (i < n)%N ->
  mat_vec S n p a v i = \sum_(0 <= k < p) a i k * v k.
Proof.
move=> n p a v i p0 ni; rewrite /mat_vec.
rewrite (@fill_vec n _ (fun i => \sum_(0 <= k < p) a i k * v k)) ?ni //.
by move=> j w k _; rewrite (@setv_sum p j (fun k => a j k * v k)).
Qed.

Lemma vec_matK : forall p m (v : nat -> F) a j, (0 < p)%N -> (j < m)%N ->
  vec_mat S p m v a j = \sum_(0 <= k < p) v k * a k j.
Proof.
move=> p m v a i p0 ni; rewrite /vec_mat.
rewrite (@fill_vec m _ (fun j => \sum_(0 <= k < p) v k * a k j)) ?ni //.
by move=> j w k _; rewrite (@setv_sum p j (fun k => v k * a k j)).
Qed.

Lemma mat_vecE : forall n p a (v : nat -> F), (0 < p)%N ->
  cv n (mat_vec S n p a v) = mxr n p a *m cv p v.
Proof.
move=> n p a v p0; apply/matrixP=> i j; rewrite !mxE mat_vecK // big_mkord.
by apply: eq_bigr => k _; rewrite !mxE.
Qed.

Lemma vec_matE : forall p m (v : nat -> F) a, (0 < p)%N ->
  rv m (vec_mat S p m v a) = rv p v *m mxr p m a.
Proof.
move=> p m v a p0; apply/matrixP=> i j; rewrite !mxE vec_matK // big_mkord.
by apply: eq_bigr => k _; rewrite !mxE.
Qed.

Lemma vec_vecE : forall m (v w : nat -> F), (0 < m)%N ->
  (vec_vec S m v w)%:M = rv m v *m cv m w :> 'M_1.
Proof.
move=> m v w m0; apply/matrixP=> i j; rewrite !ord1 !mxE eqxx mulr1n /vec_vec.
rewrite (@loop_sum 1 m (fun i => v i * w i)) //.
rewrite (@sum_first m (fun i => v i * w i)) // big_mkord.
by apply: eq_bigr => k _; rewrite !mxE.
Qed.

(** ** A 2 by 2 block, permutations *)

Lemma left_loop : forall m p q M B r c, p != q ->
  mult_by_2x2_left S m p q M B r c
  = if (c < m)%N then
      if r == p then M 0%N 0%N * B p c + M 0%N 1%N * B q c
      else if r == q then M 1%N 0%N * B p c + M 1%N 1%N * B q c else B r c
    else B r c.
Proof.
move=> m p q M B r c pq; rewrite /mult_by_2x2_left.
pose V r c := if r == p then M 0%N 0%N * B p c + M 0%N 1%N * B q c
      else if r == q then M 1%N 0%N * B p c + M 1%N 1%N * B q c else B r c.
pose P k (N : mat S) := forall r c, N r c = if (c < k)%N then V r c else B r c.
move: r c; apply: (loopP (P := P)) => // k N /andP [_ km] H r c.
rewrite !setE !mat_vecK // !big_nat_recr // !big_geq //= !add0r !setvE /= !H ltnn.
rewrite ltnS [(c <= k)%N]leq_eqVlt /V.
case: (c == k) / eqP => [->|_] /=; last by rewrite !andbF.
rewrite !andbT ltnn; case: (r == q) / eqP => [->|] //.
by rewrite eq_sym (negbTE pq).
Qed.

Lemma right_loop : forall n p q M B r c, p != q ->
  mult_by_2x2_right S n p q M B r c
  = if (r < n)%N then
      if c == p then B r p * M 0%N 0%N + B r q * M 1%N 0%N
      else if c == q then B r p * M 0%N 1%N + B r q * M 1%N 1%N else B r c
    else B r c.
Proof.
move=> n p q M B r c pq; rewrite /mult_by_2x2_right.
pose V r c := if c == p then B r p * M 0%N 0%N + B r q * M 1%N 0%N
      else if c == q then B r p * M 0%N 1%N + B r q * M 1%N 1%N else B r c.
pose P k (N : mat S) := forall r c, N r c = if (r < k)%N then V r c else B r c.
move: r c; apply: (loopP (P := P)) => // k N /andP [_ km] H r c.
rewrite !setE !vec_matK // !big_nat_recr // !big_geq //= !add0r !setvE /= !H ltnn.
rewrite ltnS [(r <= k)%N]leq_eqVlt /V.
case: (r == k) / eqP => [->|_] //=.
rewrite ltnn; case: (c == q) / eqP => [->|] //.
by rewrite eq_sym (negbTE pq).
Qed.

Lemma sum_two : forall n (p q : 'I_n) (g : 'I_n -> F), p != q ->
  (forall k, k != p -> k != q -> g k = 0) -> \sum_k g k = g p + g q.
Proof.
move=> n p q g pq z; rewrite (bigD1 p) //= (bigD1 q) 1?eq_sym //=.
rewrite big1 ?addr0 // => k /andP [kp kq]; exact: z.
Qed.

Lemma leftE : forall n m p q M B, (p < n)%N -> (q < n)%N -> p != q ->
  mxr n m (mult_by_2x2_left S m p q M B) = embed2 n p q M *m mxr n m B.
Proof.
move=> n m p q M B pn qn pq; apply/matrixP=> i j; rewrite !mxE left_loop // ltn_ord.
have PQ : Ordinal pn != Ordinal qn by [].
have QP : (q == p) = false by rewrite eq_sym (negbTE pq).
case: (i == p :> nat) / eqP => ip.
  rewrite (sum_two PQ) => [|k kp kq]; rewrite !mxE ip !eqxx //= ?QP ?eqxx //.
  by rewrite -[_ == p]/(k == Ordinal pn) -[_ == q]/(k == Ordinal qn) (negbTE kp) (negbTE kq) mul0r.
case: (i == q :> nat) / eqP => iq.
  rewrite (sum_two PQ) => [|k kp kq]; rewrite !mxE iq !eqxx //= ?QP ?eqxx //.
  by rewrite -[_ == p]/(k == Ordinal pn) -[(k : nat) == q]/(k == Ordinal qn) (negbTE kp) (negbTE kq) mul0r.
rewrite (bigD1 i) //= big1 => [|k ki]; rewrite !mxE.
  by move/eqP/negbTE: ip => ->; move/eqP/negbTE: iq => ->; rewrite eqxx mul1r addr0.
by move/eqP/negbTE: ip => ->; move/eqP/negbTE: iq => ->; rewrite eq_sym (negbTE ki) mul0r.
Qed.

Lemma rightE : forall n m p q M B, (p < m)%N -> (q < m)%N -> p != q ->
  mxr n m (mult_by_2x2_right S n p q M B) = mxr n m B *m embed2 m p q M.
Proof.
move=> n m p q M B pn qn pq; apply/matrixP=> i j; rewrite !mxE right_loop // ltn_ord.
have PQ : Ordinal pn != Ordinal qn by [].
have QP : (q == p) = false by rewrite eq_sym (negbTE pq).
have two : forall k : 'I_m, k != Ordinal pn -> k != Ordinal qn ->
    (j == p :> nat) || (j == q :> nat) -> mxr n m B i k * embed2 m p q M k j = 0.
  move=> k kp kq jj; rewrite !mxE.
  rewrite -[(k : nat) == p]/(k == Ordinal pn) -[(k : nat) == q]/(k == Ordinal qn).
  rewrite (negbTE kp) (negbTE kq); case: eqP => [kj|_]; last by rewrite mulr0.
  move: jj; rewrite -kj -[(k : nat) == p]/(k == Ordinal pn) -[(k : nat) == q]/(k == Ordinal qn).
  by rewrite (negbTE kp) (negbTE kq).
case: (j == p :> nat) / eqP => jp.
  rewrite (sum_two PQ) => [|k kp kq]; last by apply: two => //; rewrite jp eqxx.
  by rewrite !mxE jp !eqxx /= ?QP ?eqxx.
case: (j == q :> nat) / eqP => jq.
  rewrite (sum_two PQ) => [|k kp kq]; last by apply: two => //; rewrite jq eqxx orbT.
  by rewrite !mxE jq !eqxx /= ?QP ?eqxx.
rewrite (bigD1 j) //= big1 => [|k kj]; rewrite !mxE.
  by move/eqP/negbTE: jp => ->; move/eqP/negbTE: jq => ->; rewrite eqxx mulr1 addr0.
by move/eqP/negbTE: jp => ->; move/eqP/negbTE: jq => ->; rewrite (negbTE kj); do 2?case: ifP; rewrite ?mulr0.
Qed.

Lemma permute_rowsE : forall n m (s : 'S_n) (pm : nat -> nat) a, (forall i : 'I_n, pm i = s i) ->
  mxr n m (permute_rows S n m pm a) = row_perm s (mxr n m a).
Proof.
move=> n m s pm a E; apply/matrixP=> i j; rewrite !mxE /permute_rows.
rewrite (@fill _ _ _ (fun i j _ => a (pm i) j)); last by move=> *; rewrite setE.
by rewrite !ltn_ord /= E.
Qed.

Lemma permute_columnsE : forall n m (s : 'S_m) (pm : nat -> nat) a, (forall i : 'I_m, pm i = s i) ->
  mxr n m (permute_columns S n m pm a) = col_perm s (mxr n m a).
Proof.
move=> n m s pm a E; apply/matrixP=> i j; rewrite !mxE /permute_columns.
rewrite (@fillT _ _ _ (fun i k _ => a k (pm i))); last by move=> *; rewrite setE.
by rewrite !ltn_ord /= E.
Qed.

End Ops.
