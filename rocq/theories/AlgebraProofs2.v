(** The elements of expanded and projected matrices. *)
Set Warnings "-notation-overridden,-ambiguous-paths".
From mathcomp Require Import all_ssreflect all_algebra.
From Verif Require Import LinalgModel LinalgSpec LinalgProofs1 LinalgProofs3 LinalgProofs4
  MatrixModel MatrixSpec MatrixProofs1 EigenSpec EigenProofs1 SuModel SuSpec
  AlgebraModel AlgebraSpec AlgebraProofs1.
Set Implicit Arguments.
Unset Strict Implicit.
Unset Printing Implicit Defensive.
Import Order.TTheory GRing.Theory Num.Theory.
Local Open Scope ring_scope.

Local Arguments MatrixModel.of_nat : simpl never.

Section Elements.
Variables (F : numFieldType) (f : F -> F) (u : F) (cj : {rmorphism F -> F}) (re im root : F -> F) (I : F).
Hypothesis P : complex_parts cj re im root I.
Let C : complex_numbers cj re root. Proof. by case: P. Qed.
Notation S := (field_scalars f u).

Lemma intE : forall k, int S k = k%:R.
Proof.
rewrite /int; elim=> [|k IH] //.
by rewrite /MatrixModel.of_nat -/(MatrixModel.of_nat S k) IH /= -addn1 natrD.
Qed.

Lemma halfE : half S = 2%:R^-1.
Proof. by rewrite /half -/(int S 2) intE /= div1r. Qed.

(** The square roots of the code; 1 / root (2 i (i + 1)) is all that is needed. *)
Definition nrm (i : nat) : F := root (2%:R * (i%:R * i.+1%:R)).

Lemma nrm_gt0 : forall i, (0 < i)%N -> 0 < nrm i.
Proof. by move=> i i0; apply: (root_gt0 C); rewrite !mulr_gt0 ?ltr0n. Qed.

Lemma nrm2 : forall i, nrm i * nrm i = 2%:R * (i%:R * i.+1%:R).
Proof. by move=> i; rewrite -expr2 (rootK C) // !mulr_ge0 ?ler0n. Qed.

Lemma root_quarter : forall i, (0 < i)%N -> root (half S * int S i * int S (i + 1)) = nrm i / 2%:R.
Proof.
move=> i i0; rewrite halfE !intE addn1 -[RHS](root_sqr C); last by rewrite divr_ge0 ?ler0n // ltW ?nrm_gt0.
have n2 : (2%:R : F) != 0 by rewrite pnatr_eq0.
by congr root; rewrite /= expr2 mulf_div nrm2 -mulf_div divff // mul1r [in RHS]mulrC mulrA.
Qed.

Lemma root_inverse : forall i, (0 < i)%N -> root (half S / (int S i * int S (i + 1))) = (nrm i)^-1.
Proof.
move=> i i0; rewrite halfE !intE addn1 -[RHS](root_sqr C); last by rewrite invr_ge0 ltW ?nrm_gt0.
by congr root; rewrite exprVn expr2 nrm2 [RHS]invfM.
Qed.

Lemma quotientE : forall x y, y != 0 -> quotient S x y = x / y.
Proof. by move=> x y y0; rewrite /quotient /= (negbTE y0). Qed.

(** *** The diagonal *)

Definition ysum (A : nat -> nat -> F) (i : nat) : F := \sum_(0 <= j < i) im (A j j).

Lemma project_diagE : forall n A a x,
  (project_diag S im root n A a).1 x = if (x < n - 1)%N
    then (ysum A x.+1 - x.+1%:R * im (A x.+1 x.+1)) * 2%:R / nrm x.+1 else a x.
Proof.
move=> n A a x; rewrite /project_diag.
set body := (fun i st => _).
case: (posnP n) => [->|n0]; first by rewrite loop_nil.
pose Q i (st : (nat -> F) * F) := st.2 = ysum A i /\
  forall x, st.1 x = if (x < i - 1)%N
    then (ysum A x.+1 - x.+1%:R * im (A x.+1 x.+1)) * 2%:R / nrm x.+1 else a x.
suff [] : Q n (loop 1 n body (a, im (A 0%N 0%N))) by [].
apply: (loopP (P := Q)) => //; first by split; rewrite /= ?/ysum ?big_nat1.
move=> i [b sum] /andP [i0 _] [/= -> H]; split=> /= [|y]; first by rewrite /ysum [RHS]big_nat_recr.
rewrite setvE H root_quarter // quotientE; last first.
  by rewrite mulf_neq0 ?invr_eq0 ?pnatr_eq0 // lt0r_neq0 ?nrm_gt0.
rewrite subSS subn0 intE; case: i i0 {H} => [|i] // _.
rewrite ?minusE !subSS !subn0 ltnS [(y <= i)%N]leq_eqVlt; case: eqP => [-> /=|//].
by rewrite [(_ / 2%:R)^-1]invfM invrK [_^-1 * _]mulrC mulrA.
Qed.

Definition rsum (n : nat) (r : nat -> F) (j : nat) : F := \sum_(j.+1 <= i < n) r i - j%:R * r j.

Lemma expand_diagE : forall n c j, (j < n)%N ->
  expand_diag S root n c j = rsum n (fun i => c (i - 1)%N / nrm i) j.
Proof.
move=> n c j jn; rewrite /expand_diag.
set body := (fun i d => _).
pose Q i (d : nat -> F) := forall j, (j < i)%N -> d j = rsum i (fun i => c (i - 1)%N / nrm i) j.
suff : Q n (loop 1 n body (setv (fun _ => u) 0%N 0)) by apply.
apply: (loopP (P := Q)) => //; first by apply: leq_ltn_trans jn.
  by case=> // _; rewrite setvE /rsum big_geq // mul0r subr0.
move=> i d /andP [i0 _] H k; rewrite ltnS /body setvE leq_eqVlt.
rewrite root_inverse // intE /=.
case: eqP => [-> _|/eqP ki /= ki2]; first by rewrite /rsum big_geq // sub0r mulNr.
rewrite /rsum big_nat_recr //= addrAC.
move: (c (i - 1)%N / nrm i) => r; rewrite -/(rsum i _ k) -H //.
pose R m (e : nat -> F) := forall k, e k = if (k < m)%N then d k + r else d k.
suff /(_ k) : R i (loop 0 i (fun j d => setv d j (d j + r)) d) by rewrite ki2.
apply: (loopP (P := R)) => // m e _ He k'; rewrite setvE !He ltnn ltnS [(k' <= m)%N]leq_eqVlt.
by case: eqP => [->|].
Qed.

(** *** The other elements *)

(** The position of the pair i < j. *)
Definition pos (n i j : nat) : nat := (n - 1 + 2 * index (i, j) (pairs n))%N.
(** The pair that belongs to a position. *)
Definition pair_at (n x : nat) : nat * nat := nth (0, 0)%N (pairs n) (x - (n - 1))./2.

Lemma foldl_pair : forall X Y Z (g : X * Y -> Z -> X * Y) (h : X -> Y -> Z -> X * Y) l s,
  (forall x y z, g (x, y) z = h x y z) -> foldl g s l = foldl (fun s z => h s.1 s.2 z) s l.
Proof. by move=> X Y Z g h l s E; apply: eq_foldl => [[x y]] z. Qed.

Definition off (A : nat -> nat -> F) (p : nat * nat) : F := A p.1 p.2 - cj (A p.2 p.1).

Lemma projectE : forall n A x, (0 < n)%N -> (x < n * n - 1)%N ->
  project_to_algebra S cj re im root n A x =
    if (x < n - 1)%N then (ysum A x.+1 - x.+1%:R * im (A x.+1 x.+1)) * 2%:R / nrm x.+1
    else (if odd (x - (n - 1)) then im else re) (off A (pair_at n x)).
Proof.
move=> n A x n0 xn; rewrite /project_to_algebra /project_offdiag.
move: (project_diagE n A (fun _ => u)).
move: (project_diag S im root n A (fun _ => u)).1 => a H.
rewrite (@loop_pairs _ n (fun i j st => let '(a, k) := st in
   (setv (setv a k (re (A i j - cj (A j i)))) (Nat.succ k) (im (A i j - cj (A j i))), Nat.add k 2))).
rewrite (@foldl_pair _ _ _ _ (fun a k p => (setv (setv a k (re (off A p))) (Nat.succ k) (im (off A p)), Nat.add k 2))) //.
have [_ ->] := vec_fold (pairs n) (fun p => re (off A p)) (fun p => im (off A p)) a (n - 1)%N.
rewrite size_pairs_all // xn andbT H [(n - 1 <= x)%N]leqNgt.
by case: (x < n - 1)%N => //=; rewrite /pair_at; case: (odd _).
Qed.

Lemma project_scaledE : forall s n A x, (0 < n)%N -> (x < n * n - 1)%N ->
  project_to_algebra_scaled S cj re im root s n A x = s * project_to_algebra S cj re im root n A x.
Proof.
move=> s n A x n0 xn; rewrite projectE // /project_to_algebra_scaled.
set body := (fun i st => _ : (nat -> F) * F).
pose Q i (st : (nat -> F) * F) := st.2 = ysum A i /\
  forall x, (x < i - 1)%N -> st.1 x =
    s * ((ysum A x.+1 - x.+1%:R * im (A x.+1 x.+1)) * 2%:R / nrm x.+1).
have : Q n (loop 1 n body (fun _ => u, im (A 0%N 0%N))).
  apply: (loopP (P := Q)) => //; first by split; rewrite /= ?/ysum ?big_nat1.
  move=> i [b sum] /andP [i0 _] [/= -> H]; split=> /= [|y]; first by rewrite /ysum [RHS]big_nat_recr.
  rewrite subSS subn0 setvE root_quarter // quotientE; last first.
    by rewrite mulf_neq0 ?invr_eq0 ?pnatr_eq0 // lt0r_neq0 ?nrm_gt0.
  rewrite intE; case: i i0 H => [|i] // _ H.
  move: H; rewrite ?minusE !subSS !subn0 ltnS => H; rewrite [(y <= i)%N]leq_eqVlt.
  case: eqP => [-> /= _|_ /= yi]; last by rewrite H.
  by rewrite [(_ / 2%:R)^-1]invfM invrK [_^-1 * _]mulrC !mulrA.
case: (loop 1 n body _) => a t [_ /= H].
rewrite (@loop_pairs _ n (fun i j st => let '(a, k) := st in
   (setv (setv a k (s * re (A i j - cj (A j i)))) (Nat.succ k) (s * im (A i j - cj (A j i))), Nat.add k 2))).
rewrite (@foldl_pair _ _ _ _ (fun a k p => (setv (setv a k (s * re (off A p))) (Nat.succ k) (s * im (off A p)), Nat.add k 2))) //.
have [_ ->] := vec_fold (pairs n) (fun p => s * re (off A p)) (fun p => s * im (off A p)) a (n - 1)%N.
rewrite size_pairs_all // xn andbT [(n - 1 <= x)%N]leqNgt.
case: ltnP => [xn1|_] /=; first by rewrite H.
by rewrite /pair_at; case: (odd _).
Qed.


(** The sum over positions is one over pairs. *)
Lemma sum_positions : forall n (g h : nat * nat -> F), (0 < n)%N ->
  \sum_(n - 1 <= x < n * n - 1) (if odd (x - (n - 1)) then h else g) (pair_at n x)
  = \sum_(p <- pairs n) (g p + h p).
Proof.
move=> n g h n0; rewrite -size_pairs_all // /pair_at.
move: (n - 1)%N (pairs n) => k l; elim/last_ind: l => [|l p IH].
  by rewrite muln0 addn0 big_geq // big_nil.
rewrite size_rcons mulnS addnCA !addSn add0n big_nat_recr /=; last by rewrite -addnS leq_addr.
rewrite big_nat_recr ?leq_addr //= -cats1 big_cat /= big_seq1 -IH addrA.
have E : forall b : bool, (k + 2 * size l + b - k)./2 = size l.
  by move=> b; rewrite -addnA addKn addnC mul2n half_bit_double.
have O : forall b : bool, odd (k + 2 * size l + b - k) = b.
  by move=> b; rewrite -addnA addKn mul2n oddD odd_double; case: b.
have := E true; have := O true; have := E false; have := O false; rewrite !addn0 !addn1 => -> -> -> ->.
rewrite -!addrA; congr (_ + _); last by rewrite !nth_cat !ltnn !subnn.
apply: eq_big_nat => x /andP [kx xl]; rewrite !nth_cat.
suff -> : ((x - k)./2 < size l)%N by [].
by rewrite ltnNge geq_half_double -ltnNge -mul2n ltn_subLR.
Qed.

Lemma project_normE : forall n A, (0 < n)%N ->
  let a := project_to_algebra S cj re im root n A in
  project_to_algebra_norm S cj re im root n A = (a, \sum_(x < n * n - 1) `|a x|).
Proof.
move=> n A n0 a.
have D : forall i, (1 <= i)%N ->
  loop 1 i (fun i st => let '(a, sum, onenorm) := st in
      let a := setv a (i - 1)%coq_nat (quotient S (sum - int S i * im (A i i)) (root (half S * int S i * int S (i + 1)))) in
      (a, sum + im (A i i), onenorm + `|a (Nat.sub i 1)|))
    (fun _ => u, im (A 0%N 0%N), 0)
  = let st := project_diag S im root i A (fun _ => u) in (st.1, st.2, \sum_(0 <= x < i - 1) `|st.1 x|).
  elim=> [|[|i] IH] // _; first by rewrite /project_diag !loop_nil //= big_geq.
  rewrite loopSr // IH //= /project_diag [loop 1 i.+2 _ _]loopSr //= -/(project_diag S im root i.+1 A (fun _ => u)).
  case E : (project_diag S im root i.+1 A (fun _ => u)) => [b sum] /=; congr (_, _, _).
  rewrite ?minusE !subSS subn0 big_nat_recr //= ?minusE ?subSS ?subn0; congr (_ + _).
  by apply: eq_big_nat => x /andP [_ xi]; rewrite setvE ltn_eqF.
rewrite /project_to_algebra_norm [X in (let '(a, _, onenorm) := X in _)](D n n0) /=.
have aE : a = (project_offdiag S cj re im n A (project_diag S im root n A (fun _ => u)).1).1 by [].
have aP : forall x, (x < n * n - 1)%N -> a x = _ := fun x xn => projectE A n0 xn.
have dE := project_diagE n A (fun _ => u).
move: aE aP dE; rewrite /project_offdiag.
move: (project_diag S im root n A (fun _ => u)).1 => d.
rewrite (@loop_pairs _ n (fun i j st => let '(a, k) := st in
   (setv (setv a k (re (A i j - cj (A j i)))) (Nat.succ k) (im (A i j - cj (A j i))), Nat.add k 2))).
rewrite (@foldl_pair _ _ _ _ (fun a k p => (setv (setv a k (re (off A p))) (Nat.succ k) (im (off A p)), Nat.add k 2))) //.
move=> aE aP dE.
pose body i j (st : (nat -> F) * nat * F) := let '(a, k, onenorm) := st in
  let od := A i j - cj (A j i) in
  let a := setv a k (re od) in
  let a := setv a (Nat.succ k) (im od) in
  (a, Nat.add k 2, onenorm + (`|a k| + `|a (Nat.succ k)|)).
rewrite -[loop _ _ _ _]/(loop 0 (n - 1) (fun i st => loop (Nat.succ i) n (fun j st => body i j st) st)
  (d, Nat.sub n 1, \sum_(0 <= x < n - 1) `|d x|)).
rewrite (@loop_pairs _ n body).
have sim : forall l st o, foldl (fun st p => body p.1 p.2 st) (st, o) l =
   (foldl (fun st p => (setv (setv st.1 st.2 (re (off A p))) (Nat.succ st.2) (im (off A p)), Nat.add st.2 2)) st l,
    o + \sum_(p <- l) (`|re (off A p)| + `|im (off A p)|)).
  elim=> [|p l IH] [b k] o /=; first by rewrite big_nil addr0.
  rewrite IH big_cons /= !setvE eqxx; congr (_, _).
  by rewrite (ltn_eqF (ltnSn k)) eqxx -[LHS]addrA.
rewrite (sim _ (d, (n - 1)%N)) -(big_mkord xpredT (fun x => `|a x|)).
move: aE; set fo := foldl _ _ _ => aE.
clearbody a; move: aP; rewrite aE {a aE}; case: fo => [b k] /= aP; congr (_, _).
have nn : (n - 1 <= n * n - 1)%N by rewrite leq_sub2r // leq_pmulr.
rewrite (big_cat_nat _ _ _ _ nn) //=; congr (_ + _).
  apply: eq_big_nat => x /andP [_ xn]; rewrite aP; last by apply: leq_trans xn nn.
  by rewrite dE xn.
rewrite -(sum_positions (fun p => `|re (off A p)|) (fun p => `|im (off A p)|) n0).
apply: eq_big_nat => x /andP [nx xn]; rewrite aP // ltnNge nx /=.
by case: (odd _).
Qed.

Lemma mem_all : forall n, all (fun p => p.1 < p.2)%N (pairs n).
Proof. by move=> n; apply/allP => [[i j]]; rewrite mem_pairs => /andP []. Qed.

(** Expanded matrices; s = 1 without a factor. *)
Definition velem (n : nat) (c : nat -> F) (s : F) (i j : nat) : F :=
  (c (pos n i j) * s + I * (c (pos n i j).+1 * s)).

Lemma expand_loops : forall n c s d r q, (r < n)%N -> (q < n)%N ->
  (loop 0 (n - 1) (fun i st => loop (Nat.succ i) n (fun j st =>
    let '(m, k) := st in
    let v := SuModel.complex S I (c k * s) (c (Nat.succ k) * s) in
    let m := set S m i j v in
    let m := set S m j i (opp S (cj v)) in
    (m, Nat.add k 2)) st)
   (loop 0 n (fun i m => set S m i i (SuModel.complex S I 0 (d i))) (fun _ _ => u), Nat.sub n 1)).1 r q
  = if r == q then I * d r else if (r < q)%N then velem n c s r q else - cj (velem n c s q r).
Proof.
move=> n c s d r q rn qn.
have : loop 0 n (fun i m => set S m i i (SuModel.complex S I 0 (d i))) (fun _ _ => u) r q
   = if r == q then I * d r else u.
  pose Q k (m : mat S) := forall r q, m r q = if (r < k)%N && (r == q) then I * d r else u.
  have : Q n (loop 0 n (fun i m => set S m i i (SuModel.complex S I 0 (d i))) (fun _ _ => u)).
    apply: (loopP (P := Q)) => // k m _ H i j; rewrite setE H /SuModel.complex /= add0r.
    rewrite ltnS [(i <= k)%N]leq_eqVlt; case: (i == k) / eqP => [->|] //=.
    by rewrite ltnn /= [j == k]eq_sym.
  by move=> H; rewrite H rn.
move: (loop 0 n _ _) => m H.
rewrite (@loop_pairs _ n (fun i j st => let '(m, k) := st in
   (set S (set S m i j (SuModel.complex S I (c k * s) (c (Nat.succ k) * s))) j i
     (opp S (cj (SuModel.complex S I (c k * s) (c (Nat.succ k) * s)))), Nat.add k 2))).
pose v k := c k * s + I * (c k.+1 * s).
rewrite (@foldl_pair _ _ _ _ (fun m k p => (set S (set S m p.1 p.2 (v k)) p.2 p.1 (- cj (v k)), Nat.add k 2))) //.
have [_ ->] := @mat_fold _ (pairs n) v (fun k => - cj (v k)) m (n - 1)%N (fun i j x m => set S m i j x)
  (fun i j x m => setE m i j x) (pairs_uniq n) (mem_all n).
rewrite !mem_pairs H rn qn !andbT /velem /v /pos.
by case: ltngtP => [//|//|->].
Qed.

Lemma expandE : forall n c r q, (r < n)%N -> (q < n)%N ->
  expand S cj root I n c r q =
    if r == q then I * rsum n (fun i => c (i - 1)%N / nrm i) r
    else if (r < q)%N then velem n c 2%:R^-1 r q else - cj (velem n c 2%:R^-1 q r).
Proof.
move=> n c r q rn qn; by rewrite /expand halfE expand_loops // expand_diagE.
Qed.

Lemma expand_scaledE : forall s n c r q, (r < n)%N -> (q < n)%N ->
  expand_scaled S cj root I s n c r q =
    if r == q then I * (s * rsum n (fun i => c (i - 1)%N / nrm i) r)
    else if (r < q)%N then velem n c (2%:R^-1 * s) r q else - cj (velem n c (2%:R^-1 * s) q r).
Proof. by move=> s n c r q rn qn; rewrite /expand_scaled halfE expand_loops // expand_diagE. Qed.

(** *** Positions *)

Lemma pos_ge : forall n i j, (n - 1 <= pos n i j)%N.
Proof. by move=> n i j; rewrite leq_addr. Qed.

Lemma pos_lt : forall n i j, (i < j)%N -> (j < n)%N -> ((pos n i j).+1 < n * n - 1)%N.
Proof.
move=> n i j ij jn; have n0 : (0 < n)%N by case: n jn.
by rewrite -size_pairs_all // /pos -addnS ltn_add2l !mul2n ltn_Sdouble index_mem mem_pairs ij.
Qed.

Lemma pos_half : forall n i j (b : bool), (pos n i j + b - (n - 1))./2 = index (i, j) (pairs n).
Proof. by move=> n i j b; rewrite /pos -addnA addKn addnC mul2n half_bit_double. Qed.

Lemma pos_odd : forall n i j (b : bool), odd (pos n i j + b - (n - 1)) = b.
Proof. by move=> n i j b; rewrite /pos -addnA addKn mul2n oddD odd_double; case: b. Qed.

Lemma pair_pos : forall n i j (b : bool), (i < j)%N -> (j < n)%N -> pair_at n (pos n i j + b) = (i, j).
Proof. by move=> n i j b ij jn; rewrite /pair_at pos_half nth_index // mem_pairs ij. Qed.

Lemma pair_mem : forall n x, (0 < n)%N -> (n - 1 <= x)%N -> (x < n * n - 1)%N -> pair_at n x \in pairs n.
Proof.
move=> n x n0 nx xn; apply: mem_nth.
by rewrite ltnNge geq_half_double -ltnNge -mul2n ltn_subLR // size_pairs_all.
Qed.

Lemma pos_pair : forall n x, (0 < n)%N -> (n - 1 <= x)%N -> (x < n * n - 1)%N ->
  x = (pos n (pair_at n x).1 (pair_at n x).2 + odd (x - (n - 1)))%N.
Proof.
move=> n x n0 nx xn; rewrite /pos -surjective_pairing /pair_at index_uniq ?pairs_uniq //.
  by rewrite -addnA [(2 * _ + _)%N]addnC mul2n odd_double_half subnKC.
by rewrite ltnNge geq_half_double -ltnNge -mul2n ltn_subLR // size_pairs_all.
Qed.

End Elements.
