(** Solving with the factors. *)
Set Warnings "-notation-overridden,-ambiguous-paths".
From mathcomp Require Import all_ssreflect all_algebra all_fingroup.
From Coq Require List.
From Verif Require Import LinalgModel LinalgSpec LinalgProofs1 LinalgProofs2 LinalgProofs3 LinalgProofs4 LinalgProofs5.
Set Implicit Arguments.
Unset Strict Implicit.
Unset Printing Implicit Defensive.
Import Order.TTheory GRing.Theory Num.Theory.
Local Open Scope ring_scope.

(** ** Two loops that do the same. *)
Section Simulation.
Variables (S1 S2 : Type) (R : S1 -> S2 -> Prop).

Lemma loop_sim : forall a b f1 f2 s1 s2, R s1 s2 ->
  (forall k t1 t2, R t1 t2 -> R (f1 k t1) (f2 k t2)) ->
  R (loop a b f1 s1) (loop a b f2 s2).
Proof.
move=> a b f1 f2 s1 s2 Rs step; rewrite /loop.
by elim: (List.seq _ _) s1 s2 Rs => //= k l IH s1 s2 Rs; apply: IH; apply: step.
Qed.

Definition Ro (o1 : option S1) (o2 : option S2) : Prop :=
  match o1, o2 with Some t1, Some t2 => R t1 t2 | None, None => True | _, _ => False end.

Lemma loop_down_sim : forall b f1 f2 s1 s2, R s1 s2 ->
  (forall k t1 t2, R t1 t2 -> Ro (f1 k t1) (f2 k t2)) ->
  Ro (loop_down b f1 s1) (loop_down b f2 s2).
Proof.
move=> b f1 f2; elim: b => [|b IH] s1 s2 Rs step //.
rewrite !loop_downS; have := step b _ _ Rs.
by case: (f1 b s1) => [t1|]; case: (f2 b s2) => [t2|] //= Rt; apply: IH.
Qed.
End Simulation.

Section Solve.
Variables (F : numFieldType) (f : F -> F) (u : F).
Notation S := (field_scalars f u).
Implicit Types (a b A : nat -> nat -> F) (v x y : nat -> F).

Lemma vec_sum : forall (LU : mat S) i m n (v : vec S), (m <= n)%N -> ~~ (m <= i < n)%N ->
  forall r, loop m n (fun k res => setv res i (res i - LU i k * res k)) v r
  = if r == i then v i - \sum_(m <= k < n) LU i k * v k else v r :> F.
Proof.
move=> LU i m n v mn out.
pose P l (w : vec S) := forall r,
  w r = if r == i then v i - \sum_(m <= k < l) LU i k * v k else v r :> F.
suff : P n (loop m n (fun k res => setv res i (res i - LU i k * res k)) v) by [].
apply: (loopP (P := P)) => //.
  by move=> r; rewrite big_geq // subr0; case: (r == i) / eqP => [->|].
move=> l w /andP [ml ln] H r; rewrite setvE !H eqxx.
case: (r == i) => //; rewrite big_nat_recr //= opprD addrA; congr (_ - _ * _).
by case: (l == i) / eqP => [e|//]; rewrite -e ml ln in out.
Qed.

Lemma forward : forall n (LU : mat S) (P : nat -> nat) (rhs junk : vec S),
  let y := loop 0 n (fun i res =>
      loop 0 i (fun k res => setv res i (res i - LU i k * res k)) (setv res i (rhs (P i)))) junk in
  forall i, (i < n)%N -> \sum_(0 <= k < i) LU i k * y k + y i = rhs (P i) :> F.
Proof.
move=> n LU P rhs junk /=; set body := (fun i res => _).
pose I m (y : vec S) := forall i, (i < m)%N -> \sum_(0 <= k < i) LU i k * y k + y i = rhs (P i) :> F.
suff : I n (loop 0 n body junk) by [].
apply: (loopP (P := I)) => // m y _ H i.
have E : forall r, body m y r = if r == m then rhs (P m) - \sum_(0 <= k < m) LU m k * y k else y r :> F.
  move=> r; rewrite /body vec_sum ?ltnn ?andbF // !setvE eqxx.
  case: (r == m) => //; congr (_ - _); apply: eq_big_nat => k /andP [_ km].
  by rewrite setvE (ltn_eqF km).
rewrite ltnS leq_eqVlt => im.
have -> : \sum_(0 <= k < i) LU i k * body m y k = \sum_(0 <= k < i) LU i k * y k :> F.
  apply: eq_big_nat => k /andP [_ ki]; rewrite E ltn_eqF //.
  by case/orP: im => [/eqP <-|im] //; exact: ltn_trans ki im.
rewrite E; case: (i == m) / eqP im => [->|_] /= im; first by rewrite addrC subrK.
exact: H.
Qed.

Lemma backward : forall n (LU : mat S) (y : vec S), (forall k, (k < n)%N -> LU k k != 0 :> F) ->
  exists x, loop_down n (fun i res =>
    let res := loop i.+1 n (fun k res => setv res i (res i - LU i k * res k)) res in
    if is_zero S (LU i i) then None else Some (setv res i (res i / LU i i))) y = Some x /\
  forall i, (i < n)%N -> \sum_(i <= k < n) LU i k * x k = y i :> F.
Proof.
move=> n LU y nz.
pose body := fun (i : nat) (res : vec S) =>
    let res := loop i.+1 n (fun k res => setv res i (res i - LU i k * res k)) res in
    if is_zero S (LU i i) then None else Some (setv res i (res i / LU i i) : vec S).
pose I m (x : vec S) := (forall i, (i < m)%N -> x i = y i :> F) /\
  forall i, (m <= i < n)%N -> \sum_(i <= k < n) LU i k * x k = y i :> F.
have I0 : I n y by split=> // j; rewrite ltnNge; case: (n <= j)%N.
have step : forall k t, (k < n)%N -> I k.+1 t -> match body k t with Some x => I k x | None => False end.
  move=> k t kn [H1 H2]; rewrite /body /= (negbTE (nz k kn)).
  set t' := setv _ _ _.
  have E : forall r, t' r = if r == k then (t k - \sum_(k.+1 <= l < n) LU k l * t l) / LU k k else t r :> F.
    move=> r; rewrite /t' setvE !vec_sum ?ltnn //.
    by rewrite eqxx; case: (r == k).
  split=> [i ik|i /andP [ki im]].
    by rewrite E (ltn_eqF ik) H1 // ltnW.
  have tail : forall j, (k < j)%N -> \sum_(j <= l < n) LU i l * t' l = \sum_(j <= l < n) LU i l * t l :> F.
    move=> j kj; apply: eq_big_nat => l /andP [jl _].
    by rewrite E gtn_eqF // (leq_trans kj jl).
  move: ki; rewrite leq_eqVlt => /orP [/eqP ki|ki]; last by rewrite tail // H2 // ki.
  rewrite -ki in tail *; rewrite big_ltn // tail // E eqxx mulrC divfK ?nz // subrK H1 //.
have := @loop_downP _ I False n body y I0 step.
rewrite -/body; case: (loop_down _ _ _) => // x [_ H].
by exists x; split=> // i im; apply: H.
Qed.

Lemma lo_sum : forall n a i y, (i < n)%N ->
  \sum_(0 <= k < n) lo a i k * y k = \sum_(0 <= k < i) a i k * y k + y i.
Proof.
move=> n a i y im; rewrite (@big_cat_nat _ _ _ i) ?(ltnW im) //= [X in _ + X]big_ltn //.
rewrite [X in _ + (_ + X)]big1_seq ?addr0.
  congr (_ + _); last by rewrite /lo ltnn eqxx mul1r.
  by apply: eq_big_nat => k /andP [_ ki]; rewrite /lo ki.
move=> k /andP [_]; rewrite mem_index_iota => /andP [ik _].
by rewrite /lo ltnNge (ltnW ik) /= (ltn_eqF ik) mul0r.
Qed.

Lemma up_sum : forall n a i x, (i < n)%N ->
  \sum_(0 <= k < n) up a i k * x k = \sum_(i <= k < n) a i k * x k.
Proof.
move=> n a i x im; rewrite (@big_cat_nat _ _ _ i) ?(ltnW im) //=.
rewrite [X in X + _]big1_seq ?add0r.
  by apply: eq_big_nat => k /andP [ik _]; rewrite /up ik.
move=> k /andP [_]; rewrite mem_index_iota => /andP [_ ki].
by rewrite /up leqNgt ki mul0r.
Qed.

(** [solve] gives the solution. *)
Lemma solve_factors : forall n A (s : 'S_n) (LU : mat S) (P : nat -> nat) (rhs : vec S),
  (forall r : 'I_n, P r = s r) ->
  (forall r c : 'I_n, A (s r) c = prod LU r c) ->
  (forall k, (k < n)%N -> LU k k != 0 :> F) ->
  exists x, solve S n LU P rhs = Some x /\ mx n A *m cv n x = cv n rhs.
Proof.
move=> n A s LU P rhs HP HA nz; rewrite /solve.
have := @forward n LU P rhs (fun _ => u); set y := loop 0 n _ _ => Hy.
have [x [Ex Hx]] := backward y nz.
exists x; split; first exact: Ex.
have low : lower n LU *m cv n y = \col_i rhs (s i).
  apply/matrixP => i j; rewrite !mxE -HP -Hy // -(@lo_sum n) // big_mkord.
  by apply: eq_bigr => k _; rewrite !mxE /lo.
have upp : upper n LU *m cv n x = cv n y.
  apply/matrixP => i j; rewrite !mxE -Hx // -up_sum // big_mkord.
  by apply: eq_bigr => k _; rewrite !mxE /up.
have : row_perm s (mx n A *m cv n x) = row_perm s (cv n rhs).
  rewrite row_permE mulmxA -row_permE (permuted HA) -product -mulmxA upp low.
  by apply/matrixP => i j; rewrite !mxE.
by rewrite !row_permE => /(can_inj (mulKmx (unitmx_perm _ s))).
Qed.

(** [invert] solves for the columns of the unit matrix. *)
Lemma invert_factors : forall n A (s : 'S_n) (LU : mat S) (P : nat -> nat),
  (forall r : 'I_n, P r = s r) ->
  (forall r c : 'I_n, A (s r) c = prod LU r c) ->
  (forall k, (k < n)%N -> LU k k != 0 :> F) ->
  exists X, invert S n LU P = Some X /\ mx n A *m mx n X = 1%:M.
Proof.
move=> n A s LU P HP HA nz; rewrite /invert.
pose body := fun (j : nat) (r : mat S) =>
    let r := loop 0 n (fun i r =>
        loop 0 i (fun k r => set S r i j (r i j - LU i k * r k j))
          (set S r i j (if Nat.eqb (P i) j then 1 else 0))) r in
    loop_down n (fun i r =>
      let r := loop i.+1 n (fun k r => set S r i j (r i j - LU i k * r k j)) r in
      if is_zero S (LU i i) then None else Some (set S r i j (r i j / LU i i))) r.
pose I m (r : mat S) := (forall i c, (m <= c)%N -> r i c = u :> F) /\
  forall c, (c < m)%N -> mx n A *m cv n (r ^~ c) = cv n (fun i => (i == c)%:R).
have step : forall k t, (0 <= k < n)%N -> I k t ->
    match body k t with Some x => I k.+1 x | None => False end.
  move=> j t /andP [_ jn] [H1 H2].
  pose rhs : vec S := fun p => if Nat.eqb p j then 1 else 0.
  have [x [Ex Hx]] := solve_factors rhs HP HA nz.
  pose R (r : mat S) (v : vec S) := (forall i, r i j = v i :> F) /\
    forall i c, c != j -> r i c = t i c :> F.
  have set_sim : forall r v i (p q : F), R r v -> p = q -> R (set S r i j p) (setv v i q).
    move=> r v i p q [r1 r2] ->; split=> [k|k c cj]; rewrite setE ?setvE ?eqxx ?andbT ?r1 //.
    by rewrite (negbTE cj) andbF r2.
  have sim : Ro R (body j t) (solve S n LU P rhs).
    rewrite /body /solve; apply: loop_down_sim.
      apply: loop_sim; first by split=> // i; rewrite H1.
      move=> i r v Rv; apply: loop_sim; first by apply: set_sim.
      by move=> k r' v' Rv'; apply: set_sim => //; case: Rv' => r1 _; rewrite !r1.
    move=> i r v Rv.
    have RR : R (loop i.+1 n (fun k r => set S r i j (r i j - LU i k * r k j)) r)
        (loop i.+1 n (fun k res => setv res i (res i - LU i k * res k)) v).
      by apply: loop_sim => // k r' v' Rv'; apply: set_sim => //; case: Rv' => r1 _; rewrite !r1.
    rewrite /=; case: (LU i i == 0) => //=.
    by apply: set_sim => //; case: RR => r1 _; rewrite r1.
  rewrite Ex in sim; case: (body j t) sim => // r [r1 r2]; split=> [i c jc|c].
    by rewrite r2 ?H1 ?(ltnW jc) // gtn_eqF.
  rewrite ltnS leq_eqVlt => /orP [/eqP ->|cj].
    have -> : cv n (r ^~ j) = cv n x by apply/matrixP => i k; rewrite !mxE r1.
    rewrite Hx; apply/matrixP => i k; rewrite !mxE /rhs eqbE; by case: (_ == _).
  rewrite -H2 //; congr (_ *m _); apply/matrixP => i k; rewrite !mxE r2 // ltn_eqF //.
have I0 : I 0%N (fun _ _ => u) by [].
have := @loopoP _ I False 0%N n body _ (leq0n n) I0 step.
rewrite -/body; case: (loopo _ _ _ _) => // X [_ H]; exists X; split=> //.
apply/matrixP => i j; have /matrixP /(_ i 0) := H j (ltn_ord j).
by rewrite !mxE -val_eqE /= => <-; apply: eq_bigr => k _; rewrite !mxE.
Qed.
End Solve.
