(** The iteration of chexp, the squaring and the result. *)
Set Warnings "-notation-overridden,-ambiguous-paths".
From mathcomp Require Import all_ssreflect all_algebra all_fingroup.
From Coq Require List.
From Coq Require Import Lia.
From Verif Require Import LinalgModel LinalgSpec LinalgProofs1 LinalgProofs2 LinalgProofs3
  LinalgProofs4 MatrixModel MatrixSpec MatrixProofs1 MatrixProofs2 ChexpModel ChexpProofs1
  ChexpProofs2.
Set Implicit Arguments.
Unset Strict Implicit.
Unset Printing Implicit Defensive.
Import Order.TTheory GRing.Theory Num.Theory.
Local Open Scope ring_scope.

Local Arguments MatrixModel.of_nat : simpl never.

Lemma accesses_inside : forall n, (1 < n)%N ->
  List.forallb (fun i => PeanoNat.Nat.ltb i n) (pl_accesses n) = true.
Proof.
move=> n /ssrnat.leP n1; apply/List.forallb_forall => i.
rewrite /pl_accesses !List.in_app_iff => H; apply/PeanoNat.Nat.ltb_lt.
have D : forall k, (k = PeanoNat.Nat.mul 2 (PeanoNat.Nat.div k 2) + PeanoNat.Nat.modulo k 2 /\ PeanoNat.Nat.modulo k 2 < 2)%coq_nat.
  by move=> k; split; [exact: PeanoNat.Nat.div_mod|exact: PeanoNat.Nat.mod_upper_bound].
case: H => [[<-|[]]|[/List.in_flat_map [k [/List.in_seq K]]|[|/List.in_seq]]]; try lia.
- by move: (D k); move: (PeanoNat.Nat.div k 2) (PeanoNat.Nat.modulo k 2) => q r [D1 D2] {D} [<-|[<-|[<-|[]]]]; lia.
by move: (D n); move: (PeanoNat.Nat.div n 2) (PeanoNat.Nat.modulo n 2) => q r [D1 D2] {D} [<-|[<-|[]]]; lia.
Qed.

Section Iterate.
Variables (F : numFieldType) (f : F -> F) (u : F) (n : nat).
Notation S := (field_scalars f u).
Notation mm := (mxr n.+1 n.+1).
Variables (root : F -> F) (same : F -> F -> bool).
Variables (A : 'M[F]_n.+1) (crpl : nat -> F).
Hypothesis Hc : forall i, (i <= n.+1)%N -> crpl i = (char_poly A)`_i.
Implicit Types (a b : nat -> nat -> F) (v w al pal trpl : nat -> F).

Lemma ev_ext : forall v w, (forall i, (i <= n)%N -> v i = w i) -> ev A v = ev A w.
Proof. by move=> v w E; apply: eq_bigr => i _; rewrite E // -ltnS. Qed.

Lemma ev_add : forall v w al x, (forall i, (i <= n)%N -> al i = v i + x * w i) ->
  ev A al = ev A v + x *: ev A w.
Proof.
move=> v w al x E; rewrite /ev scaler_sumr -big_split /=; apply: eq_bigr => i _.
by rewrite E -1?ltnS // scalerDl scalerA.
Qed.

Lemma iterateE : forall count J al pal wpf twpf rs,
  (wpf * rs) *: ev A pal = (J.+1`!%:R)^-1 *: A ^+ J -> ev A al = exp_series A J ->
  let '(al', j) := iterate S root same n.+1 crpl count J.+1 al pal wpf twpf rs in
  (J.+1 <= j <= J.+1 + count)%N
  /\ ev A al' = exp_series A (if (j < J.+1 + count)%N then j else j.-1).
Proof.
elim=> [|count IH] J al pal wpf twpf rs Hp Ha.
  by rewrite /= addn0 leqnn ltnn.
rewrite /iterate -/(iterate S root same).
have := @step_down F f u n pal al crpl (mul S (pal (PeanoNat.Nat.sub n.+1 1)) rs) rs wpf.
case: (down _ _ _) => [[al1 pal1] s1]; rewrite sub1E /= => [[P1 A1]].
set cho := pal n * rs in P1 *.
set pal2 := setv pal1 _ _; set al2 := setv al1 _ _.
have P2 : ev A pal2 = rs *: (ev A pal * A).
  apply: ev_shift => [[|i]] iN; rewrite /pal2 setvE /=; first by rewrite mulNr sub0r Hc.
  by rewrite P1 iN Hc // leqW.
have A2 : ev A al2 = exp_series A J.+1.
  rewrite (@ev_add al pal2 al2 wpf); last first.
    move=> i iN; rewrite /al2 /pal2 !setvE; case: (posnP i) => [->|i0] /=; first by rewrite A1.
    by rewrite A1 i0 iN.
  by rewrite P2 scalerA scalerAl Hp -scalerAl -exprSr Ha series_step.
set s2 := root _.
have W : forall wpf' rs', wpf' * rs' = wpf / J.+2%:R ->
    (wpf' * rs') *: ev A pal2 = (J.+2`!%:R)^-1 *: A ^+ J.+1.
  move=> wpf' rs' ->; rewrite P2 scalerA mulrAC [wpf * rs / _]mulrC -scalerA scalerAl.
  by rewrite Hp -scalerAl -exprSr scalerA (factS J.+1) natrM invfM.
set t3 := if less S _ _ then _ else _.
have T3 : t3.1.1 * t3.1.2 = wpf / J.+2%:R.
  rewrite /t3; case: ifP => /= [s1'|_]; rewrite (of_natE f u J.+2); last by rewrite mulr1.
  have s0 : s2 != 0 by apply: lt0r_neq0; apply: lt_trans s1'; exact: ltr01.
  by rewrite mul1r -mulrA [s2 / J.+2%:R]mulrC mulfK.
case: t3 T3 => [[wpf3 rs3] rss3] /= T3.
case: (same _ _).
  by rewrite leqnn leq_addr addnS ltnS leq_addr.
have := IH J.+1 al2 pal2 wpf3 (twpf + wpf3 * rss3) rs3 (W _ _ T3) A2.
case: (iterate _ _ _ _ _ _ _ _ _ _ _ _) => al' j [/andP [j1 j2] E].
by rewrite (ltnW j1) addnS -addSn j2.
Qed.

(** ** Squaring *)

Lemma square_down : forall v al cho x,
  let '(al', pal') := down n.+1 (fun i st =>
      let '(al, pal) := st in
      let pal := setv pal i (sub S (pal (PeanoNat.Nat.sub i 1)) (mul S cho (crpl i))) in
      (setv al i (add S (al i) (mul S x (pal i))), pal)) (al, v) in
  (forall i, pal' i = if (0 < i <= n)%N then v i.-1 - cho * crpl i else v i)
  /\ (forall i, al' i = if (0 < i <= n)%N then al i + x * pal' i else al i).
Proof.
move=> v al cho x.
set body := (fun (i : nat) (st : _ * _) => _).
pose P k (st : vec S * vec S) :=
  (forall i, st.2 i = if (k <= i <= n)%N then v i.-1 - cho * crpl i else v i)
  /\ (forall i, st.1 i = if (k <= i <= n)%N then al i + x * st.2 i else al i).
have : P 1%N (down n.+1 body (al, v)).
  apply: downP; first by split=> i /=; rewrite ltnNge andbC; case: (i <= n)%N.
  move=> k [al1 pal1] /andP [k0 kn] [/= H1 H2].
  have C : forall i, (k <= i <= n)%N = (i == k) || (k < i <= n)%N.
    by move=> i; rewrite [(k <= i)%N]leq_eqVlt eq_sym; case: eqP => [->|] //=; rewrite kn.
  split=> i /=; rewrite C !setvE ?eqxx sub1E; case: (i == k) / eqP => [->|] //=.
  - by rewrite H1 ltnNge leq_pred.
  - by rewrite H2 ltnn.
by case: (down _ _ _) => [al' pal'].
Qed.

Lemma squareE : forall al pal trpl, let '(al', _, _) := square S n.+1 crpl (al, pal, trpl) in
  ev A al' = ev A al ^+ 2.
Proof.
move=> al pal trpl; rewrite /square.
pose P k (st : vec S * vec S * vec S) := [/\
  forall i, st.1.1 i = if (i < k)%N then al i * al 0%N else al i,
  forall i, (i < k)%N -> st.1.2 i = al i & forall i, (i < k)%N -> st.2 i = al i].
set l0 := loop 0 _ _ _.
have : P n.+1 l0.
  apply: (loopP (P := P)) => // k [[al1 pal1] tr1] _ [/= H1 H2 H3]; split=> i /=; rewrite setvE ltnS leq_eqVlt.
  - by case: eqP => [->|_] //=; rewrite H1 ltnn.
  - by case: eqP => [->|_] //=; rewrite ?H1 ?ltnn //; exact: H2.
  by rewrite setvE eqxx; case: eqP => [->|_] //=; rewrite ?H1 ?ltnn //; exact: H3.
case: l0 => [[al1 pal1] tr1] []; rewrite /fst /snd => H1 H2 H3.
pose Q j (st : vec S * vec S) :=
  ev A st.1 = \sum_(i < j) al i *: (ev A al * A ^+ i) /\ ev A st.2 = ev A al * A ^+ j.-1.
set st0 := loop 1 _ _ _.
have : Q n.+1 st0.
  apply: (loopP (P := Q)) => //.
    split=> /=; last by rewrite expr0 mulr1; apply: ev_ext => i iN; exact: H2.
    rewrite big_ord1 expr0 mulr1 /ev scaler_sumr; apply: eq_bigr => i _.
    by rewrite H1 ltn_ord scalerA mulrC.
  move=> j [al2 pal2] /andP [j0 jn] [/= Q1 Q2].
  have := square_down pal2 al2 (pal2 n) (tr1 j).
  rewrite PeanoNat.Nat.sub_0_r; case: (down _ _ _) => al3 pal3 [P3 A3].
  set pal4 := setv pal3 _ _.
  have P4 : ev A pal4 = ev A pal2 * A.
    rewrite -[RHS]scale1r; apply: ev_shift => [[|i]] iN; rewrite /pal4 setvE /= ?mulr1.
      by rewrite mulNr sub0r Hc.
    by rewrite P3 iN Hc // leqW.
  split=> /=; last by rewrite P4 Q2 -mulrA -exprSr prednK.
  rewrite (@ev_add al2 pal4 _ (tr1 j)); last first.
    move=> i iN; rewrite /pal4 !setvE; case: (posnP i) => [->|i0] /=; first by rewrite A3.
    by rewrite A3 i0 iN.
  by rewrite P4 Q1 Q2 big_ord_recr /= H3 // -mulrA -exprSr prednK.
case: st0 => al4 pal4 [/= Q1 _].
rewrite Q1 expr2 {2}/ev mulr_sumr; apply: eq_bigr => i _.
by rewrite scalerAr.
Qed.

Lemma squaresE : forall nb al pal trpl,
  let '(al', _, _) := loop 0 nb (fun _ st => square S n.+1 crpl st) (al, pal, trpl) in
  ev A al' = ev A al ^+ (2 ^ nb)%N.
Proof.
move=> nb al pal trpl.
pose P k (st : vec S * vec S * vec S) := ev A st.1.1 = ev A al ^+ (2 ^ k)%N.
have : P nb (loop 0 nb (fun _ st => square S n.+1 crpl st) (al, pal, trpl)).
  apply: (loopP (P := P)) => //.
  move=> k [[al1 pal1] tr1] _ H; rewrite /P expnSr exprM -H.
  by have := squareE al1 pal1 tr1; case: (square _ _ _ _) => [[al2 pal2] tr2].
by case: (loop _ _ _ _) => [[al1 pal1] tr1].
Qed.

End Iterate.

Local Arguments half : simpl never.
Section Chexp.
Variables (F : numFieldType) (f : F -> F) (u : F) (n : nat).
Notation S := (field_scalars f u).
Notation mm := (mxr n.+1 n.+1).
Variables (root : F -> F) (norm : (nat -> nat -> F) -> F) (sclim : F) (same : F -> F -> bool).

Lemma outputE : forall (A : 'M[F]_n.+1) (pl : nat -> mat S) al,
  (forall i, (0 < i <= n)%N -> mm (pl i) = A ^+ i) ->
  mm (loop 1 n.+1 (fun k omat =>
        mult_add_scalar S n.+1 n.+1 (fun _ => pl k) (fun _ => al k) omat) (of_scalar S n.+1 (al 0%N)))
  = ev A al.
Proof.
move=> A pl al H.
pose P k (M : mat S) := mm M = \sum_(i < k) al i *: A ^+ i.
apply: (loopP (P := P)) => //.
  by rewrite /P of_scalarE big_ord1 expr0 scalemx1.
move=> k M /andP [k0 kn] E; rewrite /P mult_add_scalarE E big_ord_recr /= H //.
by rewrite k0.
Qed.

(** ** The number of halvings *)

Lemma halfE : half S = 2%:R^-1 :> F.
Proof. by rewrite /half /= div1r. Qed.

Lemma scaling_total : forall m fuel x (s : F) nb,
  ~~ (sclim <= x * (s / 2%:R ^+ m)) -> (m < fuel)%N ->
  (forall k, (k < m)%N -> sclim <= x * (s / 2%:R ^+ k)) ->
  scaling S sclim fuel x s nb = Some (s / 2%:R ^+ m, nb + m)%N.
Proof.
elim=> [|m IH] [|fuel] x s nb //= Hm mf Hk.
  by rewrite expr0 divr1 addn0 in Hm *; rewrite (negbTE Hm).
have := Hk 0%N isT; rewrite expr0 divr1 => ->.
rewrite halfE.
have D : forall k, s / 2%:R ^+ k.+1 = s / 2%:R / 2%:R ^+ k by move=> k; rewrite exprS invfM mulrA.
rewrite D in Hm *; rewrite (IH fuel) ?addnS //.
by move=> k km; rewrite -D; exact: Hk.
Qed.

Lemma iterate_all : forall crpl count j al pal (wpf twpf rs : F),
  (forall x y, same x y = false) ->
  (iterate S root same n.+1 crpl count j al pal wpf twpf rs).2 = (j + count)%N.
Proof.
move=> crpl; elim=> [|count IH] j al pal wpf twpf rs H; first by rewrite addn0.
rewrite /iterate -/(iterate S root same).
case: (down _ _ _) => [[al1 pal1] s1]; case: (if _ then _ else _) => [[w r] rr].
by rewrite H IH // addnS.
Qed.

Lemma chexpE : forall m fuel a, (0 < n)%N ->
  ~~ (sclim <= norm a / 2%:R ^+ m) -> (m < fuel)%N ->
  (forall k, (k < m)%N -> sclim <= norm a / 2%:R ^+ k) ->
  exists omat niter K, [/\ chexp S root norm sclim same fuel n.+1 a = Done omat niter,
    mm omat = exp_series ((2%:R ^+ m)^-1 *: mm a) K ^+ (2 ^ m)%N,
    (n.+1 <= K < 25 * n.+1)%N,
    (forall x y, same x y = false) -> K = (25 * n.+1).-1 &
    if (0 < m)%N then niter = n.+1 else (niter = K) \/ (niter = 25 * n.+1 /\ K = niter.-1)%N].
Proof.
move=> m fuel a n0 Hm mf Hk; rewrite /chexp.
rewrite accesses_inside //.
rewrite (@scaling_total m) ?mul1r //; last by move=> k km; rewrite mul1r; exact: Hk.
set sfac := (2%:R ^+ m)^-1; rewrite add0n.
have := @powersE F f u n a sfac n0; case: (powers _ _ _ _) => pl trpl [Hp Ht].
have Hc := @coefficientsE F f u n _ _ Ht.
set A := sfac *: mm a in Hp Ht Hc.
have := @initialE F f u n A; case: (initial _ _) => [[[al pal] wpf] tw] [Ia Ip Iw].
have := @iterateE F f u n root same A _ Hc (PeanoNat.Nat.sub (PeanoNat.Nat.mul 25 n.+1) n.+1) n al pal wpf tw 1.
rewrite mulr1 Iw Ip => /(_ erefl Ia).
set count := PeanoNat.Nat.sub _ _.
have C : (n.+1 + count = 25 * n.+1)%N.
  by rewrite /count -[PeanoNat.Nat.mul _ _]/(25 * n.+1)%N -[PeanoNat.Nat.sub _ _]/(25 * n.+1 - n.+1)%N subnKC // leq_pmull.
rewrite C.
case EI: (iterate _ _ _ _ _ _ _ _ _ _ _ _) => [al1 j] [J1 J2].
have := @squaresE F f u n _ _ Hc m al1 (freshv S) (freshv S).
case: (loop 0 m _ _) => [[al2 pal2] tr2] E2.
eexists; eexists; exists (if (j < 25 * n.+1)%N then j else j.-1); split; first by [].
- by rewrite (outputE al2 Hp) E2 J2.
- case/andP: J1 => j1 j2; case: (ltnP j) => jj; first by rewrite j1 jj.
  have -> : j = (25 * n.+1)%N by apply/eqP; rewrite eqn_leq jj j2.
  by rewrite ltn_predL muln_gt0 andbT -ltnS prednK ?muln_gt0 // ltn_Pmull.
- move=> Hs; have := iterate_all (coefficients S n.+1 trpl) count n.+1 al pal ((n.+1)`!%:R^-1) tw 1 Hs.
  by rewrite EI C /= => ->; rewrite ltnn.
have -> : PeanoNat.Nat.ltb 0 m = (0 < m)%N by case: (m).
case: (0 < m)%N => //; case: (ltnP j) => jj; first by left.
by right; split=> //; apply/eqP; rewrite eqn_leq jj; case/andP: J1 => _ ->.
Qed.


Lemma chexp_fuel : forall fuel a, (0 < n)%N ->
  (forall k, (k < fuel)%N -> sclim <= norm a / 2%:R ^+ k) ->
  chexp S root norm sclim same fuel n.+1 a = Out_of_fuel.
Proof.
move=> fuel a n0 H; rewrite /chexp.
rewrite accesses_inside //.
suff G : forall (s : F) nb, (forall k, (k < fuel)%N -> sclim <= norm a * (s / 2%:R ^+ k)) ->
    scaling S sclim fuel (norm a) s nb = None.
  by rewrite G // => k kf; rewrite /= div1r; exact: H.
elim: {H} fuel => // fuel IH s nb H /=.
have := H 0%N isT; rewrite expr0 divr1 => ->; apply: IH => k kf.
by have := H k.+1 kf; rewrite exprS invfM halfE (mulrA s).
Qed.

End Chexp.
