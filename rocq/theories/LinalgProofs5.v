(** LU decomposition with row exchanges. *)
Set Warnings "-notation-overridden,-ambiguous-paths".
From mathcomp Require Import all_ssreflect all_algebra all_fingroup.
From Verif Require Import LinalgModel LinalgSpec LinalgProofs1 LinalgProofs2 LinalgProofs3 LinalgProofs4.
Set Implicit Arguments.
Unset Strict Implicit.
Unset Printing Implicit Defensive.
Import Order.TTheory GRing.Theory Num.Theory.
Local Open Scope ring_scope.

Section Doolittle.
Variables (F : numFieldType) (f : F -> F) (u : F).
Notation S := (field_scalars f u).
Implicit Types (a b A : nat -> nat -> F).

Lemma pivot : forall n i (a : mat S), (i < n)%N ->
  let imax := (find_pivot S n i a).2 in
  (i <= imax < n)%N /\ a imax i != 0 :> F \/
  forall k, (i <= k < n)%N -> a k i = 0 :> F.
Proof.
move=> n i a im /=; rewrite /find_pivot; set body := (fun k st => _).
pose P m (st : num S * nat) := 0 <= st.1 :> F /\
  (forall k, (i <= k < m)%N -> `|a k i| ^+ 2 <= st.1 :> F) /\
  (0 < st.1 :> F -> (i <= st.2 < m)%N /\ st.1 = `|a st.2 i| ^+ 2 :> F).
have : P n (loop i n body (0, 0%N)).
  apply: (loopP (P := P)); first exact: ltnW.
    split=> //; split=> [k|] /=; last by rewrite ltxx.
    by rewrite ltnNge; case: (i <= k)%N.
  move=> m [mx0 imax] /andP [i1 m1] [/= H1 [H2 H3]]; rewrite /body /=.
  have r1 : `|a m i| ^+ 2 \is Num.real by rewrite ger0_real // exprn_ge0.
  case: (real_ltP (ger0_real H1) r1) => cmp.
    split=> /=; first by rewrite exprn_ge0.
    split=> [k|]; last by rewrite i1 ltnSn.
    rewrite ltnS [(k <= m)%N]leq_eqVlt; case: (k == m) / eqP => [->|_] //= ik.
    by apply: le_trans (ltW cmp); apply: H2.
  split=> //=; split=> [k|].
    by rewrite ltnS [(k <= m)%N]leq_eqVlt; case: (k == m) / eqP => [->|_] //= ik; apply: H2.
  by move/H3 => [/andP [-> /ltnW le] ->]; rewrite ltnS le.
case: (loop _ _ _ _) => mx0 imax [/= H1 [H2 H3]].
move: H1; rewrite le_eqVlt => /orP [/eqP z|/H3 [H4 H5]].
  right=> k /H2; rewrite -z => le.
  have : `|a k i| ^+ 2 == 0 by rewrite eq_le le exprn_ge0.
  by rewrite expf_eq0 /= normr_eq0 => /eqP.
have [z|nz] := eqVneq (a imax i) 0; last by left.
right=> k /H2; rewrite H5 z normr0 expr0n => le.
have : `|a k i| ^+ 2 == 0 by rewrite eq_le le exprn_ge0.
by rewrite expf_eq0 /= normr_eq0 => /eqP.
Qed.

(** The elements after steps 0, ..., i - 1. *)
Definition part i a (r c : nat) : F :=
  if (minn r c < i)%N then prod a r c else \sum_(0 <= k < i) a r k * a k c + a r c.

Lemma part_exch : forall n a b i j r c, (j <= i)%N -> (i < n)%N -> (r < n)%N -> (c < n)%N ->
  (forall r c, (c < n)%N -> b r c = a (exch i j r) c) ->
  part j b r c = part j a (exch i j r) c.
Proof.
move=> n a b i j r c ji im rn cn H; rewrite /part.
have mE : (minn (exch i j r) c < j)%N = (minn r c < j)%N.
  case: (exch_cases r ji) => [[r1 r2]|->] //.
  by rewrite !gtn_min ![(_ < j)%N]ltnNge r1 r2.
have jn := leq_ltn_trans ji im.
rewrite mE; case: ifP => m.
  case: (ltnP c j) => cj.
    by apply: prod_exch => // x y yc; apply: H; exact: leq_ltn_trans yc cn.
  have rj : (r < j)%N by move: m; rewrite gtn_min [(c < j)%N]ltnNge cj orbF.
  rewrite (exch_small ji rj) /prod (ltnW (leq_trans rj cj)) H // (exch_small ji rj).
  congr (_ + _); apply: eq_big_nat => k /andP [_]; rewrite leq_min => /andP [kr kc].
  by rewrite !H ?(ltn_trans kr rn) // (exch_small ji rj) (exch_small ji (ltn_trans kr rj)).
rewrite H //; congr (_ + _); apply: eq_big_nat => k /andP [_ kj].
by rewrite !H ?(ltn_trans kj jn) // (exch_small ji kj).
Qed.

(** One row of the elimination. *)
Lemma elim_row : forall n i j a, (i < j)%N -> (i < n)%N -> a i i != 0 ->
  exists b, eliminate S n i j a = Some b /\
  forall r c, b r c = if r == j then
      (if c == i then a j i / a i i
       else if (i < c < n)%N then a j c - a j i / a i i * a i c else a j c)
    else a r c.
Proof.
move=> n i j a ij im nz; rewrite /eliminate /= (negbTE nz).
set b0 := set S a j i _; eexists; split; first by reflexivity.
have B0 : forall r c, b0 r c = if (r == j) && (c == i) then a j i / a i i else a r c by exact: setE.
set body := (fun k LU => _).
pose P m (b : mat S) := forall r c, b r c = if r == j then
      (if c == i then a j i / a i i
       else if (i < c < m)%N then a j c - a j i / a i i * a i c else a j c)
    else a r c.
have : P n (loop i.+1 n body b0).
  apply: (loopP (P := P)) => //.
    move=> r c; rewrite B0; case: (r == j) / eqP => [->|] //=.
    by rewrite ltnS; case: (ltnP i c); rewrite //= ?andbF.
  move=> m b /andP [i1 m1] H r c; rewrite /body setE !H eqxx (ltn_eqF ij) ltnS [(c <= m)%N]leq_eqVlt.
  rewrite [m == i]gtn_eqF // ltnn andbF.
  case: (r == j) => //=; case: (c == m) / eqP => [->|] //=.
  by rewrite [m == i]gtn_eqF // i1 eqxx.
by move=> H r c; apply: H.
Qed.

Lemma elim_all : forall n i a, (i < n)%N -> a i i != 0 ->
  exists b, loopo i.+1 n (eliminate S n i) a = Some b /\
  forall r c, (r < n)%N -> (c < n)%N -> b r c = if (i < r)%N then
      (if c == i then a r i / a i i
       else if (i < c)%N then a r c - a r i / a i i * a i c else a r c)
    else a r c.
Proof.
move=> n i a im nz.
pose P m (b : mat S) := forall r c, (c < n)%N -> b r c = if (i < r < m)%N then
      (if c == i then a r i / a i i
       else if (i < c)%N then a r c - a r i / a i i * a i c else a r c)
    else a r c.
have := @loopoP _ P False i.+1 n (eliminate S n i) a im.
case: (loopo _ _ _ _) => [b|] H.
  exists b; split=> // r c rn cn; rewrite H //.
  - by rewrite rn andbT.
  - by move=> r' c' _; rewrite ltnS; case: (ltnP i r').
  move=> k t /andP [ik kn] Hk.
  have nz' : t i i != 0 by rewrite Hk // ltnn.
  have [b' [-> Hb]] := elim_row ik im nz'.
  move=> r' c' cn'; rewrite Hb !Hk // !ltnn andbF /= ltnS [(r' <= k)%N]leq_eqVlt.
  by case: (r' == k) / eqP => [->|] //=; rewrite ik cn' andbT.
exfalso; apply: H => [r' c' _|k t /andP [ik kn] Hk].
  by rewrite ltnS; case: (ltnP i r').
have nz' : t i i != 0 by rewrite Hk // ltnn.
have [b' [-> Hb]] := elim_row ik im nz'.
move=> r' c' cn'; rewrite Hb !Hk // !ltnn andbF /= ltnS [(r' <= k)%N]leq_eqVlt.
by case: (r' == k) / eqP => [->|] //=; rewrite ik cn' andbT.
Qed.

Definition lu_inv n A i (st : mat S * (nat -> nat)) : Prop :=
  exists s : 'S_n, (forall r : 'I_n, st.2 r = s r) /\
  (forall r c : 'I_n, A (s r) c = part i st.1 r c) /\
  (forall k, (k < i)%N -> st.1 k k != 0 :> F).

Lemma part_step : forall n i a b r c, (i < n)%N -> (r < n)%N -> (c < n)%N -> a i i != 0 ->
  (forall r c, (r < n)%N -> (c < n)%N -> b r c = if (i < r)%N then
      (if c == i then a r i / a i i
       else if (i < c)%N then a r c - a r i / a i i * a i c else a r c)
    else a r c) ->
  part i.+1 b r c = part i a r c.
Proof.
move=> n i a b r c im rn cn nz H.
have row : forall k c, (k <= i)%N -> (k < n)%N -> (c < n)%N -> b k c = a k c.
  by move=> k c' ki kn cn'; rewrite H // ltnNge ki.
have col : forall r k, (k < i)%N -> (r < n)%N -> (k < n)%N -> b r k = a r k.
  move=> r' k ki rn' kn; rewrite H // (ltn_eqF ki) [(i < k)%N]ltnNge (ltnW ki) /=.
  by case: (i < r')%N.
have S1 : forall N, (N <= i)%N -> (N <= r)%N ->
    \sum_(0 <= k < N) b r k * b k c = \sum_(0 <= k < N) a r k * a k c.
  move=> N Ni Nr; apply: eq_big_nat => k /andP [_ kN].
  have ki := leq_trans kN Ni.
  by rewrite col ?row ?(ltnW ki) ?(ltn_trans ki im).
rewrite /part ltnS; case: (ltngtP (minn r c) i) => [m|m|m].
- rewrite /prod S1 ?geq_minl ?(ltnW m) //; congr (_ + _).
  case: (leqP r c) => rc.
    by rewrite row //; move: m; rewrite (minn_idPl rc) => /ltnW.
  have ci : (c < i)%N by move: m; rewrite (minn_idPr (ltnW rc)).
  by rewrite !col.
- move: m; rewrite leq_min => /andP [ri ci].
  rewrite big_nat_recr //= S1 ?(ltnW ri) // [b i c]row // !H // ri eqxx (gtn_eqF ci) ci.
  by rewrite -addrA [_ * a i c + _]addrC subrK.
- rewrite /prod S1; [|by rewrite m|exact: geq_minl].
  rewrite {1}m; congr (_ + _); case: (leqP r c) => rc.
    by rewrite row // -m (minn_idPl rc).
  have ci : c = i by rewrite -m (minn_idPr (ltnW rc)).
  rewrite ci in rc *; rewrite [b i i]row // H // rc eqxx divfK //.
Qed.

Lemma lu_stepP : forall n A i st, \det (mx n A) != 0 -> (i < n)%N -> lu_inv n A i st ->
  exists st', lu_step S n i st = Some st' /\ lu_inv n A i.+1 st'.
Proof.
move=> n A i [a P] nz im [s [/= HP [HA Hd]]].
rewrite /lu_step; have := pivot a im; case: (find_pivot S n i a) => mx0 imax /= [[iP nzp]|zero_col]; last first.
  exfalso; move/negP: nz; apply; apply/eqP; apply: (@singular F n s A a i) => // [r c ci|r].
    have cn := ltn_trans ci im.
    by rewrite (HA r (Ordinal cn)) /part /= gtn_min ci orbT.
  rewrite (HA r (Ordinal im)) /part /= gtn_min ltnn orbF.
  case: (ltnP r i) => ri; first by rewrite /prod (minn_idPl (ltnW ri)) (ltnW ri).
  by rewrite zero_col // ri /=.
have [ii imn] := andP iP.
pose i0 : 'I_n := Ordinal imn; pose j0 : 'I_n := Ordinal im.
pose s' : 'S_n := (tperm i0 j0 * s)%g.
set st3 := (if Nat.eqb imax i then _ else _).
have -> : st3 = (st3.1, st3.2) by case: st3.
set a3 := st3.1; set P3 := st3.2.
have E3 : forall r c, (c < n)%N -> a3 r c = a (exch imax i r) c.
  move=> r c cn; rewrite /a3 /st3 eqbE; case: (imax == i) / eqP => [->|ne] /=.
    by rewrite /exch; case: (r == i) / eqP => [->|].
  rewrite swap_rowsE cn /exch; case: (r == i) / eqP => [->|] //.
  by case: eqP => // e; case: ne.
have EP : forall r, P3 r = P (exch imax i r).
  move=> r; rewrite /P3 /st3 eqbE; case: (imax == i) / eqP => [->|ne] /=.
    by rewrite /exch; case: (r == i) / eqP => [->|].
  rewrite /swapv !setvE /exch; case: (r == imax) => //.
  by case: (r == i).
have nz3 : a3 i i != 0.
  by rewrite E3 // /exch eqxx; case: (i == imax) / eqP => [e|//]; rewrite -e in nzp.
have [b [-> Hb]] := elim_all im nz3.
exists (b, P3); split=> //; exists s'; split=> [r|] /=.
  by rewrite EP permM -HP exch_ord.
split=> [r c|k].
  rewrite (part_step im _ _ nz3 Hb) // (part_exch (a := a) (i := imax) (n := n)) //.
  by rewrite permM HA exch_ord.
rewrite ltnS leq_eqVlt => /orP [/eqP ->|ki]; first by rewrite Hb // ltnn.
have kn := ltn_trans ki im.
by rewrite Hb // [(i < k)%N]ltnNge (ltnW ki) /= E3 // (exch_small ii ki) Hd.
Qed.

Lemma doolittle : forall n A, \det (mx n A) != 0 ->
  exists LU P (s : 'S_n), LU_decompose S n A = Some (LU, P) /\
  (forall r : 'I_n, P r = s r) /\
  (forall r c : 'I_n, A (s r) c = prod LU r c) /\
  (forall k, (k < n)%N -> LU k k != 0 :> F).
Proof.
move=> n A nz; rewrite /LU_decompose.
have := @loopoP _ (lu_inv n A) False 0%N n (lu_step S n) (A, id) (leq0n n).
have I0 : lu_inv n A 0 (A, id).
  exists 1%g; split=> [r|]; first by rewrite perm1.
  by split=> // r c; rewrite perm1 /part ltn0 big_geq // add0r.
have St : forall k t, (0 <= k < n)%N -> lu_inv n A k t ->
    match lu_step S n k t with Some v => lu_inv n A k.+1 v | None => False end.
  by move=> k t /andP [_ kn] I; have [st' [-> I']] := lu_stepP nz kn I.
case: (loopo _ _ _ _) => [[LU P]|] /(_ I0 St) // [s [/= H1 [H2 H3]]].
exists LU, P, s; split=> //; split=> //; split=> // r c.
by rewrite H2 /part gtn_min ltn_ord.
Qed.
End Doolittle.
