(** The determinant by LU decomposition. *)
Set Warnings "-notation-overridden,-ambiguous-paths".
From mathcomp Require Import all_ssreflect all_algebra all_fingroup.
From Verif Require Import LinalgModel LinalgSpec LinalgProofs1 LinalgProofs2 LinalgProofs3.
Set Implicit Arguments.
Unset Strict Implicit.
Unset Printing Implicit Defensive.
Import Order.TTheory GRing.Theory Num.Theory.
Local Open Scope ring_scope.

Section Crout.
Variables (F : numFieldType) (f : F -> F) (u : F).
Hypothesis f_pos : positive_scale f.
Notation S := (field_scalars f u).
Implicit Types (a b A : nat -> nat -> F).

Lemma setE : forall a i j v r c,
  set S a i j v r c = if (r == i) && (c == j) then v else a r c.
Proof. by move=> *; rewrite /set !eqbE. Qed.

Lemma setvE : forall T (v : nat -> T) i x k, setv v i x k = if k == i then x else v k.
Proof. by move=> *; rewrite /setv eqbE. Qed.

(** Rows i and i' exchanged. *)
Definition exch (i i' r : nat) : nat := if r == i then i' else if r == i' then i else r.

Lemma swap_rowsE : forall n i i' a r c,
  swap_rows S n i i' a r c = if (c < n)%N then a (exch i i' r) c else a r c.
Proof.
move=> n i i' a; rewrite /swap_rows.
pose P m (b : mat S) := forall r c, b r c = if (c < m)%N then a (exch i i' r) c else a r c.
suff : P n (loop 0 n (fun j M => set S (set S M i j (M i' j)) i' j (M i j)) a) by [].
apply: (loopP (P := P)) => // m b mn H r c.
rewrite !setE !H ltnn ltnS [(c <= m)%N]leq_eqVlt.
case: (c == m) / eqP => [->|cm]; last by rewrite !andbF.
rewrite !andbT orTb /exch; case: (r == i') / eqP => [->|].
  by case: (i' == i) / eqP => [->|].
by rewrite ltnn; case: (r == i).
Qed.

(** csum -= a.e(i,k) * a.e(k,j), with the sum kept in a.e(i,j). *)
Lemma row_sum : forall a i j m, (m <= i)%N -> (m <= j)%N ->
  forall r c, loop 0 m (fun k a => set S a i j (a i j - a i k * a k j)) a r c
  = if (r == i) && (c == j) then a i j - \sum_(0 <= k < m) a i k * a k j else a r c.
Proof.
move=> a i j m mi mj.
pose P m (b : mat S) := forall r c,
  b r c = if (r == i) && (c == j) then a i j - \sum_(0 <= k < m) a i k * a k j else a r c.
suff : P m (loop 0 m (fun k a => set S a i j (a i j - a i k * a k j)) a) by [].
apply: (loopP (P := P)) => //.
  move=> r c; rewrite big_geq // subr0.
  by case: (r == i) / eqP => [->|] //; case: (c == j) / eqP => [->|].
move=> k b /andP [_ km] H r c; rewrite setE !H !eqxx /=.
case: ((r == i) && (c == j)) => //.
have kj : (k == j) = false by apply: ltn_eqF; apply: leq_trans km mj.
have ki : (k == i) = false by apply: ltn_eqF; apply: leq_trans km mi.
by rewrite kj ki /= big_nat_recr //= opprD addrA.
Qed.

(** The part of column j above the diagonal. *)
Lemma upper_part : forall a j, let b := loop 0 j (fun i a =>
      loop 0 i (fun k a => set S a i j (a i j - a i k * a k j)) a) a in
  (forall r c, (c != j) || (j <= r)%N -> b r c = a r c) /\
  (forall r, (r < j)%N -> a r j = \sum_(0 <= k < r) b r k * b k j + b r j).
Proof.
move=> a j /=; set body := (fun i a => _).
pose P m (b : mat S) := (forall r c, (c != j) || (m <= r)%N -> b r c = a r c) /\
  (forall r, (r < m)%N -> a r j = \sum_(0 <= k < r) b r k * b k j + b r j).
suff : P j (loop 0 j body a) by [].
apply: (loopP (P := P)) => // m b /andP [_ mj] [H1 H2].
have E : forall r c, body m b r c =
    if (r == m) && (c == j) then b m j - \sum_(0 <= k < m) b m k * b k j else b r c.
  by apply: row_sum => //; exact: ltnW.
split=> [r c H|r].
  rewrite E; case: (r == m) / eqP => [rm|rm] /=.
    by move: H; rewrite rm ltnn orbF => cj; rewrite (negbTE cj) H1 // cj.
  by apply: H1; move/orP: H => [->//|/ltnW ->]; rewrite orbT.
rewrite ltnS [(r <= m)%N]leq_eqVlt => /orP rm.
have S1 : \sum_(0 <= k < r) body m b r k * body m b k j = \sum_(0 <= k < r) b r k * b k j.
  apply: eq_big_nat => k /andP [_ kr].
  have rm' : (r <= m)%N by case: rm => [/eqP ->|/ltnW].
  have km : (k < m)%N by exact: leq_trans kr rm'.
  by rewrite !E (ltn_eqF km) (ltn_eqF (ltn_trans km mj)) andbF.
rewrite S1 E eqxx andbT; case: rm => [/eqP ->|rm].
  by rewrite eqxx addrC subrK -H1 // leqnn orbT.
by rewrite (ltn_eqF rm) H2.
Qed.

(** The part of column j on and below the diagonal, and the pivot. *)
Lemma lower_part : forall n a (vv : nat -> F) j imax0, (j < n)%N ->
  (forall i, (i < n)%N -> 0 < vv i) ->
  let st := loop j n (fun i st =>
      let '(a, imax, big) := st in
      let csum := loop 0 j (fun k csum => csum - a i k * a k j) (a i j) in
      let a := set S a i j csum in
      let dum := vv i * `|csum| in
      if big <= dum then (a, i, dum) else (a, imax, big)) (a, imax0, 0) in
  (forall r c, (c != j) || (r < j)%N || (n <= r)%N -> st.1.1 r c = a r c) /\
  (forall r, (j <= r < n)%N -> a r j = \sum_(0 <= k < j) st.1.1 r k * st.1.1 k j + st.1.1 r j) /\
  (j <= st.1.2 < n)%N /\
  (st.1.1 st.1.2 j = 0 -> forall r, (j <= r < n)%N -> st.1.1 r j = 0).
Proof.
move=> n a vv j imax0 jn vpos /=; set body := (fun i st => _).
have sum1 : forall (b : mat S) i m x,
    loop 0 m (fun k csum => csum - b i k * b k j) x = x - \sum_(0 <= k < m) b i k * b k j :> F.
  move=> b i m x; elim: m => [|m IH]; first by rewrite loop_nil // big_geq // subr0.
  by rewrite loopSr // IH big_nat_recr //= opprD addrA.
pose P m (st : mat S * nat * num S) :=
  (forall r c, (c != j) || (r < j)%N || (m <= r)%N -> st.1.1 r c = a r c) /\
  (forall r, (j <= r < m)%N -> a r j = \sum_(0 <= k < j) st.1.1 r k * st.1.1 k j + st.1.1 r j) /\
  ((j < m)%N -> (j <= st.1.2 < m)%N /\ st.2 = vv st.1.2 * `|st.1.1 st.1.2 j| :> F) /\
  (0 <= st.2 :> F /\ (m = j -> st.2 = 0 :> F)) /\
  (forall r, (j <= r < m)%N -> vv r * `|st.1.1 r j| <= st.2 :> F).
have : P n (loop j n body (a, imax0, 0)).
  apply: (loopP (P := P)); first exact: ltnW.
    split=> //=; split=> [r|]; first by rewrite ltnNge; case: (j <= r)%N.
    split; first by rewrite ltnn.
    by split=> // r; rewrite ltnNge; case: (j <= r)%N.
  move=> i [[b imax] big] /andP [ji im] [/= H1 [H2 [H3 [[H4 H6] H5]]]].
  rewrite /body sum1.
  set csum := b i j - _; set b' := set S b i j csum.
  have E : forall r c, b' r c = if (r == i) && (c == j) then csum else b r c by exact: setE.
  have Q1 : forall r c, (c != j) || (r < j)%N || (i.+1 <= r)%N -> b' r c = a r c.
    move=> r c H; rewrite E; case: (r == i) / eqP => [ri|_] /=.
      move: H; rewrite ri ltnn [(i < j)%N]ltnNge ji /= !orbF => cj.
      by rewrite (negbTE cj) H1 // cj.
    by apply: H1; move: H => /orP [->//|/ltnW ->]; rewrite orbT.
  have Q2 : forall r, (j <= r < i.+1)%N -> a r j = \sum_(0 <= k < j) b' r k * b' k j + b' r j.
    move=> r /andP [jr]; rewrite ltnS [(r <= i)%N]leq_eqVlt => /orP ri.
    have S1 : \sum_(0 <= k < j) b' r k * b' k j = \sum_(0 <= k < j) b r k * b k j.
      apply: eq_big_nat => k /andP [_ kj].
      by rewrite !E (ltn_eqF kj) andbF (ltn_eqF (leq_trans kj ji)).
    rewrite S1 E eqxx andbT; case: ri => [/eqP re|ri].
      by rewrite re eqxx /csum addrC subrK H1 // leqnn orbT.
    by rewrite (ltn_eqF ri); apply: H2; rewrite jr.
  have Ei : b' i j = csum by rewrite E !eqxx.
  have Eo : forall r, r != i -> b' r j = b r j by move=> r ri; rewrite E (negbTE ri).
  have vi : 0 <= vv i * `|csum| by rewrite mulr_ge0 // ltW // vpos.
  case: ifP => cmp.
    split=> //; split=> //=; split; first by rewrite ji ltnSn Ei.
    split; first by split=> // e; rewrite -e ltnn in ji.
    move=> r /andP [jr]; rewrite ltnS [(r <= i)%N]leq_eqVlt.
    case: (r == i) / eqP => [-> _|/eqP ri /= ri']; first by rewrite Ei.
    by rewrite (Eo _ ri); apply: le_trans cmp; apply: H5; rewrite jr.
  have jni : (j < i)%N.
    rewrite ltn_neqAle ji andbT; apply/eqP => e; move: cmp.
    by rewrite H6 // vi.
  have [im1 im2] := H3 jni.
  split=> //; split=> //=; split.
    case/andP: im1 => i1 i2 _; split; first by rewrite i1 ltnS ltnW.
    by rewrite Eo // (ltn_eqF i2).
  split; first by split=> // e; rewrite -e ltnn in ji.
  move=> r /andP [jr]; rewrite ltnS [(r <= i)%N]leq_eqVlt.
  case: (r == i) / eqP => [-> _|/eqP ri /= ri'].
    rewrite Ei; move: cmp => /negbT; rewrite -real_ltNge ?ger0_real //; exact: ltW.
  by rewrite (Eo _ ri); apply: H5; rewrite jr.
case=> H1 [H2 [H3 [H4 H5]]]; split=> //; split=> //.
have [H3a H3b] := H3 jn; split=> // z r rn.
have := H5 r rn; rewrite H3b z normr0 mulr0.
have vr : 0 < vv r by apply: vpos; case/andP: rn.
by rewrite pmulr_rle0 // normr_le0 => /eqP.
Qed.

Lemma prod_ext : forall a b r c, (forall i k, (k <= c)%N -> a i k = b i k) -> prod a r c = prod b r c.
Proof.
move=> a b r c H; rewrite /prod.
have -> : \sum_(0 <= k < minn r c) a r k * a k c = \sum_(0 <= k < minn r c) b r k * b k c.
  apply: eq_big_nat => k /andP [_]; rewrite leq_min => /andP [_ kc].
  by rewrite !H // ltnW.
by rewrite !H.
Qed.

Definition exch_ord n (i i' : 'I_n) (r : 'I_n) : (tperm i i' r : nat) = exch i i' r.
Proof.
rewrite /exch; case: tpermP => [->|->|/eqP ri /eqP ri'].
- by rewrite eqxx.
- by case: eqP => [->|]; rewrite ?eqxx.
by rewrite -!val_eqE /= in ri ri' *; rewrite (negbTE ri) (negbTE ri').
Qed.

(** Rows from j on may be exchanged: the columns before j keep their form. *)
Lemma exch_cases : forall i j r, (j <= i)%N -> (j <= r)%N /\ (j <= exch i j r)%N \/ exch i j r = r.
Proof.
move=> i j r ji; rewrite /exch; case: (r == i) / eqP => [->|_]; first by left.
by case: (r == j) / eqP => [->|_]; [left|right].
Qed.

Lemma exch_small : forall i j k, (j <= i)%N -> (k < j)%N -> exch i j k = k.
Proof.
move=> i j k ji kj; rewrite /exch (ltn_eqF (leq_trans kj ji)) (ltn_eqF kj) //.
Qed.

Lemma prod_exch : forall a b i j r c, (j <= i)%N -> (c < j)%N ->
  (forall r k, (k <= c)%N -> b r k = a (exch i j r) k) -> prod b r c = prod a (exch i j r) c.
Proof.
move=> a b i j r c ji cj H; rewrite /prod.
have -> : minn (exch i j r) c = minn r c.
  case: (exch_cases r ji) => [[r1 r2]|->] //.
  by rewrite !(minn_idPr _) // ltnW // (leq_trans cj).
have -> : (exch i j r <= c)%N = (r <= c)%N.
  case: (exch_cases r ji) => [[r1 r2]|->] //.
  by rewrite leqNgt (leq_trans cj r2) leqNgt (leq_trans cj r1).
rewrite !H // (exch_small ji cj); congr (_ + _).
apply: eq_big_nat => k /andP [_]; rewrite leq_min => /andP [_ kc].
by rewrite !H ?(ltnW kc) // (exch_small ji (ltn_trans kc cj)).
Qed.

Definition inv n A j (st : mat S * vec S * num S * nat) : Prop :=
  exists s : 'S_n, st.1.2 = (-1) ^+ s /\
  (forall (r : 'I_n) c, (c < n)%N ->
     A (s r) c = if (c < j)%N then prod st.1.1.1 r c else st.1.1.1 r c) /\
  (forall i, (i < n)%N -> 0 < st.1.1.2 i :> F).

Lemma column : forall n A j st, (j < n)%N -> inv n A j st ->
  match det_column S n j st with
  | Some st' => inv n A j.+1 st'
  | None => \det (mx n A) = 0
  end.
Proof.
move=> n A j [[[a vv] d] imax0] jn [s [/= Hd [Ha Hv]]].
rewrite /det_column.
have := upper_part a j; set a1 := loop 0 j _ a => -[U1 U2].
have := lower_part a1 imax0 jn Hv; set st2 := loop j n _ _.
case: st2 => [[a2 imax] big] /= [L1 [L2 [L3 L4]]].
have [ji im] := andP L3.
have same : forall r c, (c != j) -> a2 r c = a r c.
  by move=> r c cj; rewrite L1 ?cj // U1 ?cj.
have col : forall r, (r < n)%N -> a r j = \sum_(0 <= k < minn r j) a2 r k * a2 k j + a2 r j.
  move=> r rn; case: (ltnP r j) => rj.
    rewrite U2 // L1 ?rj ?orbT //; congr (_ + _).
    apply: eq_big_nat => k /andP [_ kr].
    by rewrite !L1 ?rj ?(ltn_trans kr rj) ?orbT.
  rewrite -L2 ?rj // U1 // rj orbT //.
have pr : forall r c, (c < j)%N -> prod a2 r c = prod a r c.
  by move=> r c cj; apply: prod_ext => i k kc; rewrite same // ltn_eqF // (leq_ltn_trans kc).
pose i0 : 'I_n := Ordinal im; pose j0 : 'I_n := Ordinal jn.
pose s' : 'S_n := (tperm i0 j0 * s)%g.
set st3 := (if Nat.eqb j imax then _ else _).
pose a3 := st3.1.1; pose vv3 := st3.1.2; pose d3 := st3.2.
have -> : st3 = (a3, vv3, d3) by rewrite /a3 /vv3 /d3 -!surjective_pairing.
have E3 : forall r c, (c < n)%N -> a3 r c = a2 (exch imax j r) c.
  move=> r c cn; rewrite /a3 /st3 eqbE; case: (j == imax) / eqP => [<-|_] /=.
    by rewrite /exch; case: (r == j) / eqP => [->|].
  by rewrite swap_rowsE cn.
have V3 : forall i, (i < n)%N -> 0 < vv3 i.
  move=> i ii; rewrite /vv3 /st3; case: (Nat.eqb j imax) => /=; first exact: Hv.
  by rewrite setvE; case: (i == imax); apply: Hv.
have D3 : d3 = (-1) ^+ s'.
  rewrite /d3 /st3 eqbE /s' odd_permM odd_tperm -val_eqE /= eq_sym Hd.
  by case: (imax == j) => //=; rewrite signrN.
case: (a3 j j == 0) / eqP => [z|nz].
  have z2 : a2 imax j = 0.
    by move: z; rewrite E3 // /exch eqxx; case: eqP => [<-|].
  apply: (@singular F n s A a2 j) => // [r c cj|r].
    by rewrite Ha ?(ltn_trans cj jn) // cj pr.
  rewrite Ha // ltnn col //; congr (_ + _); case: ltnP => // rj.
  by apply: L4 => //; rewrite rj /=.
set a4 := (X in inv _ _ _ (X, vv3, d3, imax)).
have E4 : forall r c, (r < n)%N -> a4 r c = if (c == j) && (j < r)%N then a3 r j / a3 j j else a3 r c.
  move=> r c rn; rewrite /a4 -[X in if X then _ else _]/(Nat.eqb j.+1 n) eqbE; case: (j.+1 == n) / eqP => [e|_].
    by rewrite ltnNge -ltnS e rn andbF.
  set body := (fun i a => _).
  pose P m (b : mat S) := forall r c,
    b r c = if (c == j) && (j < r < m)%N then a3 r j / a3 j j else a3 r c.
  have : P n (loop j.+1 n body a3).
    apply: (loopP (P := P)) => //.
      by move=> r' c'; rewrite ltnS [(r' <= j)%N]leqNgt andbN andbF.
    move=> m b /andP [jm mn] H r' c'; rewrite /body setE !H eqxx ltnn andbF.
    rewrite [(r' < m.+1)%N]ltnS [(r' <= m)%N]leq_eqVlt.
    case: (r' == m) / eqP => [->|] /=.
      by rewrite jm andbT; case: (c' == j) / eqP => [->|//]; rewrite div1r.
    by rewrite andbC.
  by move=> H; rewrite H rn andbT.
exists s'; split=> //=; split=> // r c cn.
have As : A (s' r) c = A (s (tperm i0 j0 r)) c by rewrite permM.
have Er : (tperm i0 j0 r : nat) = exch imax j r by rewrite exch_ord.
have p4 : forall i k, (i < n)%N -> (k < j)%N -> a4 i k = a2 (exch imax j i) k.
  by move=> i k ii kj; rewrite E4 // (ltn_eqF kj) /= E3 ?(ltn_trans kj jn).
rewrite As Ha // ltnS [(c <= j)%N]leq_eqVlt.
case: (ltngtP c j) => [cj|cj|cE] /=.
- have -> : prod a4 r c = prod a3 r c.
    rewrite /prod; have jr := ltn_ord r.
    have -> : \sum_(0 <= k < minn r c) a4 r k * a4 k c = \sum_(0 <= k < minn r c) a3 r k * a3 k c.
      apply: eq_big_nat => k /andP [_]; rewrite leq_min => /andP [kr kc].
      by rewrite !E4 ?(ltn_trans kr jr) // (ltn_eqF cj) (ltn_eqF (ltn_trans kc cj)).
    by rewrite !E4 // (ltn_eqF cj).
  rewrite (prod_exch (a := a2) (b := a3) _ ji cj); last by move=> i k kc; rewrite E3 // (leq_ltn_trans kc).
  by rewrite pr // Er.
- by rewrite E4 // (gtn_eqF cj) /= Er E3 // same ?(gtn_eqF cj).
subst c; have rn : (exch imax j r < n)%N by rewrite -Er.
rewrite Er col // /prod.
have mE : minn (exch imax j r) j = minn r j.
  case: (exch_cases r ji) => [[r1 r2]|->] //.
  by rewrite (minn_idPr r2) (minn_idPr r1).
rewrite mE; congr (_ + _).
  apply: eq_big_nat => k /andP [_]; rewrite leq_min => /andP [kr kj].
  have kn := ltn_trans kj jn.
  rewrite p4 // [a4 k j]E4 // [(j < k)%N]ltnNge (ltnW kj) andbF E3 // (exch_small ji kj) //.
rewrite !E4 // eqxx ltnn /= ltnNge; case: (leqP r j) => rj /=; first by rewrite E3.
by rewrite divfK; [rewrite E3|apply/eqP].
Qed.

Lemma scales : forall n A,
  match row_scales S n A with
  | Some vv => forall i, (i < n)%N -> 0 < vv i :> F
  | None => \det (mx n A) = 0
  end.
Proof.
move=> n A; rewrite /row_scales.
apply: (@loopoP _ (fun m (vv : vec S) => forall i, (i < m)%N -> 0 < vv i :> F)) => //.
move=> i vv /andP [_ im] H.
pose body := fun j (big : F) => if big < `|A i j| ^+ 2 then `|A i j| ^+ 2 else big.
have : 0 <= loop 0 n body 0 /\ forall j, (j < n)%N -> `|A i j| ^+ 2 <= loop 0 n body 0.
  apply: (@loopP _ (fun m (b : F) => 0 <= b /\ forall j, (j < m)%N -> `|A i j| ^+ 2 <= b)) => //.
  move=> m b _ [b0 Hb]; rewrite /body.
  have r1 : `|A i m| ^+ 2 \is Num.real by rewrite ger0_real // exprn_ge0.
  case: (real_ltP (ger0_real b0) r1) => cmp.
    split; first by rewrite exprn_ge0.
    move=> j; rewrite ltnS leq_eqVlt => /orP [/eqP ->//|/Hb le].
    by apply: le_trans le (ltW cmp).
  by split=> // j; rewrite ltnS leq_eqVlt => /orP [/eqP ->//|/Hb].
rewrite -/body -[loop 0 n _ _]/(loop 0 n body 0); set big := loop 0 n body 0 => -[b0 Hb].
rewrite [is_zero S _]/=; case: (big == 0) / eqP => [z|nz].
  rewrite (expand_det_row _ (Ordinal im)) big1 // => j _; rewrite mxE /=.
  have := Hb j (ltn_ord j); rewrite z => le.
  have : `|A i j| ^+ 2 = 0.
    by apply/eqP; rewrite eq_le exprn_ge0 // andbT.
  by move/eqP; rewrite expf_eq0 /= normr_eq0 => /eqP ->; rewrite mul0r.
move=> k; rewrite setvE ltnS leq_eqVlt; case: (k == i) / eqP => [_ _|_ /= ki]; last exact: H.
by apply: f_pos; rewrite lt_neqAle b0 andbT eq_sym; apply/eqP.
Qed.

Lemma crout : forall n A, det_lu S n A = \det (mx n A).
Proof.
move=> n A; rewrite /det_lu; have := scales n A.
case: (row_scales S n A) => [vv|] Hv; last by rewrite Hv.
have := @loopoP _ (inv n A) (\det (mx n A) = 0) 0%N n (det_column S n) (A, vv, 1, 0%N) (leq0n n).
case: (loopo _ _ _ _) => [[[[a vv'] d] imax]|] H; last first.
  rewrite H // => [|k t /andP [_ kn] I]; last exact: column.
  exists 1%g; rewrite odd_perm1; split=> //; split=> // r c cn; by rewrite perm1 ltn0.
have : inv n A n (a, vv', d, imax).
  apply: H => [|k t /andP [_ kn] I]; last exact: column.
  exists 1%g; rewrite odd_perm1; split=> //; split=> // r c cn; by rewrite perm1 ltn0.
case=> s [/= Hd [Ha _]].
rewrite (@det_factors F n s A a) => [|r c]; last by rewrite Ha // ltn_ord.
rewrite Hd -(big_mkord xpredT (fun i => a i i)).
pose P m (x : F) := x = (-1) ^+ s * \prod_(0 <= i < m) a i i.
suff : P n (loop 0 n (fun j ret => ret * a j j) ((-1) ^+ s)) by [].
apply: (loopP (P := P)) => //; first by rewrite /P big_geq // mulr1.
by move=> k t _ ->; rewrite /P big_nat_recr //= mulrA.
Qed.
End Crout.
