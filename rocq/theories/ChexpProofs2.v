(** The parts of chexp. *)
Set Warnings "-notation-overridden,-ambiguous-paths".
From mathcomp Require Import all_ssreflect all_algebra all_fingroup.
From Coq Require List.
From Coq Require Import Lia.
From Verif Require Import LinalgModel LinalgSpec LinalgProofs1 LinalgProofs2 LinalgProofs3
  LinalgProofs4 MatrixModel MatrixSpec MatrixProofs1 MatrixProofs2 ChexpModel ChexpProofs1.
Set Implicit Arguments.
Unset Strict Implicit.
Unset Printing Implicit Defensive.
Import Order.TTheory GRing.Theory Num.Theory.
Local Open Scope ring_scope.

(** ** Loops *)

Lemma sub1E : forall i, PeanoNat.Nat.sub i 1 = i.-1.
Proof. by case=> //= i; rewrite PeanoNat.Nat.sub_0_r. Qed.

Lemma downP : forall (X : Type) (P : nat -> X -> Prop) n body s, P n.+1 s ->
  (forall k t, (0 < k <= n)%N -> P k.+1 t -> P k (body k t)) -> P 1%N (down n.+1 body s).
Proof.
move=> X P n body s P0 step; rewrite /down sub1E /=.
have G : forall c k, (k + c = n.+1)%N -> (0 < k)%N ->
    P k (List.fold_left (fun s i => body i s) (List.rev (List.seq k c)) s).
  elim=> [|c IH] k E k0; first by rewrite addn0 in E; rewrite E.
  rewrite seq_rev List.fold_left_app /=; apply: step.
    by rewrite k0 /=; move: (leq_addr c k); rewrite -ltnS -addnS E.
  by apply: IH => //; rewrite addSnnS.
by apply: G.
Qed.

Local Arguments MatrixModel.of_nat : simpl never.

Section Parts.
Variables (F : numFieldType) (f : F -> F) (u : F) (n : nat).
Notation S := (field_scalars f u).
Notation mm := (mxr n.+1 n.+1).
Implicit Types (a b : nat -> nat -> F) (v w al pal trpl crpl : nat -> F).

(** ** Scaling *)

Lemma scalingE : forall sclim fuel x s nb s' nb',
  scaling S sclim fuel x s nb = Some (s', nb') ->
  [/\ (nb <= nb')%N, s' * 2%:R ^+ (nb' - nb) = s & ~~ (sclim <= x * s')].
Proof.
move=> sclim; elim=> [|fuel IH] x s nb s' nb' //=.
case: ifP => L.
  case/IH=> nn E L'; split=> //; first exact: ltnW.
  rewrite -(subnSK nn) exprSr mulrA E /half /= -mulrA mul1r mulVf ?mulr1 //.
  by rewrite -[1 + 1]/(2%:R) pnatr_eq0.
by case=> <- <-; split; rewrite ?subnn ?expr0 ?mulr1 // L.
Qed.

(** ** Powers and traces *)

Lemma powersE : forall a s, (0 < n)%N ->
  let '(pl, trpl) := powers S n.+1 a s in
  (forall i, (0 < i <= n)%N -> mm (pl i) = (s *: mm a) ^+ i)
  /\ (forall i, (i <= n.+1)%N -> trpl i = \tr ((s *: mm a) ^+ i)).
Proof.
move=> a s n0; rewrite /powers.
set A := s *: mm a.
pose P k (st : (nat -> mat S) * vec S) :=
  (forall i, (0 < i < k)%N -> mm (st.1 i) = A ^+ i) /\ (forall i, (i < k)%N -> st.2 i = \tr (A ^+ i)).
set pl0 := setv _ 1%N (scale _ _ _ _ _).
set tr0 := setv _ 1%N (trace _ _ _).
have E1 : mm (pl0 1%N) = A.
  by rewrite /pl0 setvE eqxx scaleE setvE eqxx.
have H0 : P 2%N (pl0, tr0).
  split=> /=; first by move=> [|[|i]] //= _; rewrite E1 expr1.
  move=> [|[|i]] //= _.
    by rewrite /tr0 setvE /= setvE /= expr0 mxtrace1 (of_natE f u n.+1).
  by rewrite /tr0 setvE /= traceE E1 expr1.
have half_lt : forall i, (1 < i)%N -> (0 < PeanoNat.Nat.div i 2)%N
    /\ (PeanoNat.Nat.div i 2 + PeanoNat.Nat.modulo i 2 < i)%N
    /\ (PeanoNat.Nat.div i 2 + (PeanoNat.Nat.div i 2 + PeanoNat.Nat.modulo i 2) = i)%N.
  move=> i /ssrnat.leP i1; have D := PeanoNat.Nat.div_mod i 2; have M := PeanoNat.Nat.mod_upper_bound i 2.
  by rewrite -!plusE; split; last split; [apply/ssrnat.ltP; lia | apply/ssrnat.ltP; lia | lia].
have [|st1 st2] := @loopP _ P 2 n.+1 (fun i st =>
      let '(pl, trpl) := st in
      let j := PeanoNat.Nat.div i 2 in
      let k := PeanoNat.Nat.modulo i 2 in
      let pl := setv pl i (MatrixModel.mult S n.+1 n.+1 n.+1 (fun _ => pl j) (fun _ => pl (Nat.add j k)) (pl i)) in
      (pl, setv trpl i (trace S n.+1 (pl i)))) (pl0, tr0) n0 H0.
  move=> k [pl tr] /andP [k2 kn] [H1 H2]; have [h1 [h2 h3]] := half_lt k k2.
  pose pk := MatrixModel.mult S n.+1 n.+1 n.+1 (fun _ => pl (PeanoNat.Nat.div k 2))
    (fun _ => pl (Nat.add (PeanoNat.Nat.div k 2) (PeanoNat.Nat.modulo k 2))) (pl k).
  rewrite -/pk.
  have Ek : mm pk = A ^+ k.
    rewrite /pk multE // -/mm !H1 ?h1 //=.
    + by rewrite mulmxE -exprD h3.
    + by rewrite h2 andbT (leq_trans h1) // leq_addr.
    by rewrite (leq_trans _ h2) // ltnS leq_addr.
  split=> i /=.
    by case/andP=> i0; rewrite setvE ltnS leq_eqVlt; case: eqP => [-> _|_ /= ik] //; apply: H1; rewrite i0.
  rewrite setvE ltnS leq_eqVlt; case: eqP => [-> _|_ /= ik]; last exact: H2.
  by rewrite setvE eqxx traceE Ek.
set st := loop _ _ _ _ in st1 st2 *; case: st st1 st2 => pl tr /= st1 st2.
have [h1 [h2 h3]] := half_lt n.+1 n0.
split=> i; first by move=> /andP [i0 i1]; apply: st1; rewrite i0 ltnS.
rewrite setvE leq_eqVlt; case: eqP => [-> _|_ /= ik]; last exact: st2.
rewrite mul_traceE !st1 ?h1 //.
+ by rewrite mulmxE -exprD h3.
+ by rewrite h2 andbT (leq_trans h1) // leq_addr.
by rewrite (leq_trans _ h2) // ltnS leq_addr.
Qed.

(** ** The characteristic polynomial *)

Lemma coefficientsE : forall (A : 'M[F]_n.+1) trpl,
  (forall i, (i <= n.+1)%N -> trpl i = \tr (A ^+ i)) ->
  forall i, (i <= n.+1)%N -> coefficients S n.+1 trpl i = (char_poly A)`_i.
Proof.
move=> A trpl H; rewrite /coefficients.
pose P k (c : vec S) := forall i, (n.+1 < i + k)%N && (i <= n.+1)%N -> c i = (char_poly A)`_i.
have G : forall k c, (0 < k <= n.+1)%N -> P k c -> forall m, (0 < m <= k)%N -> forall x,
    loop 1 m (fun i crpl =>
        setv crpl (n.+1 - k)%N (sub S (crpl (n.+1 - k)%N) (mul S (crpl (n.+1 - (k - i))%N) (trpl i))))
      (setv c (n.+1 - k)%N (opp S (trpl k))) x
    = if x == (n.+1 - k)%N
      then - trpl k - \sum_(1 <= i < m) (char_poly A)`_(n.+1 - k + i) * trpl i else c x.
  move=> k c /andP [k0 kn] H1 m /andP [m0 mk].
  pose Q m (c' : vec S) := forall x, c' x = if x == (n.+1 - k)%N
      then - trpl k - \sum_(1 <= i < m) (char_poly A)`_(n.+1 - k + i) * trpl i else c x.
  apply: (loopP (P := Q)) => //.
    by move=> x; rewrite setvE big_geq // subr0.
  move=> i c' /andP [i0 im] H2 x; rewrite setvE !H2 eqxx.
  have ik : (i <= k)%N by apply: leq_trans mk; apply: ltnW.
  have E : (n.+1 - (k - i) = n.+1 - k + i)%N by rewrite subnBA // addnC -addnBA // addnC.
  have -> : (n.+1 - (k - i) == n.+1 - k)%N = false.
    by rewrite E -[RHS](gtn_eqF i0) -{2}(addn0 (n.+1 - k)%N) eqn_add2l.
  case: (x == _) => //; rewrite big_nat_recr //= opprD addrA; congr (_ - _ * _).
  rewrite E H1 //; apply/andP; split; first by rewrite addnAC subnK // -{1}(addn0 n.+1) ltn_add2l.
  by rewrite -E leq_subr.
have : P n.+2 (loop 1 n.+2 (fun j crpl =>
    let crpl := setv crpl (n.+1 - j)%N (opp S (trpl j)) in
    let crpl := loop 1 j (fun i crpl =>
        setv crpl (n.+1 - j)%N (sub S (crpl (n.+1 - j)%N)
          (mul S (crpl (n.+1 - (j - i))%N) (trpl i)))) crpl in
    setv crpl (n.+1 - j)%N (div S (crpl (n.+1 - j)%N) (of_nat S j))) (setv (freshv S) n.+1 (one S))).
  apply: (loopP (P := P)) => //.
    by move=> i; rewrite addn1 ltnS -eqn_leq => /eqP <-; rewrite setvE eqxx p_lead.
  move=> k c /andP [k0 kn] H1 i; cbv zeta; rewrite setvE !(G k c) ?k0 ?leqnn //= eqxx.
  case: eqP => [-> _|ne /andP [i1 i2]]; last first.
    apply: H1; rewrite i2 andbT ltn_neqAle; apply/andP; split; last by rewrite -ltnS -addnS.
    by apply/eqP => E; apply: ne; rewrite E addnK.
  have k0' : k%:R != 0 :> F by rewrite pnatr_eq0 -lt0n.
  apply: (mulIf k0'); rewrite (of_natE f u k) divfK // mulr_natr newton // big_nat_recr //=.
  rewrite subnK // p_lead mul1r opprD addrC (H k) //; congr (_ - _).
  rewrite !big_nat; congr (- _); apply: eq_bigr => j /andP [j0 jk].
  by rewrite H // ltnW // (leq_trans jk) // ltnW.
by move=> R i ik; apply: R; rewrite ik andbT addnS ltnS leq_addl.
Qed.

(** ** Polynomials of the matrix *)

Definition ev (A : 'M[F]_n.+1) (v : nat -> F) : 'M[F]_n.+1 := \sum_(i < n.+1) v i *: A ^+ i.

Lemma ev_shift : forall A v w r,
  (forall i, (i <= n)%N ->
     w i = (if i is k.+1 then v k * r else 0) - v n * r * (char_poly A)`_i) ->
  ev A w = r *: (ev A v * A).
Proof.
move=> A v w r W.
have -> : ev A w = \sum_(i < n.+1) (if (i : nat) is k.+1 then v k * r else 0) *: A ^+ i
    - (v n * r) *: \sum_(i < n.+1) (char_poly A)`_i *: A ^+ i.
  rewrite scaler_sumr -sumrB; apply: eq_bigr => i _.
  by rewrite W -1?ltnS // scalerBl scalerA.
have := cayley_hamilton A; rewrite big_ord_recr /= p_lead scale1r => /eqP.
rewrite addr_eq0 => /eqP ->.
rewrite scalerN opprK big_ord_recl scale0r add0r /ev big_ord_recr /= mulrDl scalerDr; congr (_ + _).
  rewrite mulr_suml scaler_sumr; apply: eq_bigr => i _.
  by rewrite -scalerAl scalerA -exprSr /= /bump add1n mulrC.
by rewrite -scalerAl scalerA -exprSr mulrC.
Qed.

Lemma initialE : forall A, let '(al, pal, wpf, _) := initial S n.+1 in
  [/\ ev A al = exp_series A n, ev A pal = A ^+ n & wpf = (n.+1`!%:R)^-1].
Proof.
move=> A; rewrite /initial.
pose P k (st : vec S * vec S * F * F) := let '(al, pal, wpf, _) := st in
  [/\ forall i, (i < k)%N -> al i = (i`!%:R)^-1, forall i, (i < k)%N -> pal i = 0 & wpf = (k`!%:R)^-1].
have : P n.+1 (loop 0 n.+1 (fun i st =>
      let '(al, pal, wpf, twpf) := st in
      let pal := setv pal i (zero S) in
      let al := setv al i wpf in
      let wpf := div S wpf (of_nat S (Nat.succ i)) in
      (al, pal, wpf, add S twpf wpf)) (freshv S, freshv S, one S, one S)).
  apply: (loopP (P := P)) => //; first by split=> //; rewrite fact0 invr1.
  move=> k [[[al pal] wpf] tw] _ [H1 H2 H3]; split=> [i|i|].
  - by rewrite ltnS leq_eqVlt setvE; case: eqP => [-> _|_ /= ik]; [rewrite H3 | exact: H1].
  - by rewrite ltnS leq_eqVlt setvE; case: eqP => [-> _|_ /= ik]; [ | exact: H2].
  by rewrite [div _ _ _]/= (of_natE f u k.+1) H3 factS natrM invfM mulrC.
case: (loop _ _ _ _) => [[[al pal] wpf] tw] [H1 H2 H3]; split=> //.
  by rewrite /ev /exp_series; apply: eq_bigr => i _; rewrite H1.
rewrite sub1E /ev big_ord_recr /= setvE eqxx scale1r big1 ?add0r // => i _.
by rewrite setvE (ltn_eqF (ltn_ord i)) H2 ?scale0r // ltnS ltnW.
Qed.

(** ** One step of the iteration *)

Lemma step_down : forall v al crpl cho rs wpf,
  let '(al', pal', _) := down n.+1 (fun i st =>
      let '(al, pal, s) := st in
      let pal := setv pal i (sub S (mul S (pal (PeanoNat.Nat.sub i 1)) rs) (mul S cho (crpl i))) in
      let s := add S s (squarenorm S (pal i)) in
      (setv al i (add S (al i) (mul S wpf (pal i))), pal, s)) (al, v, zero S) in
  (forall i, pal' i = if (0 < i <= n)%N then v i.-1 * rs - cho * crpl i else v i)
  /\ (forall i, al' i = if (0 < i <= n)%N then al i + wpf * pal' i else al i).
Proof.
move=> v al crpl cho rs wpf.
set body := (fun (i : nat) (st : _ * _ * _) => _).
pose P k (st : vec S * vec S * F) :=
  (forall i, st.1.2 i = if (k <= i <= n)%N then v i.-1 * rs - cho * crpl i else v i)
  /\ (forall i, st.1.1 i = if (k <= i <= n)%N then al i + wpf * st.1.2 i else al i).
have : P 1%N (down n.+1 body (al, v, zero S)).
  apply: downP; first by split=> i /=; rewrite ltnNge andbC; case: (i <= n)%N.
  move=> k [[al1 pal1] s1] /andP [k0 kn] [/= H1 H2].
  have C : forall i, (k <= i <= n)%N = (i == k) || (k < i <= n)%N.
    by move=> i; rewrite [(k <= i)%N]leq_eqVlt eq_sym; case: eqP => [->|] //=; rewrite kn.
  split=> i /=; rewrite C !setvE ?eqxx sub1E; case: (i == k) / eqP => [->|] //=.
  - by rewrite H1 ltnNge leq_pred.
  - by rewrite H2 ltnn.
by case: (down _ _ _) => [[al' pal'] s'].
Qed.

End Parts.
