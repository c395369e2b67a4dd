(** The insertion sort. *)
Set Warnings "-notation-overridden,-ambiguous-paths".
From mathcomp Require Import all_ssreflect.
From Verif Require Import LinalgModel LinalgProofs1 LinalgProofs4 SortModel SortSpec.
Set Implicit Arguments.
Unset Strict Implicit.
Unset Printing Implicit Defensive.

Lemma swapvE : forall T (v : nat -> T) i j k,
  swapv v i j k = v (if k == j then i else if k == i then j else k).
Proof.
move=> T v i j k; rewrite /swapv !setvE; case: eqP => // _.
by case: eqP.
Qed.

Definition exch2 (i j k : nat) := if k == j then i else if k == i then j else k.

Lemma exchK : forall i j k, exch2 i j (exch2 i j k) = k.
Proof.
move=> i j k; rewrite /exch2; case: (k =P j) => [->|kj].
  by case: (i =P j) => [->|_] //; rewrite eqxx.
case: (k =P i) => [->|ki]; first by rewrite eqxx.
by move/eqP: kj => /negbTE ->; move/eqP: ki => /negbTE ->.
Qed.

Lemma swap_permutes : forall N p i j, i < N -> j < N -> permutes N p -> permutes N (swapv p i j).
Proof.
move=> N p i j iN jN [R I]; split.
  move=> k kN; rewrite swapvE; apply: R.
  by case: eqP => // _; case: eqP.
move=> k l kN lN; rewrite !swapvE.
have B : forall m, m < N -> (if m == j then i else if m == i then j else m) < N.
  by move=> m mN; case: eqP => // _; case: eqP.
move/(I _ _ (B k kN) (B l lN)).
by move=> E; rewrite -(exchK i j k) -(exchK i j l) /exch2 E.
Qed.

Lemma sink_permutes : forall T (wrong : T -> T -> bool) c N j p, j < N -> permutes N p ->
  permutes N (sink wrong c j p).
Proof.
move=> T wrong c N; elim=> // j IH p jN H /=; case: (wrong _ _) => //.
by apply: IH; [exact: ltnW|apply: swap_permutes => //; exact: ltnW].
Qed.

Lemma sink_frame : forall T (wrong : T -> T -> bool) c j p k, j < k -> sink wrong c j p k = p k.
Proof.
move=> T wrong c; elim=> // j IH p k jk /=; case: (wrong _ _) => //.
rewrite IH; last exact: ltnW.
by rewrite swapvE !gtn_eqF // ltnW.
Qed.

Section Order.
Variables (T : Type) (wrong : T -> T -> bool) (c : nat -> T).
Hypothesis W : weak_order (fun a b => wrong (c a) (c b)).

(** [wrong x y]: x must not stand before y. *)
Definition rank (a b : nat) : bool := wrong (c b) (c a) || ~~ wrong (c a) (c b) && (a < b).

Lemma rank_trans : forall a b d, rank a b -> rank b d -> rank a d.
Proof.
case: W => Irr Tr Neg a b d; rewrite /rank.
case Eba: (wrong (c b) (c a)) => /=.
  case Edb: (wrong (c d) (c b)) => /=; first by rewrite (Tr d b a Edb Eba).
  move=> _ /andP [Nbd _]; have := Neg _ d _ Eba.
  by rewrite (negbTE Nbd) /= => ->.
case/andP=> Nab ab; case Edb: (wrong (c d) (c b)) => /=.
  move=> _; have := Neg _ a _ Edb; by rewrite (negbTE Nab) orbF => ->.
case/andP=> Nbd bd; rewrite (ltn_trans ab bd) andbT.
case: (wrong (c d) (c a)) => //=; apply/negP => Ead.
by have := Neg _ b _ Ead; rewrite (negbTE Nab) (negbTE Nbd).
Qed.

Lemma sink_sorts : forall i j p, j <= i ->
  (forall k, k <= i -> k != j -> p k < i) -> p j = i ->
  (forall k l, k < l <= i -> k != j -> l != j -> rank (p k) (p l)) ->
  (forall l, j < l <= i -> rank (p j) (p l)) ->
  forall k l, k < l <= i -> rank (sink wrong c j p k) (sink wrong c j p l).
Proof.
move=> i; elim=> [|j IH] p ji Hlt Hj H1 H2 /=.
  move=> k l /andP [kl li]; case: (posnP k) => [k0|k0]; first by rewrite k0; apply: H2; rewrite -{1}k0 kl li.
  by apply: H1; rewrite ?kl ?li // -lt0n // (leq_trans k0) // ltnW.
case E: (wrong _ _).
  have J1 : (j == j.+1) = false by rewrite ltn_eqF.
  have J2 : (j.+1 == j) = false by rewrite gtn_eqF.
  apply: IH.
  - exact: ltnW.
  - move=> k ki kj; rewrite swapvE (negbTE kj); case: eqP => [_|/eqP kj'].
      by apply: Hlt; rewrite ?J1 // ltnW.
    by apply: Hlt.
  - by rewrite swapvE eqxx.
  - move=> k l /andP [kl li] kj lj; rewrite !swapvE (negbTE kj) (negbTE lj).
    case: (k =P j.+1) => [Ek|/eqP kj']; case: (l =P j.+1) => [El|/eqP lj'].
    + by move: kl; rewrite Ek El ltnn.
    + by apply: H1; rewrite ?J1 // li andbT; move: kl; rewrite Ek => /ltnW.
    + by apply: H1; rewrite ?J1 // [j <= i]ltnW // andbT ltn_neqAle kj -ltnS -El.
    by apply: H1; rewrite ?kl ?li.
  move=> l /andP [jl li]; rewrite !swapvE eqxx (gtn_eqF jl).
  case: (l =P j.+1) => [_|/eqP lj].
    by rewrite /rank E.
  by apply: H2; rewrite li andbT ltn_neqAle eq_sym lj.
have S0 : rank (p j) (p j.+1).
  by rewrite /rank E /= Hj Hlt ?orbT // ?ltn_eqF // ltnW.
move=> k l /andP [kl li].
case: (l =P j.+1) => [El|/eqP lj].
  rewrite El; case: (k =P j) => [->|/eqP kj] //; apply: rank_trans S0.
  apply: H1; rewrite ?(ltn_eqF (ltnSn j)) //.
    by rewrite [j <= i]ltnW // andbT ltn_neqAle kj -ltnS -El.
  by rewrite neq_ltn -El kl.
case: (k =P j.+1) => [Ek|/eqP kj]; last by apply: H1; rewrite ?kl.
by rewrite Ek; apply: H2; rewrite -Ek kl.
Qed.

End Order.

Section Sort.
Variables (T : Type) (less : T -> T -> bool) (fresh : T).

Lemma permuteE : forall N p (c : nat -> T) i, i < N -> permute fresh N p c i = c (p i).
Proof.
move=> N p c i; rewrite /permute.
pose P k (r : nat -> T) := forall i, i < k -> r i = c (p i).
have G : P N (loop 0 N (fun i res => setv res i (c (p i))) (fun _ => fresh)).
  apply: (loopP (P := P)) => // k r _ H j; rewrite setvE ltnS leq_eqVlt.
  by case: eqP => [->|_] //=; exact: H.
exact: G.
Qed.

Lemma weak_at : forall (c : nat -> T), weak_order less -> weak_order (fun a b => less (c a) (c b)).
Proof. by move=> c [Irr Tr Neg]; split=> [a|a b d|a b d]; [exact: Irr|exact: Tr|exact: Neg]. Qed.

Lemma initE : forall N p i, i < N -> loop 0 N (fun i p => setv p i i) p i = i.
Proof.
move=> N p; pose P k (r : nat -> nat) := forall i, i < k -> r i = i.
have G : P N (loop 0 N (fun i p => setv p i i) p).
  apply: (loopP (P := P)) => // k r _ H j; rewrite setvE ltnS leq_eqVlt.
  by case: eqP => [->|_] //=; exact: H.
exact: G.
Qed.

Definition wrong (ord : order) : T -> T -> bool :=
  match ord with ascending => fun x y => less y x | _ => less end.

Lemma sort_permutes : forall N ord (c : nat -> T) p, permutes N (sort less fresh N ord c p).2.
Proof.
move=> N ord c p; rewrite /sort.
have I : permutes N (loop 0 N (fun i p => setv p i i) p).
  by split=> [i iN|i j iN jN]; rewrite !initE.
case: ord => //=; case: (posnP N) => [N0|N0]; try by move: I; rewrite N0 => I; rewrite loop_nil.
  by apply: (loopP (P := fun _ => permutes N)) => // k r /andP [_ kN] H; exact: sink_permutes.
by apply: (loopP (P := fun _ => permutes N)) => // k r /andP [_ kN] H; exact: sink_permutes.
Qed.

Lemma sort_loop : forall wr N (c : nat -> T) p, weak_order (fun a b => wr (c a) (c b)) -> permutes N p -> (forall i, i < N -> p i = i) ->
  forall i j, i < j < N -> 
    rank wr c (loop 1 N (fun i p => sink wr c i p) p i) (loop 1 N (fun i p => sink wr c i p) p j).
Proof.
move=> wr N c p W _ Id; case: (posnP N) => [->|N0]; first by move=> i j; rewrite ltn0 andbF.
pose P m (q : nat -> nat) := [/\ permutes m q, forall i, m <= i < N -> q i = i &
  forall i j, i < j < m -> rank wr c (q i) (q j)].
suff [] : P N (loop 1 N (fun i p => sink wr c i p) p) by [].
apply: (loopP (P := P)) => //.
  split=> [|i /andP [_ iN]|i j /andP [ij j1]]; try exact: Id.
    by split=> [i i1|i j i1 j1]; rewrite ?Id ?(leq_trans i1) ?(leq_trans j1).
  by move: j1 ij; rewrite ltnS leqn0 => /eqP ->.
move=> m q /andP [m0 mN] [[R I] Fr Srt].
have Pm : permutes m.+1 q.
  split=> [i|i j].
    rewrite ltnS leq_eqVlt => /orP [/eqP ->|im]; first by rewrite Fr ?leqnn.
    by apply: ltn_trans (R i im) _.
  rewrite !ltnS (leq_eqVlt i) (leq_eqVlt j) => /orP [/eqP ->|im] /orP [/eqP ->|jm] //.
  - by rewrite Fr ?leqnn // => E; have := R j jm; rewrite -E ltnn.
  - by rewrite (Fr m) ?leqnn // => E; have := R i im; rewrite E ltnn.
  exact: I.
split; first exact: sink_permutes.
  move=> i /andP [mi iN]; rewrite sink_frame // Fr // iN andbT; exact: ltnW.
move=> i j; rewrite ltnS; apply: sink_sorts => //.
- by move=> k km kn; apply: R; rewrite ltn_neqAle kn.
- by rewrite Fr // leqnn.
- by move=> k l /andP [kl lm] km ln; apply: Srt; rewrite kl ltn_neqAle ln.
by move=> l /andP [ml lm]; move: (leq_trans ml lm); rewrite ltnn.
Qed.

Lemma weak_flip : forall (U : Type) (lt : U -> U -> bool), weak_order lt -> weak_order (fun x y => lt y x).
Proof.
move=> U lt.
case=> Irr Tr Neg; split=> // [x y z H1 H2|x y z H]; first exact: Tr H2 H1.
by rewrite orbC; exact: Neg.
Qed.

Lemma sort_sorted : forall N ord (c : nat -> T) p, weak_order (fun a b => less (c a) (c b)) -> ord <> unsorted ->
  forall i j, i < j < N ->
  in_order less ord c ((sort less fresh N ord c p).2 i) ((sort less fresh N ord c p).2 j).
Proof.
move=> N ord c p W; rewrite /sort.
set p0 := loop 0 N _ p.
have Id : forall i, i < N -> p0 i = i by move=> i; exact: initE.
have P0 : permutes N p0 by split=> [i iN|i j iN jN]; rewrite !Id.
case: ord => // _ i j ij.
  exact: (@sort_loop (fun x y => less y x) _ c _ (weak_flip W) P0 Id _ _ ij).
exact: (@sort_loop less _ c _ W P0 Id _ _ ij).
Qed.

Lemma in_order_rel : forall ord (c : nat -> T), weak_order (fun a b => less (c a) (c b)) ->
  transitive (in_order less ord c) /\ antisymmetric (in_order less ord c).
Proof.
move=> ord c W.
suff G : forall wr, weak_order (fun a b => wr (c a) (c b)) -> transitive (rank wr c) /\ antisymmetric (rank wr c).
  by case: ord; [exact: (G less)|exact: (G (fun x y => less y x) (weak_flip W))|exact: (G less)].
move=> wr Wr; split=> [b a d|a b]; first exact: rank_trans.
case: Wr => Irr Tr _; rewrite /rank.
case Eba: (wr (c b) (c a)); case Eab: (wr (c a) (c b)) => //=.
- by have := Irr a; rewrite (Tr a b a Eab Eba).
by move=> /andP [ab ba]; move: (ltn_trans ab ba); rewrite ltnn.
Qed.

Lemma sort_values : forall N ord (c : nat -> T) p i, i < N ->
  (sort less fresh N ord c p).1 i = c ((sort less fresh N ord c p).2 i).
Proof.
move=> N ord c p i iN; rewrite /sort; case: ord => /=; last 2 first.
- exact: permuteE.
- exact: permuteE.
by rewrite initE.
Qed.

End Sort.
