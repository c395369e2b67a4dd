(** Loops and the Laplace expansion. *)
Set Warnings "-notation-overridden,-ambiguous-paths".
From mathcomp Require Import all_ssreflect all_algebra.
From Coq Require List.
From Verif Require Import LinalgModel LinalgSpec.
Set Implicit Arguments.
Unset Strict Implicit.
Unset Printing Implicit Defensive.
Import GRing.Theory Num.Theory.
Local Open Scope ring_scope.

(** ** Loops *)

Lemma seqS : forall a n, List.seq a n.+1 = List.app (List.seq a n) [:: (a + n)%N].
Proof. by move=> a n; rewrite List.seq_S. Qed.

Lemma loopSr : forall S a b (body : nat -> S -> S) s, (a <= b)%N ->
  loop a b.+1 body s = body b (loop a b body s).
Proof.
move=> S a b body s ab; rewrite /loop.
have -> : (b.+1 - a)%coq_nat = (b - a)%N.+1 by rewrite -subSn.
have -> : (b - a)%coq_nat = (b - a)%N by [].
by rewrite seqS List.fold_left_app /= subnKC.
Qed.

Lemma loop_nil : forall S a b (body : nat -> S -> S) s, (b <= a)%N -> loop a b body s = s.
Proof.
move=> S a b body s ba; rewrite /loop.
have -> : (b - a)%coq_nat = 0%N by apply/eqP; rewrite subn_eq0.
by [].
Qed.

Lemma loopP : forall S (P : nat -> S -> Prop) a b body s, (a <= b)%N -> P a s ->
  (forall k t, (a <= k < b)%N -> P k t -> P k.+1 (body k t)) -> P b (loop a b body s).
Proof.
move=> S P a b body s ab Pa step.
have G : forall c, (a <= c)%N -> (c <= b)%N -> P c (loop a c body s).
  elim=> [|c IH] ac cb.
    by rewrite loop_nil //; move: ac Pa; rewrite leqn0 => /eqP ->.
  move: ac; rewrite leq_eqVlt => /orP [/eqP <-|ac]; first by rewrite loop_nil.
  rewrite loopSr //; apply: step; first by rewrite -ltnS ac.
  by apply: IH => //; exact: ltnW.
exact: G.
Qed.

Lemma loopoSr : forall S a b (body : nat -> S -> option S) s, (a <= b)%N ->
  loopo a b.+1 body s = match loopo a b body s with None => None | Some t => body b t end.
Proof.
move=> S a b body s ab; rewrite /loopo.
have -> : (b.+1 - a)%coq_nat = (b - a)%N.+1 by rewrite -subSn.
have -> : (b - a)%coq_nat = (b - a)%N by [].
by rewrite seqS List.fold_left_app /= subnKC.
Qed.

Lemma loopo_nil : forall S a b (body : nat -> S -> option S) s, (b <= a)%N ->
  loopo a b body s = Some s.
Proof.
move=> S a b body s ba; rewrite /loopo.
have -> : (b - a)%coq_nat = 0%N by apply/eqP; rewrite subn_eq0.
by [].
Qed.

(** [Q] holds when the loop is left early. *)
Lemma loopoP : forall S (P : nat -> S -> Prop) (Q : Prop) a b body s, (a <= b)%N -> P a s ->
  (forall k t, (a <= k < b)%N -> P k t ->
     match body k t with Some u => P k.+1 u | None => Q end) ->
  match loopo a b body s with Some u => P b u | None => Q end.
Proof.
move=> S P Q a b body s ab Pa step.
have G : forall c, (a <= c)%N -> (c <= b)%N ->
    match loopo a c body s with Some u => P c u | None => Q end.
  elim=> [|c IH] ac cb.
    by rewrite loopo_nil //; move: ac Pa; rewrite leqn0 => /eqP ->.
  move: ac; rewrite leq_eqVlt => /orP [/eqP <-|ac]; first by rewrite loopo_nil.
  rewrite loopoSr //; move: (IH ac (ltnW cb)); case: (loopo a c body s) => // t Pt.
  by apply: step => //; rewrite -ltnS ac.
exact: G.
Qed.

Lemma loop_downS : forall S b (body : nat -> S -> option S) s,
  loop_down b.+1 body s = match body b s with None => None | Some t => loop_down b body t end.
Proof.
move=> S b body s; rewrite /loop_down seqS List.rev_app_distr /= add0n.
case: (body b s) => //.
by elim: (List.rev _) => //= k l ->.
Qed.

Lemma loop_downP : forall S (P : nat -> S -> Prop) (Q : Prop) b body s, P b s ->
  (forall k t, (k < b)%N -> P k.+1 t -> match body k t with Some u => P k u | None => Q end) ->
  match loop_down b body s with Some u => P 0%N u | None => Q end.
Proof.
move=> S P Q b body; elim: b => [|b IH] s Ps step //.
rewrite loop_downS; move: (step b s (ltnSn b) Ps); case: (body b s) => // t Pt.
by apply: IH => // k u kb; apply: step; rewrite ltnS ltnW.
Qed.

(** ** Minors *)

Section Minor.
Variable S : scalars.

Lemma minor_row : forall m (bigger : mat S) col i ri (result : mat S), (col < m)%N ->
  forall r c,
  (loop 0 m (fun j st => let '(result, ci) := st in
       if Nat.eqb j col then st else (set S result ri ci (bigger i j), Nat.succ ci)) (result, 0%N)).1 r c
  = if (r == ri) && (c < m.-1)%N then bigger i (bump col c) else result r c.
Proof.
move=> m bigger col i ri result cm.
set body := (fun j st => _).
pose P j (st : mat S * nat) := st.2 = (j - (col < j))%N /\
    forall r c, st.1 r c = if (r == ri) && (c < j - (col < j))%N then bigger i (bump col c) else result r c.
have : P m (loop 0 m body (result, 0%N)).
  apply: (loopP (P := P)) => //.
    by split=> // r c; rewrite sub0n ltn0 andbF.
  move=> j [res ci] jm [/= -> H]; rewrite /body /P.
  case: (PeanoNat.Nat.eqb_spec j col) => [e|ne] /=.
    rewrite e ltnn subn0 in H *; rewrite ltnSn subSS subn0; by split.
  have jc : (j == col) = false by apply/eqP.
  have E : (j.+1 - (col < j.+1))%N = (j - (col < j)).+1.
    rewrite ltnS leq_eqVlt eq_sym jc /=.
    by case: (ltnP col j) => jl; rewrite ?subn0 // !subn1 /= prednK // (leq_ltn_trans _ jl).
  split=> [|r c]; first by rewrite E.
  rewrite /set /= E H.
  have eqbE : forall a b : nat, Nat.eqb a b = (a == b).
    by move=> a b; apply/PeanoNat.Nat.eqb_spec/eqP.
  rewrite !eqbE ltnS [(c <= _)%N]leq_eqVlt.
  case: (r == ri) => //=.
  case: eqP => //= ->; congr (bigger i _).
  rewrite /bump; case: (ltnP col j) => jl.
    by rewrite subn1 -ltnS prednK ?jl ?add1n ?prednK // (leq_ltn_trans _ jl).
  by rewrite subn0 leqNgt ltn_neqAle jc jl.
case=> _ H r c; rewrite H cm subn1.
by [].
Qed.

Lemma minor_elements : forall n m (bigger : mat S) row col, (row < n)%N -> (col < m)%N ->
  forall r c, (r < n.-1)%N -> (c < m.-1)%N ->
  Minor S n m bigger row col r c = bigger (bump row r) (bump col c).
Proof.
move=> n m bigger row col rn cm.
rewrite /Minor; set body := (fun i st => _).
pose P i (st : mat S * nat) := st.2 = (i - (row < i))%N /\
    forall r c, (r < i - (row < i))%N -> (c < m.-1)%N -> st.1 r c = bigger (bump row r) (bump col c).
have : P n (loop 0 n body (fun _ _ => unassigned S, 0%N)).
  apply: (loopP (P := P)) => //.
  move=> i [res ri] im [/= -> H]; rewrite /body /P.
  case: (PeanoNat.Nat.eqb_spec i row) => [e|ne] /=.
    rewrite e ltnn subn0 in H *; rewrite ltnSn subSS subn0; by split.
  have jc : (i == row) = false by apply/eqP.
  have E : (i.+1 - (row < i.+1))%N = (i - (row < i)).+1.
    rewrite ltnS leq_eqVlt eq_sym jc /=.
    by case: (ltnP row i) => jl; rewrite ?subn0 // !subn1 /= prednK // (leq_ltn_trans _ jl).
  have := @minor_row m bigger col i (i - (row < i))%N res cm.
  set l := loop 0 m _ _; case: l => [res' ci] /= R.
  split=> [|r c]; first by rewrite E.
  rewrite E ltnS [(r <= _)%N]leq_eqVlt R => rr cc; rewrite cc andbT.
  move: rr; case: eqP => [-> _|_ /= rr]; last exact: H.
  congr (bigger _ _); rewrite /bump; case: (ltnP row i) => jl.
    by rewrite subn1 -ltnS prednK ?jl ?add1n ?prednK // (leq_ltn_trans _ jl).
  by rewrite subn0 leqNgt ltn_neqAle jc jl.
case=> _ H r c rr cc; apply: H => //.
by rewrite rn subn1.
Qed.
End Minor.
