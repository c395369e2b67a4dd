(** The time evolution keeps the divergence of the electric field. *)
Set Warnings "-notation-overridden,-ambiguous-paths".
From Coq Require Import ZArith List.
From mathcomp Require Import all_ssreflect all_algebra.
From Verif Require Import LinalgSpec AlgebraModel AlgebraSpec AlgebraProofs4
  GaugeModel GaugeSpec GaugeMatrix GaugeProofs1 GaugeProofs2 MatrixSpec ForceModel ForceSpec
  ForceProofs1 ForceProofs2 ForceProofs3 ForceProofs4 ForceProofs5 ForceProofs10 GaussModel GaussSpec GaussProofs1 GaussProofs2
  GaussProofs3 GaussProofs4.
Set Implicit Arguments.
Unset Strict Implicit.
Unset Printing Implicit Defensive.
Import Order.TTheory GRing.Theory Num.Theory.
Local Open Scope ring_scope.

(** Sums over pairs of different directions. *)
Section Pairs.
Variable R : zmodType.
Implicit Types (l : list nat) (g h : nat -> nat -> R).

Definition psum l g : R := \sum_(d <- l) \sum_(e <- l | e != d) g d e.

Lemma psum_swap l g : psum l g = psum l (fun d e => g e d).
Proof.
rewrite /psum (exchange_big_dep predT) //=; apply: eq_bigr => e _; apply: eq_bigl => d.
by rewrite eq_sym.
Qed.

Lemma psum_add l g h : psum l (fun d e => g d e + h d e) = psum l g + psum l h.
Proof. by rewrite /psum -big_split; apply: eq_bigr => d _; rewrite big_split. Qed.
Lemma psum_opp l g : psum l (fun d e => - g d e) = - psum l g.
Proof. by rewrite /psum -sumrN; apply: eq_bigr => d _; rewrite sumrN. Qed.

Lemma psum_ext l g h : (forall d e, In d l -> In e l -> e <> d -> g d e = h d e) -> psum l g = psum l h.
Proof.
move=> H; apply: big_In => d hd.
rewrite big_mkcond [RHS]big_mkcond /=; apply: big_In => e he.
by case: eqP => //= ne; apply: H.
Qed.
End Pairs.

Lemma psum_anti (F : numFieldType) n (l : list nat) (g : nat -> nat -> 'M[F]_n) :
  (forall d e, In d l -> In e l -> e <> d -> g e d = - g d e) -> psum l g = 0.
Proof.
move=> H; have E : psum l g = - psum l g.
  rewrite {1}psum_swap -psum_opp; exact: psum_ext.
have : psum l g + psum l g = 0 by rewrite {1}E addNr.
rewrite -mulr2n -scaler_nat => /eqP; rewrite scaler_eq0 pnatr_eq0 /= => /eqP; exact.
Qed.

Section Evolve.
Variables (C : numClosedFieldType) (n : nat) (L : list Z) (ex : (nat -> C) -> 'M[C]_n).
Hypotheses (n0 : (0 < n)%N) (HL : sizes L).
Notation CM := (complex_matrices C n).
Notation LM := (complex_linear C n).
Notation SU := (su_algebra C n).
Notation PG := (su_gauss ex).
Notation N := (n * n - 1)%N.
Notation Ex := (@algebra_matrix C n).
Notation toalg := (@algebra_components C n).
Notation AP := (AlgebraSpec.algebra_part conjC).
Implicit Types (A B V : 'M[C]_n).

(** ** The antihermitean traceless part *)

Lemma AP_add A B : AP (A + B) = AP A + AP B.
Proof.
rewrite -!Ex_toalg // -[in RHS](scale1r (Ex (toalg B))) -Ex_lin ?real1 //.
by apply: Ex_ext => k hk; rewrite -[X in A + X]scale1r (toalg_lin n0 A B (real1 _) hk).
Qed.
Lemma AP0 : AP (0 : 'M[C]_n) = 0.
Proof.
have := AP_add 0 0; rewrite addr0 => E.
by apply: (addrI (AP 0)); rewrite addr0 -E.
Qed.
Lemma AP_dg A : AP (dg A) = - AP A.
Proof.
have adj B : adjoint conjC B = dg B by apply/matrixP => i j; rewrite !mxE.
rewrite /AlgebraSpec.algebra_part !adj dgK.
have -> : dg A - A = - (A - dg A) by rewrite opprB.
rewrite scalerN; move: (2%:R^-1 *: _) => B.
by rewrite raddfN mulNr opprB -scalemx1 scaleNr opprK scalemx1 addrC.
Qed.
Lemma AP_sum (T : Type) (l : list T) (P : pred T) (f : T -> 'M[C]_n) :
  AP (\sum_(e <- l | P e) f e) = \sum_(e <- l | P e) AP (f e).
Proof. by apply: (big_morph _ AP_add AP0). Qed.
Lemma AP_conj V A : dg V *m V = 1%:M -> dg V *m AP A *m V = AP (dg V *m A *m V).
Proof.
move=> H; have adj B : adjoint conjC B = dg B by apply/matrixP => i j; rewrite !mxE.
rewrite /AlgebraSpec.algebra_part !adj !dg_mul dgK.
have -> : dg V *m A *m V - dg V *m (dg A *m V) = dg V *m (A - dg A) *m V.
  by rewrite mulmxBr mulmxBl -!mulmxA.
rewrite mulmxBr mulmxBl -scalemxAr -scalemxAl; congr (_ - _).
rewrite mul_mx_scalar -scalemxAl H scalemx1; congr ((_ / _)%:M).
by rewrite !mxtraceZ [\tr (dg V *m _ *m V)]mxtrace_mulC mulmxA (mulmx1C H) mul1mx.
Qed.

(** ** What is added to the electric field *)

Variable U : links C n.
Hypothesis HU : unitary_links L U.
Notation dn := (GaugeModel.down L).

Definition pull_of (d : nat) (x : site) : 'M[C]_n := U d x *m dg (all_staples CM L U d x).

Definition partP d e x : 'M[C]_n := U d x *m (U e (up L d x) *m (dg (U d (up L e x)) *m dg (U e x))).
Definition partQ d e x : 'M[C]_n := U d x *m (dg (U e (up L d (dn e x))) *m (dg (U d (dn e x)) *m U e (dn e x))).
Definition partW d e x : 'M[C]_n :=
  dg (U e (dn e x)) *m (dg (U d (dn e (dn d x))) *m (U e (dn e (dn d x)) *m U d (dn d x))).

Lemma sum_of_big (T : Type) (f : T -> 'M[C]_n) (l : list T) : 
  sum_of (madd CM) (mzero CM) (List.map f l) = \sum_(e <- l) f e.
Proof.
have H s : fold_left (madd CM) (List.map f l) s = s + \sum_(e <- l) f e.
  elim: l s => [|e l IH] s; first by rewrite big_nil addr0.
  by cbn [List.map fold_left]; rewrite IH big_cons addrA.
by rewrite /sum_of H add0r.
Qed.

Lemma filter_big (P : pred nat) (Q : nat -> bool) (f : nat -> 'M[C]_n) (l : list nat) :
  (forall e, Q e = P e) -> \sum_(e <- List.filter Q l) f e = \sum_(e <- l | P e) f e.
Proof.
move=> H; elim: l => [|e l IH]; first by rewrite !big_nil.
by cbn [List.filter]; rewrite H big_cons; case: (P e); rewrite ?big_cons IH.
Qed.

Lemma staples_big d x : all_staples CM L U d x
  = \sum_(e <- directions L | e != d) two_staples CM L U d e x.
Proof.
rewrite /all_staples sum_of_big /other_directions; apply: filter_big => e.
by congr negb; apply/idP/eqP => [/PeanoNat.Nat.eqb_eq|/PeanoNat.Nat.eqb_eq].
Qed.

Lemma dg_sum (T : Type) (l : list T) (P : pred T) (f : T -> 'M[C]_n) :
  dg (\sum_(e <- l | P e) f e) = \sum_(e <- l | P e) dg (f e).
Proof.
apply: (big_morph (@dg C n)) => [A B|]; last by rewrite /dg map_mx0 trmx0.
by rewrite /dg map_mxD linearD.
Qed.

Lemma two_dg d e x : dg (two_staples CM L U d e x)
  = U e (up L d x) *m (dg (U d (up L e x)) *m dg (U e x))
  + dg (U e (up L d (dn e x))) *m (dg (U d (dn e x)) *m U e (dn e x)).
Proof.
rewrite /two_staples -[madd CM _ _]/(U e x *m U d (up L e x) *m dg (U e (up L d x))
  + dg (U e (dn e x)) *m U d (dn e x) *m U e (up L d (dn e x))).
rewrite -[LHS]/((map_mx conjC (_ + _))^T) map_mxD linearD /= -!/(dg _).
by rewrite !dg_mul !dgK.
Qed.

Lemma pull_big d x : pull_of d x = \sum_(e <- directions L | e != d) (partP d e x + partQ d e x).
Proof.
rewrite /pull_of staples_big dg_sum mulmx_sumr; apply: eq_bigr => e _.
by rewrite two_dg mulmxDr.
Qed.

Lemma back_big d x : (d < length L)%N -> on_lattice L x ->
  dg (U d (dn d x)) *m pull_of d (dn d x) *m U d (dn d x)
  = \sum_(e <- directions L | e != d) (partQ e d x + partW d e x).
Proof.
move=> h hx; have hd := down_on L d x HL hx.
rewrite /pull_of mulmxA (unit_r HU h hd) mul1mx staples_big dg_sum mulmx_suml.
rewrite big_mkcond [RHS]big_mkcond /=; apply: big_In => e /directions_lt he; case: eqP => //= ne.
rewrite two_dg mulmxDl; congr (_ + _).
  by rewrite /partQ (up_down L d x HL hx) -!mulmxA.
by rewrite /partW -!mulmxA (up_down_comm L d e (dn d x) HL) (up_down L d x HL hx).
Qed.

Lemma partP_dg d e x : dg (partP d e x) = partP e d x.
Proof. by rewrite /partP !dg_mul !dgK -!mulmxA. Qed.

Lemma partW_dg d e x : e <> d -> dg (partW d e x) = partW e d x.
Proof.
move=> ne; rewrite /partW !dg_mul !dgK -!mulmxA.
by rewrite /GaugeModel.down (move_comm L (-1) (-1) e d x ne).
Qed.

(** The divergence of what is added. *)
Lemma added_zero x : on_lattice L x ->
  \sum_(d <- directions L) (AP (pull_of d x) - dg (U d (dn d x)) *m AP (pull_of d (dn d x)) *m U d (dn d x)) = 0.
Proof.
move=> hx.
rewrite (big_In (g := fun d => \sum_(e <- directions L | e != d)
    ((AP (partP d e x) + AP (partQ d e x)) + (- AP (partQ e d x) + - AP (partW d e x))))); last first.
  move=> d /directions_lt h; have hd := down_on L d x HL hx.
  rewrite (AP_conj _ (unit_r HU h hd)) (back_big h hx) pull_big !AP_sum -sumrB.
  by apply: eq_bigr => e _; rewrite !AP_add opprD.
rewrite -/(psum (directions L) (fun d e => (AP (partP d e x) + AP (partQ d e x)) + (- AP (partQ e d x) + - AP (partW d e x)))).
rewrite psum_add psum_add psum_add !psum_opp.
rewrite (psum_anti (g := fun d e => AP (partP d e x))); last first.
  by move=> d e _ _ _; rewrite -partP_dg AP_dg.
rewrite (psum_anti (g := fun d e => AP (partW d e x))); last first.
  by move=> d e _ _ ne; rewrite -partW_dg // AP_dg.
by rewrite add0r oppr0 addr0 (psum_swap _ (fun d e => AP (partQ e d x))) subrr.
Qed.

(** ** update_E *)

Definition moved (E : moments C) (delta : C) : moments C := fun d x k => E d x k + (- delta) * toalg (pull_of d x) k.

Lemma moved_real E delta : delta \is Num.real -> realm n L E -> realm n L (moved E delta).
Proof.
move=> rd R; apply: combm_real; [by rewrite rpredN|exact: R|].
by move=> d h x hx k hk; apply: toalg_real.
Qed.

Lemma moved_divergence E delta x : delta \is Num.real -> on_lattice L x ->
  divergence L U (moved E delta) x = divergence L U E x.
Proof.
move=> rd hx; have rd' : - delta \is Num.real by rewrite rpredN.
have H d y : Ex (moved E delta d y) = Ex (E d y) + (- delta) *: AP (pull_of d y).
  by rewrite -Ex_toalg // -(Ex_lin n _ _ rd').
have Z : (- delta) *: (\sum_(d <- directions L) (AP (pull_of d x) - dg (U d (dn d x)) *m AP (pull_of d (dn d x)) *m U d (dn d x))) = 0.
  by rewrite added_zero // scaler0.
apply: (etrans _ (etrans (congr1 (fun z => divergence L U E x + z) Z) (addr0 _))).
rewrite /divergence scaler_sumr -big_split; apply: eq_bigr => d _ /=.
rewrite !H /conjugate -!/(dg _) mulmxDr mulmxDl -scalemxAr -scalemxAl opprD addrACA.
by rewrite [in RHS]scalerBr.
Qed.

Lemma read_all (f : field CM) (g : site -> 'M[C]_n) : (forall x, on_lattice L x -> f x = Some (g x)) ->
  exists s, read_field CM L f = Some s /\ forall x, on_lattice L x -> s x = g x.
Proof.
move=> H; rewrite /read_field.
have -> : forallb (fun x => match f x with Some _ => true | None => false end) (sites L) = true.
  by apply/forallb_forall => x /sites_In hx; rewrite H.
by eexists; split; [reflexivity|move=> x hx /=; rewrite (H x hx)].
Qed.

Lemma other_exists d : (1 < length L)%N -> (d < length L)%N -> other_directions L d <> nil.
Proof.
move=> h hd E.
have H e : (e < length L)%N -> e <> d -> False.
  move=> he ne; have : In e (other_directions L d).
    apply/filter_In; split; first by apply/in_seq; split; [exact: PeanoNat.Nat.le_0_l|exact/ssrnat.ltP].
    by apply/negP => /PeanoNat.Nat.eqb_eq.
  by rewrite E.
by case: d hd E H => [|d] hd E H; [apply: (H 1%N)|apply: (H 0%N)] => //; apply: ltnW.
Qed.

Lemma update_fold E delta (l : list nat) staple F : (1 < length L)%N -> (forall d, In d l -> (d < length L)%N) -> NoDup l ->
  (forall d x k, In d l -> on_lattice L x -> F d x k = E d x k) ->
  exists st F', fold_left (update_E_dir CM SU PG L U delta) l (Some (staple, F)) = Some (st, F') /\
  forall d x k, on_lattice L x -> F' d x k = if existsb (Nat.eqb d) l then moved E delta d x k else F d x k.
Proof.
move=> h1; elim: l staple F => [|d l IH] staple F hl ND HF; first by exists staple, F.
have hd : (d < length L)%N by apply: hl; left.
have [nd ND'] : ~ In d l /\ NoDup l by inversion ND.
cbn [fold_left update_E_dir].
set st := staplesum CM L U staple d ALL.
have [s [RS HS]] := @read_all st (fun x => all_staples CM L U d x)
  (fun x hx => staplesum_sum CM (complex_matrix_laws C n) L HL U staple d ALL x (or_intror erefl) hx erefl (other_exists h1 hd)).
rewrite RS; set F1 := set_dir _ _ _ _ _.
have HF1 e x k : on_lattice L x -> F1 e x k = if Nat.eqb e d then moved E delta d x k else F e x k.
  move=> hx; rewrite /F1 /set_dir; case: (Nat.eqb e d) => //.
  rewrite -[LHS]/(F d x k - delta * toalg (U d x *m dg (s x)) k) HF //; last by left.
  by rewrite HS // /moved mulNr.
have [||st' [F' [-> HF']]] := IH st F1 _ ND' _.
- by move=> e he; apply: hl; right.
- move=> e x k he hx; rewrite HF1 //.
  case: (PeanoNat.Nat.eqb_spec e d) => [Q|_]; first by rewrite Q in he.
  by apply: HF => //; right.
exists st', F'; split=> // e x k hx; rewrite HF' // HF1 //; cbn [existsb].
by case: (PeanoNat.Nat.eqb_spec e d) => [->|_] //=; case: existsb.
Qed.

Lemma update_E_value E delta : (1 < length L)%N ->
  exists E', update_E CM SU PG L U E delta = Some E' /\ eqm n L E' (moved E delta).
Proof.
move=> h1; have [||st [F' [H HF]]] := @update_fold E delta (directions L) (fun _ => None) E h1 _ (directions_NoDup L) _ => //.
  by move=> d /directions_lt.
exists F'; split; first by rewrite /update_E H.
by move=> d h x k hx hk; rewrite HF // directions_exists h.
Qed.

Lemma eqm_divergence E F x : eqm n L E F -> on_lattice L x -> divergence L U E x = divergence L U F x.
Proof.
move=> Q hx; apply: big_In => d /directions_lt h; have hd := down_on L d x HL hx.
have EX y : on_lattice L y -> Ex (E d y) = Ex (F d y).
  by move=> hy; apply: Ex_ext => k hk; apply: Q.
by rewrite !EX.
Qed.

Lemma update_E_facts E delta : (1 < length L)%N -> delta \is Num.real -> real_momenta n L E ->
  exists E', [/\ update_E CM SU PG L U E delta = Some E', real_momenta n L E' &
    forall x, on_lattice L x -> divergence L U E' x = divergence L U E x].
Proof.
move=> h1 rd /realm_of R; have [E' [H Q]] := update_E_value E delta h1.
exists E'; split; [exact: H|apply/realm_of; exact: (eqm_real Q (moved_real rd R))|].
by move=> x hx; rewrite (eqm_divergence Q hx) moved_divergence.
Qed.

(** ** update_U *)

Hypothesis HX : exponential ex.

Lemma update_U_value E delta d x : (d < length L)%N ->
  update_U CM SU PG L U E delta d x = ex (fun k => delta * E d x k) *m U d x.
Proof.
move=> h; rewrite /update_U.
have := @fold_set 'M[C]_n (directions L) (fun d A x => ex (fun k => delta * E d x k) *m A) U d x (directions_NoDup L).
by rewrite directions_exists h.
Qed.

Lemma exp_facts E delta d x : delta \is Num.real -> realm n L E -> (d < length L)%N -> on_lattice L x ->
  let X := ex (fun k => delta * E d x k) in
  [/\ dg X *m X = 1%:M, X *m dg X = 1%:M & Ex (E d x) *m X = X *m Ex (E d x)].
Proof.
move=> rd R h hx X.
have [|[U1 U2] K] := HX (a := fun k => delta * E d x k).
  by move=> k hk; rewrite rpredM //; apply: (R d h x hx).
split=> //; apply: K.
have -> : Ex (fun k => delta * E d x k) = delta *: Ex (E d x).
  rewrite -[RHS]add0r -(Ex0 C n) -(Ex_lin n _ _ rd); apply: Ex_ext => k _; by rewrite add0r.
by rewrite -scalemxAr -scalemxAl.
Qed.

Lemma update_U_facts E delta : delta \is Num.real -> real_momenta n L E ->
  unitary_links L (update_U CM SU PG L U E delta) /\
  forall x, on_lattice L x -> divergence L (update_U CM SU PG L U E delta) E x = divergence L U E x.
Proof.
move=> rd /realm_of R; split=> [d x h hx|x hx].
  have [X1 X2 _] := exp_facts rd R h hx; have [V1 V2] := HU h hx.
  move: X1 X2 V1 V2; rewrite update_U_value //; move: (ex _) (U d x) => X V X1 X2 V1 V2.
  rewrite -[mul CM V (dagger CM V)]/(V *m dg V) -[mone CM]/(1%:M : 'M[C]_n) in V1.
  rewrite -[mul CM (dagger CM V) V]/(dg V *m V) -[mone CM]/(1%:M : 'M[C]_n) in V2.
  split; rewrite -[dagger CM (X *m V)]/(dg (X *m V)) dg_mul.
    rewrite -[LHS]/((X *m V) *m (dg V *m dg X)) -[mone CM]/(1%:M : 'M[C]_n).
    by rewrite mulmxA -(mulmxA X) V1 mulmx1.
  rewrite -[LHS]/((dg V *m dg X) *m (X *m V)) -[mone CM]/(1%:M : 'M[C]_n).
  by rewrite mulmxA -(mulmxA (dg V)) X1 mulmx1.
apply: big_In => d /directions_lt h; have hd := down_on L d x HL hx.
congr (_ - _); rewrite /conjugate -!/(dg _) (update_U_value _ _ _ h).
have [X1 X2 K] := exp_facts rd R h hd.
move: X1 K; move: (ex _) (Ex _) (U d _) => X A V X1 K.
by rewrite dg_mul -!mulmxA; congr (_ *m _); rewrite !mulmxA -(mulmxA (dg X)) K mulmxA X1 mul1mx.
Qed.
End Evolve.
