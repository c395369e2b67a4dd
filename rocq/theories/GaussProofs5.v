(** Fields of alternating sign: what degauss does to them. *)
Set Warnings "-notation-overridden,-ambiguous-paths".
From Coq Require Import ZArith List.
From mathcomp Require Import all_ssreflect all_algebra.
From Verif Require Import LinalgSpec AlgebraModel AlgebraSpec
  GaugeModel GaugeSpec GaugeMatrix GaugeProofs1 MatrixSpec ForceModel ForceSpec
  ForceProofs1 ForceProofs2 ForceProofs3 ForceProofs4 ForceProofs5 ForceProofs10 GaussModel GaussSpec GaussProofs1 GaussProofs2
  GaussProofs3 GaussProofs4.
Set Implicit Arguments.
Unset Strict Implicit.
Unset Printing Implicit Defensive.
Import Order.TTheory GRing.Theory Num.Theory.
Local Open Scope ring_scope.

Section Alternating.
Variables (C : numClosedFieldType) (n : nat) (L : list Z) (ex : (nat -> C) -> 'M[C]_n).
Hypotheses (n1 : (1 < n)%N) (HL : sizes L) (HE : even_sizes L).
Notation CM := (complex_matrices C n).
Notation SU := (su_algebra C n).
Notation PG := (su_gauss ex).
Notation N := (n * n - 1)%N.
Notation D := ((length L)%:R : C).
Notation aleph := (5%:R / 4%:R / 12%:R : C).
Let n0 : (0 < n)%N := ltnW n1.

Definition ones : links C n := fun _ _ => 1%:M.
Definition sign (x : site) : C := if Z.even (Common.zsum x) then 1 else - 1.
Definition beta (s : C) : site -> nat -> C := fun x k => if k is 0%N then s * sign x else 0.
Definition alternating (s : C) : moments C := fun _ => beta s.

Lemma ones_unitary : unitary_links L ones.
Proof.
move=> d x _ _; rewrite /ones; have -> : 1%:M = mone CM by [].
have E : dagger CM (mone CM) = mone CM by rewrite -[LHS]/((map_mx conjC 1%:M)^T) map_mx1 trmx1.
by split; rewrite E -[LHS]/(1%:M *m 1%:M) mul1mx.
Qed.

Lemma sign_up d x : (d < length L)%N -> on_lattice L x -> sign (up L d x) = - sign x.
Proof.
move=> h hx; rewrite /sign /up (move_parity L 1 d x HL HE hx (ssrnat.ltP h) erefl).
by case: (Z.even _); rewrite ?opprK.
Qed.
Lemma sign_down d x : (d < length L)%N -> on_lattice L x -> sign (GaugeModel.down L d x) = - sign x.
Proof.
move=> h hx; rewrite /sign /GaugeModel.down (move_parity L (-1) d x HL HE hx (ssrnat.ltP h) erefl).
by case: (Z.even _); rewrite ?opprK.
Qed.
Lemma sign_real x : sign x \is Num.real.
Proof. by rewrite /sign; case: ifP; rewrite ?rpredN real1. Qed.
Lemma sign2 x : sign x * sign x = 1.
Proof. by rewrite /sign; case: ifP; rewrite ?mulrNN mul1r. Qed.

Lemma beta_real s : s \is Num.real -> realf n L (beta s).
Proof. by move=> rs x _ [|k] _ /=; [rewrite rpredM ?sign_real|exact: real0]. Qed.
Lemma alternating_real s : s \is Num.real -> realm n L (alternating s).
Proof. by move=> rs d h; apply: beta_real. Qed.

Lemma pull1 (a : nat -> C) k : real_components N a -> (k < N)%N -> pull (n := n) 1%:M a k = a k.
Proof. by move=> R h; rewrite /pull /dg map_mx1 trmx1 mul1mx mulmx1 toalg_Ex. Qed.
Lemma push1 (a : nat -> C) k : real_components N a -> (k < N)%N -> push (n := n) 1%:M a k = a k.
Proof. by move=> R h; rewrite /push /dg map_mx1 trmx1 mul1mx mulmx1 toalg_Ex. Qed.

Lemma beta_sub s x y k : sign y = - sign x -> beta s x k - beta s y k = beta (2%:R * s) x k.
Proof.
case: k => [|k] E /=; last by rewrite subr0.
by rewrite E mulrN opprK -mulrA mulr_natl mulr2n.
Qed.

Lemma DV_alternating s : s \is Num.real -> eqf n L (DV L ones (alternating s)) (beta (2%:R * D * s)).
Proof.
move=> rs x k hx hk; rewrite /DV.
rewrite (big_In (g := fun _ => beta (2%:R * s) x k)); last first.
  move=> d /directions_lt h; rewrite pull1 //; last exact: (beta_real rs (down_on L d x HL hx)).
  by apply: beta_sub; apply: sign_down.
rewrite big_const_seq count_predT -[iter _ _ _]/(iter (size (directions L)) (fun z => beta (2%:R * s) x k + z) 0).
have -> : size (directions L) = length L by apply: seq_length.
have -> : iter (length L) (fun z => beta (2%:R * s) x k + z) 0 = D * beta (2%:R * s) x k.
  move: (beta _ x k) => z; elim: (length L) => [|m IH]; first by rewrite mul0r.
  by rewrite iterS IH mulrS mulrDl mul1r.
case: k hk => [|k] _ /=; last by rewrite mulr0.
by rewrite mulrA; congr (_ * _); rewrite mulrA (mulrC D).
Qed.

Lemma DT_alternating s : s \is Num.real -> eqm n L (DT L ones (beta s)) (alternating (2%:R * s)).
Proof.
move=> rs d h x k hx hk; rewrite /DT push1 //; last exact: (beta_real rs (up_on L d x HL hx)).
by apply: beta_sub; apply: sign_up.
Qed.

Lemma real2D s : s \is Num.real -> 2%:R * D * s \is Num.real.
Proof. by move=> rs; rewrite !rpredM ?realn. Qed.

Lemma fixed_alternating s t : s \is Num.real -> t \is Num.real ->
  eqm n L (fixed L ones (alternating s) t) (alternating (s + (- t) * (2%:R * (2%:R * D * s)))).
Proof.
move=> rs rt d h x k hx hk; rewrite /fixed.
rewrite (DT_ext HL ones (DV_alternating rs) h hx hk) (DT_alternating (real2D rs) h hx hk) /alternating.
case: k hk => [|k] _ /=; last by rewrite mulr0 addr0.
rewrite [RHS]mulrDl; exact: (congr1 (fun z => s * sign x + z) (mulrA _ _ _)).
Qed.

Lemma beta_norm s : ip n L (beta s) (beta s) = s * s * volume C L.
Proof.
rewrite /ip /volume.
have -> : (size (sites L))%:R = \sum_(x <- sites L) (1 : C).
  by rewrite big_const_seq count_predT iter_addr addr0.
rewrite mulr_sumr; apply: eq_bigr => x _; rewrite mulr1 /dot.
have hN : (0 < N)%N by rewrite subn_gt0; case: n n1 => [|[|m]].
case E: N hN => [//|m] _; rewrite big_ord_recl /= big1 => [|k _]; last by rewrite mulr0.
by rewrite addr0 mulrACA sign2 mulr1.
Qed.

Lemma violation_alternating s : s \is Num.real ->
  total_violation L ones (alternating s) = (2%:R * D * s) * (2%:R * D * s) * volume C L.
Proof.
move=> rs; rewrite (violationE n0 HL ones_unitary (alternating_real rs)).
by rewrite (ip_ext (DV_alternating rs) (DV_alternating rs)) beta_norm.
Qed.

Definition once (t : C) : C := 1 + (- t) * (2%:R * (2%:R * D)).

Lemma step_alternating E' viol :
  degauss_step CM SU PG L ones (alternating 1) = (E', viol) ->
  let s := once aleph in let s' := s * once (2%:R * aleph) in
  viol = (2%:R * D * s) * (2%:R * D * s) /\
  total_violation L ones E' = (2%:R * D * s') * (2%:R * D * s') * volume C L.
Proof.
move=> S s s'; have R1 := alternating_real (real1 _).
have [E2 [viol2 []]] := step_value ex n0 HL ones R1.
rewrite S => - [<- <-] Q ->.
have rs : s \is Num.real by rewrite /s /once rpredD ?real1 // !rpredM ?rpredN ?realn // (aleph1_real C).
have rs' : s' \is Num.real.
  by rewrite rpredM // /once rpredD ?real1 // rpredM ?rpredN ?(aleph2_real C) // !rpredM ?realn.
have Q1 : eqm n L (fixed L ones (alternating 1) aleph) (alternating s).
  by have := fixed_alternating (real1 _) (aleph1_real C); rewrite mulr1.
split.
  have H : eqf n L (S1 L ones aleph (DV L ones (alternating 1))) (beta (2%:R * D * s)).
    move=> x k hx hk; rewrite -(DV_one n0 ones (alternating 1) hx hk).
    by rewrite (DV_ext HL ones Q1 hx hk) (DV_alternating rs hx hk).
  by rewrite (ip_ext H H) beta_norm mulfK // gt_eqF // (volume_gt0 C HL).
have Q2 : eqm n L (twice L ones (alternating 1)) (alternating s').
  apply: (eqm_trans (fixed_ext HL ones (2%:R * aleph) Q1)).
  have := fixed_alternating rs (aleph2_real C).
  have -> : s + - (2%:R * aleph) * (2%:R * (2%:R * D * s)) = s'; last by [].
  rewrite /s' [once (2%:R * aleph)]/once mulrDr mulr1; congr (_ + _).
  by rewrite [RHS]mulrC -!mulrA.
rewrite (tv_ext n0 HL ones_unitary (alternating_real rs') (eqm_trans Q Q2)).
exact: violation_alternating.
Qed.
End Alternating.

(** ** The numbers *)
Section Numbers.
Variables (C : numClosedFieldType).
Notation aleph := (5%:R / 4%:R / 12%:R : C).

Lemma nat_diff (p q r : nat) : (p + r)%N = q -> p%:R - q%:R = - r%:R :> C.
Proof. by move=> <-; rewrite natrD opprD addrA subrr add0r. Qed.

Lemma once_mul L (k m : nat) (t : C) : (k%:R * (2%:R * (2%:R * (length L)%:R) * t) = m%:R) ->
  k%:R * once L t = k%:R - m%:R.
Proof. by move=> H; rewrite /once mulrDr mulr1 mulNr mulrN [t * _]mulrC H. Qed.

Lemma twelve (k m : nat) (p : C) : (k * m)%N = 48%N -> k%:R * (m%:R * aleph) = 5%:R.
Proof. by move=> H; rewrite mulrA -natrM H -[48%N]/(4 * 12)%N natrM -mulrA aleph5. Qed.

Lemma three_dim L : length L = 3%N ->
  4%:R * once L aleph = - 1 /\ 2%:R * once L (2%:R * aleph) = - 3%:R.
Proof.
move=> HL; have E : 2%:R * (2%:R * (length L)%:R) = 12%:R :> C by rewrite HL -!natrM.
split.
  rewrite (@once_mul L 4 5) ?(@nat_diff 4 5 1) // E; exact: aleph5.
rewrite (@once_mul L 2 5) ?(@nat_diff 2 5 3) // E [12%:R * _]mulrA -natrM.
exact: (@twelve 2 24 0).
Qed.

Lemma four_dim L : length L = 4%N ->
  3%:R * once L aleph = - 2%:R /\ 3%:R * once L (2%:R * aleph) = - 7%:R.
Proof.
move=> HL; have E : 2%:R * (2%:R * (length L)%:R) = 16%:R :> C by rewrite HL -!natrM.
split.
  rewrite (@once_mul L 3 5) ?(@nat_diff 3 5 2) // E; exact: (@twelve 3 16 0).
rewrite (@once_mul L 3 10) ?(@nat_diff 3 10 7) // E mulrA.
have -> : 3%:R * 16%:R * (2%:R * aleph) = 2%:R * (3%:R * (16%:R * aleph)) :> C.
  by move: (5%:R / _ / _) => a; rewrite mulrCA -(mulrA 3%:R).
by rewrite (@twelve 3 16 0) // -natrM.
Qed.

Lemma square_of (k m : nat) (s : C) : k%:R * s = - m%:R -> (k * k)%:R * (s * s) = (m * m)%:R.
Proof. by move=> H; rewrite natrM mulrACA H mulrNN -natrM. Qed.

Lemma square_gt1 (k m : nat) (s : C) : (0 < k)%N -> (k < m)%N -> k%:R * s = - m%:R -> 1 < s * s.
Proof.
move=> k0 km H; have kk : 0 < (k * k)%:R :> C by rewrite ltr0n muln_gt0 k0.
rewrite -(ltr_pmul2l kk) mulr1 (square_of H) ltr_nat.
by apply: (@ltn_trans (k * m)); [rewrite ltn_pmul2l|rewrite ltn_pmul2r // (ltn_trans k0)].
Qed.

Lemma square_gt0 (k m : nat) (s : C) : (0 < k)%N -> (0 < m)%N -> k%:R * s = - m%:R -> 0 < s * s.
Proof.
move=> k0 m0 H; have kk : 0 < (k * k)%:R :> C by rewrite ltr0n muln_gt0 k0.
by rewrite -(pmulr_rgt0 _ kk) (square_of H) ltr0n muln_gt0 m0.
Qed.
End Numbers.
