(** C67: the exponential by the Cayley-Hamilton theorem. *)
Set Warnings "-notation-overridden,-ambiguous-paths".
From mathcomp Require Import all_ssreflect all_algebra all_fingroup.
From Verif Require Import LinalgModel LinalgSpec MatrixModel MatrixSpec MatrixProps ChexpModel ChexpProofs3.
Set Implicit Arguments.
Unset Strict Implicit.
Unset Printing Implicit Defensive.
Import Order.TTheory GRing.Theory Num.Theory.
Local Open Scope ring_scope.

(** Let m be the least number of halvings after which the norm is below the
    limit.  Then chexp gives the exponential series of A / 2^m up to a power K
    of at least n and less than 25 n, multiplied m times by itself, whatever the
    square root, the norm and the comparison of rounded numbers are; if the
    comparison never finds the running sum unchanged, K is 25 n - 1.  Without
    halvings the returned number is K, except that it may be 25 n when K is
    25 n - 1. *)
Theorem C67_exponential : forall (F : numFieldType) (f : F -> F) (u : F) n
    (root : F -> F) (norm : (nat -> nat -> F) -> F) (sclim : F) (same : F -> F -> bool)
    m fuel (a : nat -> nat -> F), (2 <= n.+1)%N ->
  ~~ (sclim <= norm a / 2%:R ^+ m) -> (forall k, (k < m)%N -> sclim <= norm a / 2%:R ^+ k) ->
  (m < fuel)%N ->
  exists omat niter K,
    [/\ chexp (field_scalars f u) root norm sclim same fuel n.+1 a = Done omat niter,
        mxr n.+1 n.+1 omat = exp_series ((2%:R ^+ m)^-1 *: mxr n.+1 n.+1 a) K ^+ (2 ^ m)%N,
        (n.+1 <= K < 25 * n.+1)%N,
        (forall x y, same x y = false) -> K = (25 * n.+1).-1 &
        if (0 < m)%N then niter = n.+1
        else niter = K \/ niter = (25 * n.+1)%N /\ K = niter.-1].
Proof. by move=> F f u n root norm sclim same m fuel a n1 H1 H2 H3; exact: chexpE. Qed.
Print Assumptions C67_exponential.

(** A nilpotent matrix, with the largest element as norm and the limit 2: two
    halvings, and the exponential. *)
Definition nil3 : nat -> nat -> rat := rows [:: [:: 0; 4; 2]; [:: 0; 0; 6]; [:: 0; 0; 0]].
Definition largest (a : nat -> nat -> rat) : rat := a 1%N 2%N.
Example C67_example :
  match chexp rat_scalars (fun x => x) largest 2%:Q (fun x y : rat => x == y) 10 3 nil3 with
  | Done r niter => (niter == 3%N) &&
      all (fun i => all (fun j => r i j == rows [:: [:: 1; 4; 14]; [:: 0; 1; 6]; [:: 0; 0; 1]] i j)
        (iota 0 3)) (iota 0 3)
  | _ => false
  end.
Proof. by vm_compute. Qed.
Example C67_example_hypotheses :
  ~~ (2%:Q <= largest nil3 / 2%:R ^+ 2) /\ forall k, (k < 2)%N -> 2%:Q <= largest nil3 / 2%:R ^+ k.
Proof. by split=> [|[|[|k]]]. Qed.

(** The halving goes on exactly as long as the norm is not below the limit. *)
Theorem C67_halving : forall (F : numFieldType) (f : F -> F) (u : F) n
    (root : F -> F) (norm : (nat -> nat -> F) -> F) (sclim : F) (same : F -> F -> bool)
    fuel (a : nat -> nat -> F), (2 <= n.+1)%N ->
  chexp (field_scalars f u) root norm sclim same fuel n.+1 a = Out_of_fuel
  <-> forall k, (k < fuel)%N -> sclim <= norm a / 2%:R ^+ k.
Proof.
move=> F f u n root norm sclim same fuel a n1; split; last exact: chexp_fuel.
move=> E k kf; apply: contraPT E => Hk.
have H : exists m, (m < fuel)%N && ~~ (sclim <= norm a / 2%:R ^+ m) by exists k; rewrite kf.
case: (ex_minnP H) => m /andP [mf Hm] Min.
have Lo : forall k, (k < m)%N -> sclim <= norm a / 2%:R ^+ k.
  move=> i im; apply/negPn/negP => Hi; have := Min i; rewrite Hi (ltn_trans im mf) => /(_ isT).
  by rewrite leqNgt im.
by have [omat [niter [K [-> _ _ _ _]]]] := chexpE f u root same n1 Hm mf Lo.
Qed.
Print Assumptions C67_halving.

Example C67_example_halving :
  chexp rat_scalars (fun x => x) (fun _ => 1) 0 (fun x y : rat => x == y) 10 2 (fun _ _ => 0) = Out_of_fuel.
Proof. by apply/C67_halving => // k _; rewrite mulr_ge0 // invr_ge0 exprn_ge0. Qed.

(** The returned number is not the power up to which the series was taken: after
    a halving it is n, since the squaring uses the same variable. *)
Theorem C67_iterations_refuted :
  ~ (forall (F : numFieldType) (f : F -> F) (u : F) n
       (root : F -> F) (norm : (nat -> nat -> F) -> F) (sclim : F) (same : F -> F -> bool)
       m fuel (a : nat -> nat -> F) omat niter, (2 <= n.+1)%N ->
     ~~ (sclim <= norm a / 2%:R ^+ m) -> (forall k, (k < m)%N -> sclim <= norm a / 2%:R ^+ k) ->
     (m < fuel)%N ->
     chexp (field_scalars f u) root norm sclim same fuel n.+1 a = Done omat niter ->
     exists K, mxr n.+1 n.+1 omat = exp_series ((2%:R ^+ m)^-1 *: mxr n.+1 n.+1 a) K ^+ (2 ^ m)%N
       /\ (niter = K \/ niter = (25 * n.+1)%N)).
Proof.
pose a := rows [:: [:: 1; 0]; [:: 0; 0]].
pose r := chexp rat_scalars (fun x => x) (fun b => b 0%N 0%N) 1 (fun x y => x != 5%:Q / 2%:Q) 2%N 2%N a.
have R : match r with
    Done o niter => (niter == 2%N) && (o 0%N 0%N == (79%:Q / 48%:Q) ^+ 2) | _ => false end.
  by vm_compute.
move=> H; move: (H _ (fun x : rat => x) 7%:Q 1%N (fun x => x) (fun b => b 0%N 0%N) 1
  (fun x y => x != 5%:Q / 2%:Q) 1%N 2%N a).
rewrite -/r; case: r R => // o niter /andP [/eqP -> /eqP O] /(_ o 2%N isT isT) G.
have [[|k] //|//|//|K [E [K2|//]]] := G; subst K.
pose A := mxr 2 2 a.
have AA : A * A = A.
  apply/matrixP => i j; rewrite !mxE 2!big_ord_recl big_ord0 !mxE.
  by apply/eqP; case: i => [[|[|//]] ?]; case: j => [[|[|//]] ?]; vm_compute.
have : exp_series (2%:R ^- 1 *: A) 2 ^+ 2 = 1 + ((13%:Q / 8%:Q) ^+ 2 - 1) *: A.
  have -> : exp_series (2%:R ^- 1 *: A) 2 = 1 + (5%:Q / 8%:Q) *: A.
    rewrite /exp_series 3!big_ord_recr big_ord0 /= add0r expr0 invr1 scale1r expr1.
    rewrite expr2 -scalerAl -scalerAr AA !scalerA -addrA -scalerDl.
    by congr (1 + _ *: _); apply/eqP; vm_compute.
  rewrite expr2 mulrDl mul1r mulrDr mulr1 -scalerAl -scalerAr AA scalerA -!addrA -!scalerDl.
  by congr (1 + _ *: _); apply/eqP; vm_compute.
rewrite -[X in _ ^+ X](expn1 2) -E => /matrixP /(_ 0 0); rewrite !mxE O /=.
by move/eqP; vm_compute.
Qed.
Print Assumptions C67_iterations_refuted.

(** For n = 1, pl[1] is outside of the array pl[n]. *)
Theorem C67_one_by_one_outside : forall (F : numFieldType) (f : F -> F) (u : F)
    (root : F -> F) (norm : (nat -> nat -> F) -> F) (sclim : F) (same : F -> F -> bool)
    fuel (a : nat -> nat -> F),
  chexp (field_scalars f u) root norm sclim same fuel 1 a = Outside.
Proof. by []. Qed.
Print Assumptions C67_one_by_one_outside.
