(** C68: sorting of vectors. *)
Set Warnings "-notation-overridden,-ambiguous-paths".
From mathcomp Require Import all_ssreflect.
From Verif Require Import SortModel SortSpec SortProofs.
Set Implicit Arguments.
Unset Strict Implicit.
Unset Printing Implicit Defensive.

(** Whatever operator< says (for example of elements that are not numbers), the
    permutation contains each index once and the result consists of the elements
    in that order.  Without sorting nothing is moved. *)
Theorem C68_permutation : forall (T : Type) (less : T -> T -> bool) (fresh : T) N ord
    (c : nat -> T) (before : nat -> nat),
  let '(r, permutation) := sort less fresh N ord c before in
  [/\ permutes N permutation,
      forall i, i < N -> r i = c (permutation i) &
      ord = unsorted -> forall i, i < N -> permutation i = i /\ r i = c i].
Proof.
move=> T less fresh N ord c before.
have P := @sort_permutes T less fresh N ord c before.
have V := @sort_values T less fresh N ord c before.
case E : (sort _ _ _ _ _ _) P V => [r p] /= P V; split=> // O i iN.
move: E; rewrite O /sort; case=> <- <-; split=> //; exact: initE.
Qed.
Print Assumptions C68_permutation.

(** If operator< is an order, the result is sorted, and equal elements keep
    their order. *)
Theorem C68_sorted : forall (T : Type) (less : T -> T -> bool) (fresh : T) N ord
    (c : nat -> T) (before : nat -> nat), weak_order less -> ord <> unsorted ->
  let '(_, permutation) := sort less fresh N ord c before in
  forall i j, i < j < N -> in_order less ord c (permutation i) (permutation j).
Proof.
move=> T less fresh N ord c before W O; have := @sort_sorted T less fresh N ord c before (weak_at c W) O.
by case: (sort _ _ _ _ _ _) => r p.
Qed.
Print Assumptions C68_sorted.

(** The two together leave one possibility only. *)
Theorem C68_unique : forall (T : Type) (less : T -> T -> bool) N ord (c : nat -> T) p q,
  weak_order less -> permutes N p -> permutes N q ->
  (forall i j, i < j < N -> in_order less ord c (p i) (p j)) ->
  (forall i j, i < j < N -> in_order less ord c (q i) (q j)) ->
  forall i, i < N -> p i = q i.
Proof.
move=> T less N ord c p q W [Rp Ip] [Rq Iq] Sp Sq i iN.
have [Tr An] : transitive (in_order less ord c) /\ antisymmetric (in_order less ord c).
  by apply: in_order_rel; exact: weak_at.
have M : forall f, (forall i j, i < j < N -> in_order less ord c (f i) (f j)) ->
    sorted (in_order less ord c) (map f (iota 0 N)).
  move=> f Sf; apply/(sortedP 0) => k; rewrite size_map size_iota => kN.
  have k1 : k < N by exact: ltnW.
  by rewrite !(nth_map 0) ?size_iota ?nth_iota ?add0n //; apply: Sf; rewrite leqnn.
have Pm : forall f, (forall i, i < N -> f i < N) -> (forall i j, i < N -> j < N -> f i = f j -> i = j) ->
    perm_eq (map f (iota 0 N)) (iota 0 N).
  move=> f Rf If; apply: uniq_perm; rewrite ?iota_uniq //.
    by rewrite map_inj_in_uniq ?iota_uniq // => a b; rewrite !mem_iota !add0n /=; exact: If.
  have U : uniq (map f (iota 0 N)).
    by rewrite map_inj_in_uniq ?iota_uniq // => a b; rewrite !mem_iota !add0n /=; exact: If.
  have [] // := uniq_min_size U (s2 := iota 0 N); last by rewrite size_map.
  by move=> x /mapP [a]; rewrite !mem_iota !add0n /= => aN ->; exact: Rf.
have E := sorted_eq Tr An (M p Sp) (M q Sq) (perm_trans (Pm p Rp Ip) _).
have := congr1 (fun s => nth 0 s i) (E _); rewrite !(nth_map 0) ?size_iota ?nth_iota //; apply.
by rewrite perm_sym; exact: Pm.
Qed.
Print Assumptions C68_unique.

Lemma nat_order : weak_order ltn.
Proof.
split=> [x|x y z|x y z xz]; rewrite /= ?ltnn //; first exact: ltn_trans.
by case: ltnP => //= yx; exact: leq_ltn_trans yx xz.
Qed.

Example C68_example :
  let c i := nth 0 [:: 3; 1; 4; 1; 5] i in
  let '(r, p) := sort ltn 7 5 ascending c (fun _ => 9) in
  let '(r', p') := sort ltn 7 5 descending c (fun _ => 9) in
  [/\ map r (iota 0 5) = [:: 1; 1; 3; 4; 5], map p (iota 0 5) = [:: 1; 3; 0; 2; 4],
      map r' (iota 0 5) = [:: 5; 4; 3; 1; 1] & map p' (iota 0 5) = [:: 4; 2; 0; 1; 3]].
Proof. by vm_compute. Qed.
