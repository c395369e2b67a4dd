(** Loops over pairs of indices. *)
Set Warnings "-notation-overridden,-ambiguous-paths".
From mathcomp Require Import all_ssreflect all_algebra.
From Coq Require List.
From Verif Require Import LinalgModel LinalgSpec LinalgProofs1 LinalgProofs3 LinalgProofs4.
Set Implicit Arguments.
Unset Strict Implicit.
Unset Printing Implicit Defensive.

Lemma loop_foldl : forall X a b (body : nat -> X -> X) s,
  loop a b body s = foldl (fun s k => body k s) s (iota a (b - a)).
Proof.
move=> X a b body s; rewrite /loop; have -> : (b - a)%coq_nat = (b - a)%N by [].
by move: (b - a)%N => m; elim: m a s => [|m IH] a s //=; rewrite IH.
Qed.

Lemma loopo_foldl : forall X a b (body : nat -> X -> option X) s,
  loopo a b body s = foldl (fun s k => obind (body k) s) (Some s) (iota a (b - a)).
Proof.
move=> X a b body s; rewrite /loopo; have -> : (b - a)%coq_nat = (b - a)%N by [].
move: (Some s) => t.
by move: (b - a)%N => m; elim: m a t => [|m IH] a t //=; rewrite IH; case: t.
Qed.

(** The pairs i < j < n in the order of the loops. *)
Definition row_pairs (n i : nat) : seq (nat * nat) := [seq (i, j) | j <- iota i.+1 (n - i.+1)].
Definition pairs (n : nat) : seq (nat * nat) := flatten [seq row_pairs n i | i <- iota 0 (n - 1)].

Lemma foldl_flatten : forall X Y (g : X -> Y -> X) (ll : seq (seq Y)) s,
  foldl g s (flatten ll) = foldl (fun s l => foldl g s l) s ll.
Proof. by move=> X Y g; elim=> [|l ll IH] s //=; rewrite foldl_cat IH. Qed.

Lemma foldl_map : forall X Y Z (g : X -> Y -> X) (h : Z -> Y) l s,
  foldl g s (map h l) = foldl (fun s z => g s (h z)) s l.
Proof. by move=> X Y Z g h; elim=> [|z l IH] s //=. Qed.

Lemma eq_foldl : forall X Y (g h : X -> Y -> X) l s, (forall s y, g s y = h s y) -> foldl g s l = foldl h s l.
Proof. by move=> X Y g h l s E; elim: l s => [|y l IH] s //=; rewrite E IH. Qed.

Lemma loop_pairs : forall X n (body : nat -> nat -> X -> X) s,
  loop 0 (n - 1) (fun i st => loop (Nat.succ i) n (fun j st => body i j st) st) s
  = foldl (fun st p => body p.1 p.2 st) s (pairs n).
Proof.
move=> X n body s; rewrite loop_foldl foldl_flatten foldl_map subn0.
by apply: eq_foldl => st i; rewrite loop_foldl /row_pairs foldl_map.
Qed.

Lemma foldl_None : forall X Y (g : Y -> X -> option X) l,
  foldl (fun s y => obind (g y) s) None l = None.
Proof. by move=> X Y g; elim. Qed.

Lemma loopo_pairs : forall X n (body : nat -> nat -> X -> option X) s,
  loopo 0 (n - 1) (fun i st => loopo (Nat.succ i) n (fun j st => body i j st) st) s
  = foldl (fun st p => obind (body p.1 p.2) st) (Some s) (pairs n).
Proof.
move=> X n body s; rewrite loopo_foldl foldl_flatten foldl_map subn0.
apply: eq_foldl => [[st|]] i /=; last by rewrite foldl_None.
by rewrite loopo_foldl /row_pairs foldl_map.
Qed.

Lemma mem_pairs : forall n i j, ((i, j) \in pairs n) = (i < j)%N && (j < n)%N.
Proof.
move=> n i j; apply/flatten_mapP/idP => [[k]|/andP [ij jn]].
  rewrite mem_iota /= add0n => kn /mapP [m]; rewrite mem_iota => /andP [km mn] [-> ->].
  rewrite km; move: mn; rewrite subnKC //.
  by apply: leq_trans kn _; rewrite leq_subr.
exists i; first by rewrite mem_iota /= add0n ltn_subRL add1n (leq_ltn_trans ij).
apply/mapP; exists j => //; rewrite mem_iota ij subnKC //.
by apply: leq_trans ij _; exact: ltnW.
Qed.

Lemma pairs_uniq : forall n, uniq (pairs n).
Proof.
move=> n; rewrite /pairs.
have : uniq (iota 0 (n - 1)) by exact: iota_uniq.
elim: (iota 0 (n - 1)) => [|i l IH] //= /andP [il ul]; rewrite cat_uniq IH // andbT.
rewrite map_inj_uniq ?iota_uniq /=; last by move=> a b [].
apply/hasPn => [[a b]] /flatten_mapP [k kl /mapP [m _ [-> _]]].
by apply/negP => /mapP [m' _ [e _]]; rewrite e in kl; rewrite kl in il.
Qed.

Lemma size_row : forall n i, size (row_pairs n i) = (n - i.+1)%N.
Proof. by move=> n i; rewrite size_map size_iota. Qed.

Lemma size_pairs : forall n, (2 * size (pairs n) = n * (n - 1))%N.
Proof.
case=> [|n] //; rewrite subn1 /=.
have -> : size (pairs n.+1) = (\sum_(i < n) (n - i))%N.
  rewrite /pairs size_flatten /shape -map_comp sumnE big_map subn1 /= -[X in iota 0 X]subn0.
  by rewrite -/(index_iota 0 n) big_mkord; apply: eq_bigr => i _ /=; rewrite size_row subSS.
have -> : (\sum_(i < n) (n - i))%N = (\sum_(i < n) i.+1)%N.
  rewrite (reindex_inj rev_ord_inj) /=; apply: eq_bigr => i _.
  by rewrite subKn.
elim: n => [|n IH]; first by rewrite big_ord0.
by rewrite big_ord_recr /= mulnDr IH [(2 * _)%N]mulnC -mulnDr addn2 mulnC.
Qed.

Lemma size_pairs_all : forall n, (0 < n)%N -> ((n - 1) + 2 * size (pairs n) = n * n - 1)%N.
Proof. by case=> [|n] // _; rewrite size_pairs !subn1 mulnS. Qed.

(** What the loops that fill vectors and matrices give. *)
Section Folds.
Variable A : Type.

Lemma vec_fold : forall (l : seq (nat * nat)) (f g : nat * nat -> A) (a : nat -> A) k0,
  let st := foldl (fun (st : (nat -> A) * nat) p =>
      (setv (setv st.1 st.2 (f p)) (Nat.succ st.2) (g p), Nat.add st.2 2)) (a, k0) l in
  st.2 = (k0 + 2 * size l)%N /\
  forall x, st.1 x = if (k0 <= x < k0 + 2 * size l)%N
    then (if odd (x - k0) then g else f) (nth (0, 0)%N l (x - k0)./2) else a x.
Proof.
move=> l f g a k0; elim/last_ind: l => [|l p [E H]] /=.
  by rewrite muln0 addn0; split=> // x; rewrite ltnNge; case: (k0 <= x)%N.
rewrite foldl_rcons; split=> [|x] /=.
  by rewrite E size_rcons mulnS plusE addnAC -addnA [(2 + _)%N]addnC.
rewrite !setvE E H size_rcons mulnS.
have Q : forall b, (b < 2)%N -> (k0 <= k0 + 2 * size l + b < k0 + (2 + 2 * size l))%N.
  by move=> b b2; rewrite -addnA leq_addr /= ltn_add2l addnC ltn_add2r.
have Q2 : forall b : bool, (k0 + 2 * size l + b - k0)./2 = size l.
  by move=> b; rewrite -addnA addKn addnC mul2n half_bit_double.
have Q3 : forall b : bool, odd (k0 + 2 * size l + b - k0) = b.
  by move=> b; rewrite -addnA addKn mul2n oddD odd_double; case: b.
case: eqP => [->|/eqP n1].
  by have := Q 1%N isT; have := Q2 true; have := Q3 true; rewrite !addn1 => -> -> ->; rewrite nth_rcons ltnn eqxx.
case: eqP => [->|/eqP n0].
  by have := Q 0%N isT; have := Q2 false; have := Q3 false; rewrite !addn0 => -> -> ->; rewrite nth_rcons ltnn eqxx.
have -> : (x < k0 + (2 + 2 * size l))%N = (x < k0 + 2 * size l)%N.
  rewrite [(2 + _)%N]addnC addnA addn2 ltnS leq_eqVlt (negbTE n1) /=.
  by rewrite ltnS leq_eqVlt (negbTE n0).
case: ifP => // /andP [k0x xl]; rewrite nth_rcons.
suff -> : ((x - k0)./2 < size l)%N by [].
by rewrite ltnNge geq_half_double -ltnNge -mul2n ltn_subLR.
Qed.

Lemma mat_fold : forall (l : seq (nat * nat)) (v w : nat -> A) (m : nat -> nat -> A) k0
    (st1 : nat -> nat -> A -> (nat -> nat -> A) -> nat -> nat -> A),
  (forall i j x m r c, st1 i j x m r c = if (r == i) && (c == j) then x else m r c) ->
  uniq l -> all (fun p => p.1 < p.2)%N l ->
  let st := foldl (fun (st : (nat -> nat -> A) * nat) p =>
      (st1 p.2 p.1 (w st.2) (st1 p.1 p.2 (v st.2) st.1), Nat.add st.2 2)) (m, k0) l in
  st.2 = (k0 + 2 * size l)%N /\
  forall r c, st.1 r c = if (r, c) \in l then v (k0 + 2 * index (r, c) l)%N
    else if (c, r) \in l then w (k0 + 2 * index (c, r) l)%N else m r c.
Proof.
move=> l v w m k0 st1 st1E; elim/last_ind: l => [|l [i j] IH] /=; first by rewrite muln0 addn0.
rewrite rcons_uniq all_rcons /= => /andP [nl ul] /andP [ij al].
have [E H] := IH ul al; rewrite foldl_rcons; split=> [|r c] /=.
  by rewrite E size_rcons mulnS plusE addnAC -addnA [(2 + _)%N]addnC.
rewrite !st1E E H !mem_rcons !in_cons.
have ix : forall q, index q (rcons l (i, j)) = if q \in l then index q l else if q == (i, j) then size l else (size l).+1.
  by move=> q; rewrite -cats1 index_cat /= eq_sym; case: (q \in l) => //; case: (q == _); rewrite ?addn0 ?addn1.
rewrite !ix !xpair_eqE.
have nij : forall a b, (a == i) && (b == j) -> (a == j) && (b == i) = false.
  by move=> a b /andP [/eqP -> /eqP ->]; rewrite (ltn_eqF ij).
have nm : forall a b, (a == i) && (b == j) -> (a, b) \in l = false.
  by move=> a b /andP [/eqP -> /eqP ->]; apply/negbTE.
have ns : forall a b, (a == i) && (b == j) -> (b, a) \in l = false.
  move=> a b /andP [/eqP -> /eqP ->]; apply/negbTE/negP => /(allP al) /=.
  by rewrite ltnNge (ltnW ij).
case E1 : ((r == j) && (c == i)).
  have E2 : (c == i) && (r == j) by rewrite andbC.
  by rewrite [(r == i) && _]andbC (nij _ _ E2) (ns _ _ E2) (nm _ _ E2) E2.
case E2 : ((r == i) && (c == j)); first by rewrite (nm _ _ E2).
rewrite [(c == i) && _]andbC E1 /=.
by case: ((r, c) \in l) => //; case: ((c, r) \in l).
Qed.
End Folds.
