(** The generators. *)
Set Warnings "-notation-overridden,-ambiguous-paths".
From mathcomp Require Import all_ssreflect all_algebra.
From Verif Require Import LinalgModel LinalgSpec LinalgProofs1 LinalgProofs3 LinalgProofs4
  FieldTac MatrixModel MatrixSpec MatrixProofs1 EigenSpec EigenProofs1 EigenProofs2 SuModel SuSpec
  AlgebraModel AlgebraSpec AlgebraProofs1 AlgebraProofs2 AlgebraProofs3.
Set Implicit Arguments.
Unset Strict Implicit.
Unset Printing Implicit Defensive.
Import Order.TTheory GRing.Theory Num.Theory.
Local Open Scope ring_scope.

Local Arguments MatrixModel.of_nat : simpl never.

Section Generators.
Variables (F : numFieldType) (f : F -> F) (u : F) (cj : {rmorphism F -> F}) (re im root : F -> F) (I : F).
Hypothesis P : complex_parts cj re im root I.
Let C : complex_numbers cj re root. Proof. by case: P. Qed.
Notation S := (field_scalars f u).
Notation nrm := (nrm root).
Notation expand := (expand S cj root I).
Notation project := (project_to_algebra S cj re im root).

(** *** Antihermitean traceless matrices *)

Lemma adjointB : forall n (A B : 'M[F]_n), adjoint cj (A - B) = adjoint cj A - adjoint cj B.
Proof. by move=> n A B; apply/matrixP => i j; rewrite !mxE rmorphB. Qed.

Lemma adjointZ : forall n x (A : 'M[F]_n), adjoint cj (x *: A) = cj x *: adjoint cj A.
Proof. by move=> n x A; apply/matrixP => i j; rewrite !mxE rmorphM. Qed.

Lemma adjointN : forall n (A : 'M[F]_n), adjoint cj (- A) = - adjoint cj A.
Proof. by move=> n A; apply/matrixP => i j; rewrite !mxE rmorphN. Qed.

Lemma adjoint_scalar : forall n x, adjoint cj (x%:M : 'M[F]_n) = (cj x)%:M.
Proof. by move=> n x; apply/matrixP => i j; rewrite !mxE rmorphMn eq_sym. Qed.

Lemma tr_adjoint : forall n (A : 'M[F]_n), \tr (adjoint cj A) = cj (\tr A).
Proof. by move=> n A; rewrite /mxtrace rmorph_sum; apply: eq_bigr => i _; rewrite !mxE. Qed.

Lemma cj2 : cj (2%:R^-1) = 2%:R^-1.
Proof. by rewrite fmorphV rmorph_nat. Qed.

Lemma part_anti : forall n (A : 'M[F]_n), antihermitean cj (algebra_part cj A).
Proof.
move=> n A; rewrite /antihermitean /algebra_part.
have E : adjoint cj (2%:R^-1 *: (A - adjoint cj A)) = - (2%:R^-1 *: (A - adjoint cj A)).
  by rewrite adjointZ adjointB (adjointK C) cj2 -scalerN opprB.
move: E; move: (2%:R^-1 *: _) => B E.
rewrite adjointB E adjoint_scalar fmorph_div rmorph_nat -tr_adjoint E raddfN mulNr opprB.
by rewrite -scalemx1 scaleNr opprK scalemx1 addrC.
Qed.

Lemma part_trace : forall n (A : 'M[F]_n), (0 < n)%N -> \tr (algebra_part cj A) = 0.
Proof.
move=> n A n0; rewrite /algebra_part; move: (2%:R^-1 *: _) => B.
by rewrite raddfB /= mxtrace_scalar -mulr_natr divfK ?subrr // pnatr_eq0 -lt0n.
Qed.

Lemma part_id : forall n (A : 'M[F]_n), antihermitean cj A -> \tr A = 0 -> algebra_part cj A = A.
Proof.
move=> n A HA TA; rewrite /algebra_part HA opprK.
have -> : 2%:R^-1 *: (A + A) = A.
  by rewrite -mulr2n -scaler_nat scalerA mulVf ?scale1r // pnatr_eq0.
by rewrite TA mul0r raddf0 subr0.
Qed.

Lemma project_real : forall n A, (0 < n)%N -> real_components (n * n - 1) (project n A).
Proof.
move=> n A n0 k kn; rewrite (projectE P) //; case: ifP => [kn1|_].
  rewrite rpredM ?realV ?(nrm_real P) // rpredM ?realn // rpredB //.
    by apply: sum_real => j _; apply: (im_real P).
  by rewrite rpredM ?realn // (im_real P).
by case: (odd _); [apply: (im_real P)|apply: (re_real C)].
Qed.

(** Only the components with an index below n * n - 1 are looked at. *)
Lemma expand_ext : forall n c d, (forall k, (k < n * n - 1)%N -> c k = d k) ->
  mxr n n (expand n c) = mxr n n (expand n d).
Proof.
move=> n c d E; apply/matrixP => r q; rewrite !mxE !(expandE P) //.
have n0 : (0 < n)%N by apply: leq_ltn_trans (ltn_ord r).
have nn : (n - 1 <= n * n - 1)%N by rewrite leq_sub2r // leq_pmulr.
have E' : forall i, (0 < i)%N -> (i < n)%N -> c (i - 1)%N = d (i - 1)%N.
  by move=> i i0 hi; apply: E; apply: leq_trans nn; rewrite ltn_sub2r // (leq_ltn_trans _ hi).
case: ltngtP => [h|h|h].
- by rewrite /velem !E // ?pos_lt // ltnW // pos_lt.
- by rewrite /velem !E // ?pos_lt // ltnW // pos_lt.
rewrite /rsum; congr (_ * (_ - _)).
  by apply: eq_big_nat => i /andP [ri hi]; rewrite E' // (leq_ltn_trans _ ri).
by case: (posnP r) => [->|r0]; rewrite ?mul0r // E'.
Qed.

Lemma expand_part : forall n c, (0 < n)%N -> real_components (n * n - 1) c ->
  mxr n n (expand n c) = algebra_part cj (mxr n n (expand n c)).
Proof.
move=> n c n0 R; rewrite -(expand_project P) //; apply: expand_ext => k kn.
by rewrite (project_expand f u P).
Qed.

Lemma expand_anti : forall n c, (0 < n)%N -> real_components (n * n - 1) c ->
  antihermitean cj (mxr n n (expand n c)) /\ \tr (mxr n n (expand n c)) = 0.
Proof.
by move=> n c n0 R; rewrite (expand_part n0 R); split; [apply: part_anti|apply: part_trace].
Qed.

Lemma rsum_lin : forall n (c d : nat -> F) x j, rsum n (fun i => (c (i - 1)%N + x * d (i - 1)%N) / nrm i) j
  = rsum n (fun i => c (i - 1)%N / nrm i) j + x * rsum n (fun i => d (i - 1)%N / nrm i) j.
Proof.
move=> n c d x j; rewrite /rsum mulrBr addrACA -opprD; congr (_ - _).
  rewrite mulr_sumr -big_split /=; apply: eq_bigr => i _.
  by rewrite mulrDl mulrA.
by rewrite mulrDl mulrDr; congr (_ + _); rewrite !mulrA [x * _]mulrC.
Qed.

Lemma velem_lin : forall n (c d : nat -> F) x i j, velem I n (fun k => c k + x * d k) 2%:R^-1 i j
  = velem I n c 2%:R^-1 i j + x * velem I n d 2%:R^-1 i j.
Proof.
move=> n c d x i j; rewrite /velem mulrDr addrACA; congr (_ + _).
  by rewrite mulrDl mulrA.
by rewrite mulrDl mulrDr; congr (_ + _); rewrite !mulrA [x * _]mulrC.
Qed.

Lemma expand_lin : forall n c d x, x \is Num.real ->
  mxr n n (expand n (fun k => c k + x * d k)) = mxr n n (expand n c) + x *: mxr n n (expand n d).
Proof.
move=> n c d x rx; apply/matrixP => r q; rewrite !mxE !(expandE P) //.
rewrite rsum_lin !velem_lin.
case: ltngtP => [h|h|h] //.
  move: (velem I n c _ _ _) (velem I n d _ _ _) => a b.
  by rewrite rmorphD rmorphM (cj_real C rx) opprD mulrN.
by rewrite mulrDr [I * (x * _)]mulrCA.
Qed.

(** *** The lists *)

Definition glist (n x : nat) : seq (nat * nat * F) :=
  if (x < n - 1)%N
  then rcons [seq (j, j, I * (nrm x.+1)^-1) | j <- iota 0 x.+1] (x.+1, x.+1, I * (- x.+1%:R / nrm x.+1))
  else let p := pair_at n x in
    if odd (x - (n - 1)) then [:: (p.1, p.2, I * 2%:R^-1); (p.2, p.1, I * 2%:R^-1)]
    else [:: (p.1, p.2, 2%:R^-1); (p.2, p.1, - 2%:R^-1)].

Lemma pushE : forall n l i j v, (size l < n)%N -> push S n l i j v = Some (rcons l (i, j, v)).
Proof.
move=> n l i j v h; rewrite /push.
have -> : PeanoNat.Nat.ltb (length l) n = true by apply/PeanoNat.Nat.ltb_spec0/ssrnat.ltP.
by rewrite -cats1.
Qed.

Lemma diag_list : forall n i, (0 < i)%N -> (i < n)%N ->
  generator_diag S root I n i = Some (rcons [seq (j, j, I * (nrm i)^-1) | j <- iota 0 i] (i, i, I * (- i%:R / nrm i))).
Proof.
move=> n i i0 hi; rewrite /generator_diag !intE ?plusE addn1 -/(nrm i).
have q0 := lt0r_neq0 (nrm_gt0 P i0).
rewrite !quotientE // /SuModel.complex /= !add0r div1r.
have L : forall m, (m <= i)%N -> loopo 0 m (fun j l => push S n l j j (I / nrm i)) [::]
    = Some [seq (j, j, I / nrm i) | j <- iota 0 m].
  elim=> [|m IH] hm; first by rewrite loopo_nil.
  rewrite loopoSr // IH ?(ltnW hm) // pushE; last by rewrite size_map size_iota (ltn_trans hm).
  by rewrite -[m.+1]addn1 iotaD map_cat cats1.
by rewrite L // pushE // size_map size_iota.
Qed.

Lemma pair_list : forall n i j v w, (1 < n)%N ->
  generator_pair S n i j v w = Some [:: (i, j, v); (j, i, w)].
Proof. by move=> n i j v w h; rewrite /generator_pair pushE ?(ltnW h) //= pushE. Qed.

Lemma loopo_some : forall X (Q : nat -> X -> Prop) a b body s, (a <= b)%N -> Q a s ->
  (forall k t, (a <= k < b)%N -> Q k t -> exists v, body k t = Some v /\ Q k.+1 v) ->
  exists v, loopo a b body s = Some v /\ Q b v.
Proof.
move=> X Q a b body s ab Q0 step; have := @loopoP _ Q False a b body s ab Q0.
case: (loopo a b body s) => [v|] H.
  by exists v; split=> //; apply: H => k t kab Qk; have [v' [-> Hv]] := step k t kab Qk.
by case: H => k t kab Qk; have [v' [-> Hv]] := step k t kab Qk.
Qed.

Lemma generator_listE : forall n gens, (0 < n)%N -> exists gens',
  generator_list S root I n gens = Some gens' /\ forall x, (x < n * n - 1)%N -> gens' x = glist n x.
Proof.
move=> n gens n0; rewrite /generator_list.
set body := (fun i gens => match generator_diag S root I n i with None => _ | Some l => _ end).
pose Q i (d : nat -> sparse S) := forall x, (x < i - 1)%N -> d x = glist n x.
have [|i d' /andP [i0 hi] H|d [-> Hd]] := @loopo_some _ Q 1%N n body gens n0; first by [].
  exists (setv d' (i - 1)%coq_nat (glist n (i - 1))).
  have E : (i - 1).+1 = i by rewrite -addn1 subnK.
  rewrite /body diag_list //; split.
    by rewrite /glist ltn_sub2r ?(leq_ltn_trans _ hi) // E.
  move=> x; rewrite subSS subn0 setvE minusE => xi; case: eqP => [->//|ne].
  by apply: H; rewrite ltn_subRL add1n ltn_neqAle xi andbT; apply/eqP => e; apply: ne; rewrite -e subn1.
rewrite (@loopo_pairs _ n (fun i j st => let '(gens, k) := st in
        match generator_pair S n i j (SuModel.complex S I (half S) 0) (SuModel.complex S I (- half S) 0) with
        | None => None
        | Some l =>
            let gens := setv gens k l in
            match generator_pair S n i j (SuModel.complex S I 0 (half S)) (SuModel.complex S I 0 (half S)) with
            | None => None
            | Some l => Some (setv gens (Nat.succ k) l, Nat.add k 2)
            end
        end)).
have -> : SuModel.complex S I (half S) 0 = 2%:R^-1 by rewrite halfE /SuModel.complex /= mulr0 addr0.
have -> : SuModel.complex S I (- half S) 0 = - 2%:R^-1 by rewrite halfE /SuModel.complex /= mulr0 addr0.
have -> : SuModel.complex S I 0 (half S) = I * 2%:R^-1 by rewrite halfE /SuModel.complex /= add0r.
pose g1 (p : nat * nat) : sparse S := [:: (p.1, p.2, 2%:R^-1); (p.2, p.1, - 2%:R^-1)].
pose g2 (p : nat * nat) : sparse S := [:: (p.1, p.2, I * 2%:R^-1); (p.2, p.1, I * 2%:R^-1)].
have [_ Hf] := vec_fold (pairs n) g1 g2 d (n - 1)%N.
exists (foldl (fun st p => (setv (setv st.1 st.2 (g1 p)) (Nat.succ st.2) (g2 p), Nat.add st.2 2)) (d, (n - 1)%N) (pairs n)).1.
split.
  rewrite (_ : foldl _ (Some _) _ = Some (foldl (fun st p => (setv (setv st.1 st.2 (g1 p)) (Nat.succ st.2) (g2 p), Nat.add st.2 2)) (d, (n - 1)%N) (pairs n))) //.
  have : all (fun p => 1 < n)%N (pairs n).
    apply/allP => [[i j]]; rewrite mem_pairs => /andP [ij jn].
    by apply: leq_ltn_trans jn; apply: leq_ltn_trans ij.
  move: (d, (n - 1)%N) => st; elim: (pairs n) st => [|p l IH] [d' k] //= /andP [n1 /IH <-].
  by rewrite !pair_list.
move=> x xn; rewrite Hf size_pairs_all // xn andbT [(n - 1 <= x)%N]leqNgt.
case: (ltnP x) => [xn1|nx] /=; first exact: Hd.
by rewrite /glist ltnNge nx /= -/(pair_at n x); case: (odd _).
Qed.

(** *** Sparse matrices *)

Definition spos (l : seq (nat * nat * F)) : seq (nat * nat) := [seq e.1 | e <- l].

Lemma fold_left_foldl : forall A B (g : A -> B -> A) l s, List.fold_left g l s = foldl g s l.
Proof. by move=> A B g; elim=> [|b l IH] s //=. Qed.

Lemma to_matrixE : forall (l : sparse S) r c, uniq (spos l) ->
  to_matrix S l r c = \sum_(e <- l) (if (r, c) == e.1 then e.2 else 0).
Proof.
move=> l r c; rewrite /to_matrix fold_left_foldl.
elim/last_ind: l => [|l [[i j] v] IH]; first by rewrite big_nil.
rewrite /spos map_rcons rcons_uniq foldl_rcons -cats1 big_cat big_seq1 /= => /andP [nl /IH E].
rewrite setE xpair_eqE; case: (boolP ((r == i) && (c == j))) => [/andP [/eqP -> /eqP ->]|_]; last by rewrite E addr0.
rewrite big1_seq ?add0r // => e /= el; case: eqP => // ee; case/negP: nl.
by apply/mapP; exists e.
Qed.

(** Positions are different and in range. *)
Definition sparse_ok n (l : seq (nat * nat * F)) : Prop :=
  uniq (spos l) /\ forall p, p \in spos l -> (p.1 < n)%N && (p.2 < n)%N.

Lemma tr_sparse : forall n (l : sparse S) (A : nat -> nat -> F), sparse_ok n l ->
  \tr (adjoint cj (mxr n n (to_matrix S l)) *m mxr n n A) = \sum_(e <- l) cj e.2 * A e.1.1 e.1.2.
Proof.
move=> n l A [ul hl].
transitivity (\sum_(i < n) \sum_(j < n) \sum_(e <- l) (if (j : nat, i : nat) == e.1 then cj e.2 * A j i else 0)).
  rewrite /mxtrace; apply: eq_bigr => i _; rewrite mxE; apply: eq_bigr => j _.
  rewrite !mxE to_matrixE // rmorph_sum mulr_suml; apply: eq_bigr => e _.
  by case: ifP; rewrite ?rmorph0 ?mul0r.
transitivity (\sum_(e <- l) \sum_(i < n) \sum_(j < n) (if (j : nat, i : nat) == e.1 then cj e.2 * A j i else 0)).
  by rewrite [RHS]exchange_big; apply: eq_bigr => i _; exact: exchange_big.
rewrite big_seq [RHS]big_seq; apply: eq_bigr => [[[a b] v]] el /=.
have /andP [an bn] : (a < n)%N && (b < n)%N by apply: (hl (a, b)); apply/mapP; exists (a, b, v).
rewrite (bigD1 (Ordinal bn)) //= (bigD1 (Ordinal an)) //= eqxx big1 ?addr0 ?big1 ?addr0 //.
  by move=> i ib; apply: big1 => j _; rewrite xpair_eqE; case: (i =P Ordinal bn) ib => // ne _; case: eqP => //= _; case: eqP => // e; case: ne; apply: val_inj.
by move=> j ja; rewrite xpair_eqE; case: (j =P Ordinal an) ja => // ne _; case: eqP => // e; case: ne; apply: val_inj.
Qed.

Lemma glist_ok : forall n x, (0 < n)%N -> (x < n * n - 1)%N -> sparse_ok n (glist n x).
Proof.
move=> n x n0 xn; rewrite /glist; case: ltnP => [xn1|nx].
  have E : spos (rcons [seq (j, j, I / nrm x.+1) | j <- iota 0 x.+1] (x.+1, x.+1, I * (- x.+1%:R / nrm x.+1)))
    = [seq (j, j) | j <- iota 0 x.+2].
    by rewrite /spos map_rcons -map_comp -[x.+2]addn1 iotaD map_cat cats1.
  have x1 : (x.+1 < n)%N by move: xn1; rewrite ltn_subRL add1n.
  split; first by rewrite E map_inj_uniq ?iota_uniq // => a b [].
  move=> p; rewrite E => /mapP [j]; rewrite mem_iota add0n => /andP [_ jx] -> /=.
  by rewrite andbb (leq_trans jx).
have := pair_mem n0 nx xn; case: (pair_at n x) => i j; rewrite mem_pairs => /andP [ij jn].
have hin : (i < n)%N by apply: ltn_trans jn.
split; first by case: (odd _); rewrite /= andbT inE xpair_eqE (ltn_eqF ij).
by move=> p; case: (odd _); rewrite /spos /= !inE => /orP [] /eqP -> /=; rewrite hin jn.
Qed.

(** *** Real and imaginary parts *)

Lemma reD : forall x y, re (x + y) = re x + re y.
Proof. by move=> x y; rewrite !(reE P) -mulrDl rmorphD addrACA. Qed.

Lemma re0 : re 0 = 0.
Proof. by rewrite (reE P) rmorph0 addr0 mul0r. Qed.

Lemma re_sum : forall (X : Type) (l : seq X) (g : X -> F), re (\sum_(i <- l) g i) = \sum_(i <- l) re (g i).
Proof. by move=> X l g; rewrite (big_morph re reD re0). Qed.

Lemma reZ : forall x z, x \is Num.real -> re (x * z) = x * re z.
Proof. by move=> x z rx; rewrite !(reE P) rmorphM (cj_real C rx) -mulrDr mulrA. Qed.

Lemma re_cj : forall x, re (cj x) = re x.
Proof. by move=> x; rewrite !(reE P) (cjK C) addrC. Qed.

Lemma re_NI : forall z, re (- I * z) = im z.
Proof.
move=> z; rewrite -{1}(parts P z) mulrDr !mulNr mulrA (II P) mulN1r opprK addrC -mulrN.
by rewrite (re_complex P) ?rpredN ?(im_real P) // (re_real C).
Qed.

Lemma imB : forall x y, im (x - y) = im x - im y.
Proof. by move=> x y; rewrite !(imE P) -mulrBl rmorphB opprD addrACA -opprD. Qed.

Lemma im_cj : forall x, im (cj x) = - im x.
Proof. by move=> x; rewrite !(imE P) (cjK C) -mulNr opprB. Qed.

(** *** Projection is the product with the generators *)

Lemma project_tr : forall n A k, (0 < n)%N -> (k < n * n - 1)%N ->
  project n A k = 2%:R * re (\tr (adjoint cj (mxr n n (to_matrix S (glist n k))) *m mxr n n A)).
Proof.
move=> n A k n0 kn; rewrite tr_sparse; last exact: glist_ok.
rewrite (projectE P) // /glist; case: ltnP => [k1|nk].
  pose L := iota 0 k.+1; rewrite -/L -cats1 big_cat big_seq1 big_map /=.
  have x1 : (k.+1 < n)%N by move: k1; rewrite ltn_subRL add1n.
  have q0 := lt0r_neq0 (nrm_gt0 P (ltn0Sn k)).
  have T : forall x z, x \is Num.real -> re (cj (I * x) * z) = x * im z.
    by move=> x z rx; rewrite rmorphM (cjI P) (cj_real C rx) [- I * x]mulrC -mulrA reZ // re_NI.
  have rv : (nrm k.+1)^-1 \is Num.real by rewrite realV (nrm_real P).
  rewrite reD re_sum T; last by rewrite rpredM ?rpredN ?realn.
  rewrite (eq_bigr (fun j => (nrm k.+1)^-1 * im (A j j))); last by move=> j _; rewrite T.
  rewrite -mulr_sumr -[L]/(index_iota 0 k.+1) -/(ysum im A k.+1).
  exact: (@gen_field _ _ _ _ _ _ _ _ _ (mc_field F)).
rewrite /off; case: (pair_at n k) => i j /=.
case: (odd _); rewrite big_cons big_seq1 /= reD.
  have T : forall z, 2%:R * re (cj (I * 2%:R^-1) * z) = im z.
    move=> z; rewrite rmorphM (cjI P) cj2 [- I * _]mulrC -mulrA reZ ?realV ?realn // re_NI.
    by rewrite mulrA mulfV ?mul1r // pnatr_eq0.
  by rewrite mulrDr !T imB im_cj opprK.
have T : forall z, 2%:R * re (2%:R^-1 * z) = re z.
  by move=> z; rewrite reZ ?realV ?realn // mulrA mulfV ?mul1r // pnatr_eq0.
rewrite [re (_ + _)]reD mulrDr rmorphN cj2 T mulNr -mulrN T.
by rewrite -[- cj _]mulN1r reZ ?rpredN ?real1 // re_cj -[- A j i]mulN1r reZ ?rpredN ?real1.
Qed.

(** *** The generators are the expanded unit vectors *)

Definition unitv (l : nat) : nat -> F := fun k => (k == l)%:R.

Lemma unitv_real : forall l m, real_components m (unitv l).
Proof. by move=> l m k _; rewrite /unitv realn. Qed.

Lemma sum_delta : forall a b x (v : F),
  \sum_(a <= i < b) (if x == i then v else 0) = if (a <= x < b)%N then v else 0.
Proof.
move=> a b x v; case: ifP => h.
  rewrite (bigD1_seq x) ?mem_index_iota ?iota_uniq //= eqxx big1 ?addr0 // => i.
  by rewrite eq_sym => /negPf ->.
rewrite big1_seq // => i /andP [_]; rewrite mem_index_iota; case: eqP => // <-.
by rewrite h.
Qed.

Lemma pos_eq : forall n i j r q (b b' : bool), (i < j)%N -> (j < n)%N -> (r < q)%N -> (q < n)%N ->
  (pos n r q + b == pos n i j + b')%N = ((r, q) == (i, j)) && (b == b').
Proof.
move=> n i j r q b b' ij jn rq qn; apply/eqP/andP => [E|[/eqP [-> ->] /eqP ->]] //.
by rewrite -(pair_pos b rq qn) E (pair_pos b' ij jn) -(pos_odd n r q b) E pos_odd.
Qed.

Lemma expand_unit : forall n l, (0 < n)%N -> (l < n * n - 1)%N ->
  mxr n n (expand n (unitv l)) = mxr n n (to_matrix S (glist n l)).
Proof.
move=> n l n0 ln; apply/matrixP => r q; rewrite !mxE (expandE P) //.
rewrite to_matrixE; last by have [] := glist_ok n0 ln.
rewrite /glist; case: (ltnP l) => [l1|nl].
  have x1 : (l.+1 < n)%N by move: l1; rewrite ltn_subRL add1n.
  pose L := iota 0 l.+1; rewrite -/L -cats1 big_cat big_seq1 big_map [_.1]/= [_.2]/=.
  have V : forall i j, velem I n (unitv l) 2%:R^-1 i j = 0.
    move=> i j; rewrite /velem /unitv !gtn_eqF ?mul0r ?mulr0 ?addr0 //.
      by apply: leq_trans l1 _; apply: leq_trans (pos_ge n i j) _.
    exact: leq_trans l1 (pos_ge n i j).
  rewrite !V rmorph0 oppr0 if_same xpair_eqE.
  rewrite (eq_bigr (fun j => if (r : nat) == j then (if (r : nat) == q then I / nrm l.+1 else 0) else 0)); last first.
    move=> j _; rewrite xpair_eqE; case: eqP => //= ->; by rewrite eq_sym.
  rewrite -[L]/(index_iota 0 l.+1) sum_delta leq0n /=.
  case: (r =P q :> nat) => [<-|ne]; last first.
    rewrite if_same add0r; case: ifP => // /andP [/eqP a /eqP b].
    by case: ne; rewrite a b.
  rewrite andbb /rsum.
  have -> : \sum_(r.+1 <= i < n) unitv l (i - 1)%N / nrm i
      = \sum_(r.+1 <= i < n) (if l.+1 == i then (nrm l.+1)^-1 else 0).
    apply: eq_big_nat => i /andP [ri _]; rewrite /unitv.
    case: i ri => // i _; rewrite subn1 /= eqSS eq_sym; case: eqP => [->|_]; by rewrite ?mul1r ?mul0r.
  rewrite sum_delta x1 andbT ltnS mulrDr; congr (_ + _).
    by case: ifP; rewrite ?mulr0.
  rewrite /unitv; case: (nat_of_ord r) => [|r']; first by rewrite mul0r oppr0 mulr0.
  rewrite subn1 /= eqSS; case: eqP => [->|_]; last by rewrite mul0r mulr0 oppr0 mulr0.
  by rewrite mul1r mulNr.
have := pair_mem n0 nl ln; have := pos_pair n0 nl ln.
case: (pair_at n l) => i j; rewrite mem_pairs => /= lE /andP [ij jn].
pose b := odd (l - (n - 1)).
have V : forall r q, (r < q)%N -> (q < n)%N -> velem I n (unitv l) 2%:R^-1 r q
    = if (r, q) == (i, j) then (if b then I / 2%:R else 2%:R^-1) else 0.
  move=> r' q' rq qn.
  have lb : l = (pos n i j + b)%N := lE.
  have E0 := @pos_eq n i j r' q' false b ij jn rq qn.
  have E1 := @pos_eq n i j r' q' true b ij jn rq qn.
  rewrite -lb addn0 in E0; rewrite -lb addn1 in E1.
  rewrite /velem /unitv E0 E1 /=.
  by case: (_ == _); case: (b); rewrite /= ?mul1r ?mul0r ?mulr0 ?addr0 ?add0r.
rewrite -/b; have rn := ltn_ord r; have qn := ltn_ord q.
have Vc : forall r q, (r < q)%N -> (q < n)%N -> - cj (velem I n (unitv l) 2%:R^-1 r q)
    = if (r, q) == (i, j) then (if b then I / 2%:R else - 2%:R^-1) else 0.
  move=> r' q' rq q'n; rewrite V //; case: (_ == _); last by rewrite rmorph0 oppr0.
  by case: (b); rewrite ?rmorphM ?(cjI P) cj2 ?mulNr ?opprK.
case: (ltngtP r q) => [rq|qr|/= rq].
- rewrite V //; case: (b); rewrite big_cons big_seq1 /= !xpair_eqE;
  case: (r =P j :> nat) => [rj|_]; rewrite ?addr0 //=; case: (q =P i :> nat) => [qi|_]; rewrite ?addr0 //.
  + by move: rq; rewrite rj qi ltnNge ltnW.
  by move: rq; rewrite rj qi ltnNge ltnW.
- rewrite Vc //; case: (b); rewrite big_cons big_seq1 /= !xpair_eqE [((q : nat) == i) && _]andbC;
  case: (r =P i :> nat) => [ri|_]; rewrite ?add0r //=; case: (q =P j :> nat) => [qj|_]; rewrite ?add0r //.
  + by move: qr; rewrite ri qj ltnNge ltnW.
  by move: qr; rewrite ri qj ltnNge ltnW.
have -> : rsum n (fun i0 => unitv l (i0 - 1)%N / nrm i0) r = 0.
  rewrite /rsum /unitv big1_seq ?sub0r.
    case: (nat_of_ord r) rn => [|r'] h; first by rewrite mul0r oppr0.
    rewrite subn1 /= ltn_eqF ?mul0r ?mulr0 ?oppr0 //.
    by apply: leq_trans nl; rewrite ltn_subRL add1n.
  move=> x /andP [_]; rewrite mem_index_iota => /andP [rx xn].
  case: x rx xn => // x rx xn; rewrite subn1 /= ltn_eqF ?mul0r //.
  by apply: leq_trans nl; rewrite ltn_subRL add1n.
rewrite mulr0 -rq; case: (b); rewrite big_cons big_seq1 /= !xpair_eqE;
  case: (r =P i :> nat) => [->|_] /=; rewrite ?(ltn_eqF ij) ?andbF ?addr0 //;
  case: (r =P j :> nat) => [->|_] /=; rewrite ?(gtn_eqF ij) ?addr0 //.
Qed.

End Generators.
