(** Proofs about the conjugate gradient solver: the iteration. *)
From Coq Require Import List Bool Field_theory Field Lia Arith.
From Verif Require Import CgModel CgSpec CgProofs1.
Import ListNotations.

Section Solver.
Context (K : scalar) (O : ordered_field K).
Notation T := (num K).
Notation "0" := (zero K).
Notation "1" := (one K).
Notation "x + y" := (plus K x y).
Notation "x - y" := (minus K x y).
Notation "x * y" := (times K x y).
Notation "x / y" := (over K x y).

Let FT := of_field K O.
Add Field scalar_field : FT.

Context (m : nat) (D D' : list T -> list T).
Context (LD : linear K m D) (LD' : linear K m D').
Notation A := (fun u => D' (D u)).

Lemma A_vec u : vec K m u -> vec K m (D' (D u)).
Proof. intros. apply (l_vec _ _ _ LD'), (l_vec _ _ _ LD). assumption. Qed.

Lemma A_add u v : vec K m u -> vec K m v ->
  D' (D (vadd K u v)) = vadd K (D' (D u)) (D' (D v)).
Proof.
  intros U V. rewrite (l_add _ _ _ LD) by assumption.
  apply (l_add _ _ _ LD'); apply (l_vec _ _ _ LD); assumption.
Qed.

Lemma A_scale c u : vec K m u -> D' (D (scale K c u)) = scale K c (D' (D u)).
Proof.
  intros U. rewrite (l_scale _ _ _ LD) by assumption.
  apply (l_scale _ _ _ LD'), (l_vec _ _ _ LD). assumption.
Qed.

Context (b : list T) (B : vec K m b).

(** The residual vector is the true one. *)
Definition true_residual (x r : list T) : Prop := r = vsub K b (D' (D x)).

Lemma step_residual x r p alpha :
  vec K m x -> vec K m p -> true_residual x r ->
  true_residual (vadd K x (scale K alpha p)) (vsub K r (scale K alpha (D' (D p)))).
Proof.
  unfold true_residual. intros X P ->.
  rewrite A_add, A_scale by (auto using scale_vec).
  symmetry. apply (sub_add K O m); auto using A_vec, scale_vec.
Qed.

Lemma loop_residual target : forall left i x r p rr rrnew,
  vec K m x -> vec K m r -> vec K m p -> true_residual x r ->
  rr = squarenorm K r -> ((i = 0 /\ left <> 0)%nat \/ rrnew = rr) ->
  match loop K D D' target left i x r p rr rrnew with
  | Undefined => True
  | Finished n out rrn c =>
      vec K m out /\ rrn = squarenorm K (vsub K b (D' (D out))) /\
      if c then less K rrn target = true /\ (n < left + i)%nat
      else n = (left + i)%nat
  end.
Proof.
  induction left as [|left IH]; intros i x r p rr rrnew X R P Tr Er En; cbn [loop].
  - destruct En as [[_ H]|En]; [contradiction|]. rewrite En, Er, Tr.
    split; [exact X|]. split; reflexivity.
  - destruct (is_zero K (squarenorm K (D p))); [exact I|].
    set (alpha := rr / squarenorm K (D p)).
    pose proof (step_residual x r p alpha X P Tr) as Tr'.
    assert (X' : vec K m (vadd K x (scale K alpha p))) by (auto using vadd_vec, scale_vec).
    assert (R' : vec K m (vsub K r (scale K alpha (D' (D p)))))
      by (auto using vsub_vec, scale_vec, A_vec).
    destruct (less K _ target) eqn:E.
    + split; [exact X'|]. rewrite <- Tr'. split; [reflexivity|]. split; [exact E|].
      cbn. lia.
    + destruct (is_zero K rr); [exact I|].
      match goal with |- match loop K D D' target left (S i) ?x1 ?r1 ?p1 ?a ?b with _ => _ end =>
        specialize (IH (S i) x1 r1 p1 a b) end.
      destruct (loop _ _ _ _ left _ _ _ _ _ _) as [|n out rrn c]; [exact I|].
      destruct IH as (V & E1 & E2); auto using vadd_vec, scale_vec.
      split; [exact V|]. split; [exact E1|]. destruct c.
      * split; [apply E2|]. lia.
      * lia.
Qed.

(** ** Orthogonality *)

Context (AD : adjoint K m D D').

Lemma A_sym u v : vec K m u -> vec K m v ->
  dot K (D' (D u)) v = dot K u (D' (D v)).
Proof.
  intros U V. rewrite dot_sym by exact O.
  rewrite <- AD by (auto using (l_vec _ _ _ LD)).
  rewrite dot_sym by exact O. rewrite (AD u) by (auto using (l_vec _ _ _ LD)). reflexivity.
Qed.

Lemma A_norm u : vec K m u -> dot K u (D' (D u)) = squarenorm K (D u).
Proof.
  intros U. rewrite (squarenorm_dot K O). symmetry. apply AD; [exact U|].
  apply (l_vec _ _ _ LD), U.
Qed.

(** [Rs] and [Ps]: the earlier residuals and directions. *)
Record inv (Rs Ps : list (list T)) (x r p : list T) (rr : T) : Prop := {
  i_x : vec K m x;
  i_r : vec K m r;
  i_p : vec K m p;
  i_Rs : Forall (vec K m) Rs;
  i_Ps : Forall (vec K m) Ps;
  i_true : true_residual x r;
  i_rr : rr = dot K r r;
  i_rp : dot K r p = rr;
  i_rq : forall q, In q Ps -> dot K r q = 0;
  i_pq : forall q, In q Ps -> dot K p (D' (D q)) = 0;
  i_span : forall q, In q Ps -> exists c u v, In u (r :: Rs) /\ In v (r :: Rs) /\
    c <> 0 /\ scale K c (D' (D q)) = vsub K u v;
  i_lin : forall u, In u (r :: Rs) -> exists c q q', In q (p :: Ps) /\ In q' (p :: Ps) /\
    u = vsub K q (scale K c q');
  i_orth : orthogonal K Rs;
  i_rR : forall u, In u Rs -> dot K r u = 0
}.

Lemma inv_start x : vec K m x ->
  inv [] [] x (vsub K b (D' (D x))) (vsub K b (D' (D x)))
    (squarenorm K (vsub K b (D' (D x)))).
Proof.
  intros X. set (r := vsub K b (D' (D x))).
  assert (R : vec K m r) by (apply vsub_vec; [exact B|apply A_vec, X]).
  constructor; auto; try (intros q []; fail).
  - reflexivity.
  - apply (squarenorm_dot K O).
  - symmetry. apply (squarenorm_dot K O).
  - intros u [<-|[]]. exists 0, r, r.
    split; [left; reflexivity|]. split; [left; reflexivity|].
    symmetry. apply (sub_scale_zero K O m), R.
  - exact I.
Qed.

Lemma inv_step Rs Ps x r p rr : inv Rs Ps x r p rr ->
  squarenorm K (D p) <> 0 -> rr <> 0 ->
  let alpha := rr / squarenorm K (D p) in
  let x' := vadd K x (scale K alpha p) in
  let r' := vsub K r (scale K alpha (D' (D p))) in
  let beta := squarenorm K r' / rr in
  inv (r :: Rs) (p :: Ps) x' r' (vadd K (scale K beta p) r') (squarenorm K r').
Proof.
  intros [X R P FR FP Tr Er Erp Erq Epq Hspan Hlin Horth HrR] N Nr.
  intros alpha x' r' beta.
  set (d := squarenorm K (D p)) in *.
  assert (Ed : dot K p (D' (D p)) = d) by (apply A_norm, P).
  assert (Na : alpha <> 0).
  { unfold alpha. intros E. apply Nr. replace rr with ((rr / d) * d) by (field; exact N).
    rewrite E. ring. }
  assert (AP : vec K m (D' (D p))) by (apply A_vec, P).
  assert (X' : vec K m x') by (unfold x'; auto using vadd_vec, scale_vec).
  assert (R' : vec K m r') by (unfold r'; auto using vsub_vec, scale_vec).
  assert (P' : vec K m (vadd K (scale K beta p) r')) by (auto using vadd_vec, scale_vec).
  assert (Dr : forall w, vec K m w -> dot K r' w = dot K r w - alpha * dot K (D' (D p)) w).
  { intros w W. unfold r'. rewrite (dot_sub K O m), (dot_scale K O) by (auto using scale_vec).
    reflexivity. }
  assert (Q1 : forall q, In q (p :: Ps) -> dot K r' q = 0).
  { intros q [<-|Hq].
    - rewrite Dr by exact P. rewrite Erp, (dot_sym K O), Ed. unfold alpha. field. exact N.
    - pose proof (proj1 (Forall_forall _ _) FP q Hq) as Vq.
      rewrite Dr by exact Vq. rewrite (Erq q Hq), A_sym, (Epq q Hq) by assumption. ring. }
  assert (FP' : forall q, In q (p :: Ps) -> vec K m q).
  { intros q [<-|Hq]; [exact P|exact (proj1 (Forall_forall _ _) FP q Hq)]. }
  assert (FR' : forall u, In u (r :: Rs) -> vec K m u).
  { intros q [<-|Hq]; [exact R|exact (proj1 (Forall_forall _ _) FR q Hq)]. }
  assert (Q2 : forall u, In u (r :: Rs) -> dot K r' u = 0).
  { intros u Hu. destruct (Hlin u Hu) as (c & q & q' & Hq & Hq' & ->).
    rewrite (dot_sym K O), (dot_sub K O m), (dot_scale K O)
      by (auto using scale_vec).
    rewrite (dot_sym K O q), (dot_sym K O q'), (Q1 q Hq), (Q1 q' Hq'). ring. }
  assert (Ap : scale K alpha (D' (D p)) = vsub K r r').
  { unfold r'. symmetry. apply (sub_sub K O m); auto using scale_vec. }
  constructor; auto.
  - unfold x', r'. apply step_residual; assumption.
  - apply (squarenorm_dot K O).
  - rewrite (dot_sym K O), (dot_add K O m), (dot_scale K O) by (auto using scale_vec).
    rewrite (dot_sym K O p r'), (Q1 p) by (left; reflexivity).
    rewrite (squarenorm_dot K O). ring.
  - intros q Hq.
    assert (Vq : vec K m q) by auto.
    rewrite (dot_add K O m), (dot_scale K O) by (auto using scale_vec, A_vec).
    destruct Hq as [<-|Hq].
    + rewrite Ed.
      assert (E : alpha * dot K r' (D' (D p)) = 0 - squarenorm K r').
      { rewrite <- (dot_scale K O). rewrite (dot_scale K O).
        transitivity (dot K (scale K alpha (D' (D p))) r').
        - rewrite (dot_scale K O), (dot_sym K O r'). reflexivity.
        - rewrite Ap, (dot_sub K O m) by assumption.
          rewrite (squarenorm_dot K O), (dot_sym K O r r'), (Q2 r) by (left; reflexivity).
          reflexivity. }
      replace (dot K r' (D' (D p))) with ((alpha * dot K r' (D' (D p))) / alpha)
        by (field; exact Na).
      rewrite E. unfold alpha, beta. field. split; assumption.
    + rewrite (Epq q Hq).
      destruct (Hspan q Hq) as (c & u & v & Hu & Hv & Nc & E).
      assert (Z : c * dot K (D' (D q)) r' = 0).
      { rewrite <- (dot_scale K O), E, (dot_sub K O m) by auto.
        rewrite (dot_sym K O u), (dot_sym K O v), (Q2 u Hu), (Q2 v Hv). ring. }
      apply (mul_zero K O) in Z. destruct Z as [Z|Z]; [contradiction|].
      rewrite (dot_sym K O r'), Z. ring.
  - intros q [<-|Hq].
    + exists alpha, r, r'. split; [right; left; reflexivity|]. split; [left; reflexivity|].
      split; [exact Na|exact Ap].
    + destruct (Hspan q Hq) as (c & u & v & Hu & Hv & Nc & E).
      exists c, u, v. split; [right; exact Hu|]. split; [right; exact Hv|]. split; assumption.
  - intros u [<-|Hu].
    + exists beta, (vadd K (scale K beta p) r'), p.
      split; [left; reflexivity|]. split; [right; left; reflexivity|].
      symmetry. apply (add_sub K O m); auto using scale_vec.
    + destruct (Hlin u Hu) as (c & q & q' & Hq & Hq' & E).
      exists c, q, q'. split; [right; exact Hq|]. split; [right; exact Hq'|]. exact E.
  - cbn [orthogonal]. split; [rewrite <- Er; exact Nr|]. split; [|exact Horth].
    intros u Hu. apply HrR, Hu.
Qed.

(** ** Division by zero *)

Context (ID : injective K m D).

Lemma D_zero : D (zeros K m) = zeros K m.
Proof.
  rewrite <- (scale_zero K O m (zeros K m)) at 1 by apply zeros_vec.
  rewrite (l_scale _ _ _ LD) by apply zeros_vec.
  apply (scale_zero K O m), (l_vec _ _ _ LD), zeros_vec.
Qed.

Lemma norm_zeros : squarenorm K (zeros K m) = 0.
Proof. rewrite (squarenorm_dot K O). apply (dot_zeros K O). Qed.

Lemma norm_zero v : vec K m v -> squarenorm K v = 0 -> v = zeros K m.
Proof.
  intros V E. rewrite (squarenorm_dot K O) in E. apply (dot_zero K O) in E.
  unfold vec in V. rewrite V in E. exact E.
Qed.

(** The division fails exactly when the residual vanishes. *)
Lemma pDp_zero Rs Ps x r p rr : inv Rs Ps x r p rr ->
  (squarenorm K (D p) = 0 -> rr = 0) .
Proof.
  intros I E. apply norm_zero in E; [|apply (l_vec _ _ _ LD), I].
  apply ID in E; [|apply I]. rewrite <- (i_rp _ _ _ _ _ _ I), E, (dot_sym K O).
  apply (dot_zeros K O).
Qed.

Lemma rr_zero Rs Ps x r p rr : inv Rs Ps x r p rr -> rr = 0 ->
  r = zeros K m /\ D' (D x) = b.
Proof.
  intros I E. assert (Z : r = zeros K m).
  { apply norm_zero; [apply I|]. rewrite (squarenorm_dot K O), <- (i_rr _ _ _ _ _ _ I). exact E. }
  split; [exact Z|]. pose proof (i_true _ _ _ _ _ _ I) as Tr. unfold true_residual in Tr.
  rewrite Z in Tr. symmetry in Tr. apply (sub_zeros K O m) in Tr; [symmetry; exact Tr|exact B|].
  apply A_vec, I.
Qed.

(** Undefined: at an earlier point the residual was exactly zero.  [small]:
    the run cut short there. *)
Lemma loop_undefined target : forall left i Rs Ps x r p rr rrnew,
  inv Rs Ps x r p rr -> (i = 0%nat \/ rrnew = rr) ->
  loop K D D' target left i x r p rr rrnew = Undefined ->
  exists k x' s, (k < left)%nat /\
    loop K D D' target k i x r p rr rrnew = Finished (k + i)%nat x' s false /\ D' (D x') = b.
Proof.
  induction left as [|left IH]; intros i Rs Ps x r p rr rrnew I En E; cbn [loop] in E; [discriminate|].
  destruct (is_zero K (squarenorm K (D p))) eqn:Z.
  - apply (of_zero K O) in Z. apply (pDp_zero _ _ _ _ _ _ I) in Z.
    exists 0%nat, x, rrnew. split; [lia|]. split; [reflexivity|]. apply (rr_zero _ _ _ _ _ _ I Z).
  - apply (is_zero_false K O) in Z.
    destruct (less K _ target) eqn:L; [discriminate|].
    destruct (is_zero K rr) eqn:Zr.
    + apply (of_zero K O) in Zr.
      exists 0%nat, x, rrnew. split; [lia|]. split; [reflexivity|]. apply (rr_zero _ _ _ _ _ _ I Zr).
    + pose proof Zr as Zr'. apply (is_zero_false K O) in Zr.
      pose proof (inv_step _ _ _ _ _ _ I Z Zr) as I'. cbv zeta in I'.
      destruct (IH _ _ _ _ _ _ _ _ I' (or_intror eq_refl) E) as (k & x' & s & Hk & E1 & E2).
      exists (S k), x', s. split; [lia|]. split; [|exact E2].
      cbn [loop]. rewrite (proj2 (is_zero_false K O _) Z), L, Zr'.
      rewrite E1. f_equal. lia.
Qed.

(** Conversely, an exact solution that is not below the target makes the next
    iteration fail. *)
Lemma loop_exact target : forall left i x r p rr rrnew Rs Ps k x' s,
  inv Rs Ps x r p rr -> (rr = 0 -> p = zeros K m) -> (k < left)%nat ->
  loop K D D' target k i x r p rr rrnew = Finished (k + i)%nat x' s false ->
  D' (D x') = b ->
  loop K D D' target left i x r p rr rrnew = Undefined.
Proof.
  induction left as [|left IH]; intros i x r p rr rrnew Rs Ps k x' s I Hp Hk E Ex; [lia|].
  destruct k as [|k].
  - cbn [loop] in E. injection E as <- _.
    assert (Z : rr = 0).
    { rewrite (i_rr _ _ _ _ _ _ I). pose proof (i_true _ _ _ _ _ _ I) as Tr.
      unfold true_residual in Tr. rewrite Tr, Ex, (sub_self K O m) by exact B.
      apply (dot_zeros K O). }
    cbn [loop]. rewrite (Hp Z), D_zero, norm_zeros.
    rewrite (proj2 (of_zero K O 0) eq_refl). reflexivity.
  - cbn [loop] in E |- *.
    destruct (is_zero K (squarenorm K (D p))) eqn:Z; [reflexivity|].
    apply (is_zero_false K O) in Z.
    destruct (less K _ target) eqn:L; [discriminate|].
    destruct (is_zero K rr) eqn:Zr; [reflexivity|].
    apply (is_zero_false K O) in Zr.
    pose proof (inv_step _ _ _ _ _ _ I Z Zr) as I'. cbv zeta in I'.
    eapply (IH _ _ _ _ _ _ _ _ k x' s I').
    + intros Z'. rewrite Z'.
      match goal with |- vadd K (scale K ?c p) ?r1 = _ =>
        assert (Er : r1 = zeros K m) by
          (apply norm_zero; [apply (i_r _ _ _ _ _ _ I')|exact Z']);
        replace c with 0 by (field; exact Zr) end.
      rewrite (scale_zero K O m) by apply I. rewrite Er. apply (zeros_add K O m), zeros_vec.
    + lia.
    + rewrite E. f_equal. lia.
    + exact Ex.
Qed.

(** ** Convergence *)

Lemma loop_converges target : less K 0 target = true ->
  forall left i Rs Ps x r p rr rrnew,
  inv Rs Ps x r p rr -> rr <> 0 -> (m <= length Rs + left)%nat -> (1 <= left)%nat ->
  exists n x' s, loop K D D' target left i x r p rr rrnew = Finished n x' s true.
Proof.
  intros Ht. induction left as [|left IH]; intros i Rs Ps x r p rr rrnew I Nr Hm Hl; [lia|].
  cbn [loop].
  destruct (is_zero K (squarenorm K (D p))) eqn:Z.
  { apply (of_zero K O) in Z. apply (pDp_zero _ _ _ _ _ _ I) in Z. contradiction. }
  apply (is_zero_false K O) in Z.
  pose proof (inv_step _ _ _ _ _ _ I Z Nr) as I'. cbv zeta in I'.
  match goal with |- context [less K ?s target] => destruct (less K s target) eqn:L end;
    [eauto|].
  destruct (is_zero K rr) eqn:Zr; [apply (of_zero K O) in Zr; contradiction|].
  match type of L with less K ?s target = false => assert (Ns : s <> 0) end.
  { intros E. rewrite E, Ht in L. discriminate. }
  destruct left as [|left].
  - exfalso.
    match type of I' with inv _ _ _ ?r1 _ _ =>
      assert (Bound : (length (r1 :: r :: Rs) <= m)%nat) end.
    { apply (orthogonal_bound K O m).
      - constructor; [apply I'|apply (i_Rs _ _ _ _ _ _ I')].
      - cbn [orthogonal]. split; [rewrite <- (i_rr _ _ _ _ _ _ I'); exact Ns|].
        split; [apply (i_rR _ _ _ _ _ _ I')|apply (i_orth _ _ _ _ _ _ I')]. }
    cbn in Bound. lia.
  - apply (IH _ _ _ _ _ _ _ _ I' Ns); cbn [length]; lia.
Qed.

End Solver.
