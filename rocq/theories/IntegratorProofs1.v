From Coq Require Import ZArith QArith List Lia Lqa Permutation.
From Verif Require Import IntegratorModel IntegratorSpec.
Import ListNotations.
Open Scope Q_scope.

Lemma zip_length {A B C} (f : A -> B -> C) l m :
  length l = length m -> length (zip f l m) = length l.
Proof.
  revert m; induction l as [|a l IH]; intros [|b m] H; cbn in *; try discriminate; [reflexivity|].
  f_equal. apply IH. lia.
Qed.

Lemma repeatedly_last {A} n (f : A -> A) x : repeatedly (S n) f x = f (repeatedly n f x).
Proof. revert x; induction n as [|n IH]; intros x; [reflexivity|]. cbn [repeatedly] in *. apply IH. Qed.

Lemma repeatedly_inv {A} (I : A -> Prop) n (f : A -> A) x :
  (forall y, I y -> I (f y)) -> I x -> I (repeatedly n f x).
Proof. intros H. revert x; induction n as [|n IH]; intros x Hx; cbn; auto. Qed.

Lemma repeatedly_back {A} (I : A -> Prop) n (f g : A -> A) x :
  (forall y, I y -> I (f y)) -> (forall y, I y -> g (f y) = y) -> I x ->
  repeatedly n g (repeatedly n f x) = x.
Proof.
  intros Hi Hg. revert x; induction n as [|n IH]; intros x Hx; [reflexivity|].
  rewrite (repeatedly_last n g). cbn [repeatedly]. rewrite IH by auto. auto.
Qed.

Lemma repeatedly_ext {A} n (f g : A -> A) x :
  (forall y, f y = g y) -> repeatedly n f x = repeatedly n g x.
Proof. intros H. revert x; induction n as [|n IH]; intros x; cbn; [reflexivity|]. rewrite H. apply IH. Qed.

Section Dynamics.
Context (D : dynamics).

(** ** Sums of forces *)

Definition commuting : Prop := forall e e' f f' p,
  kick D e f (kick D e' f' p) = kick D e' f' (kick D e f p).

Lemma pushed_app l1 l2 e s : pushed D (l1 ++ l2) e s = pushed D l2 e (pushed D l1 e s).
Proof. apply fold_left_app. Qed.

Lemma force_pushed a e s : force_step D a e s = pushed D (terms a) e s.
Proof.
  revert s; induction a as [i|a1 IH1 a2 IH2]; intros s; [reflexivity|].
  cbn [force_step terms]. rewrite pushed_app, IH1, IH2. reflexivity.
Qed.

Lemma term_commute i j e e' s : commuting ->
  force_step_term D i e (force_step_term D j e' s) =
  force_step_term D j e' (force_step_term D i e s).
Proof.
  intros C. destruct s as [g p]. unfold force_step_term. cbn [fst snd]. f_equal.
  generalize (force D i g) as f1, (force D j g) as f2.
  induction p as [|x p IH]; intros [|a f1] [|b f2]; cbn; try reflexivity.
  f_equal; [apply C|apply IH].
Qed.

Lemma pushed_commute l e i e' s : commuting ->
  pushed D l e (force_step_term D i e' s) = force_step_term D i e' (pushed D l e s).
Proof.
  intros C. revert s; induction l as [|j l IH]; intros s; [reflexivity|].
  cbn [pushed fold_left]. fold (pushed D l e (force_step_term D j e (force_step_term D i e' s))).
  fold (pushed D l e (force_step_term D j e s)).
  rewrite (term_commute j i) by exact C. apply IH.
Qed.

(** ** Reversibility *)
Section Reversible.
Hypothesis R : reversible D.

Lemma update_matching e s : matching s -> matching (gauge_update D e s).
Proof. unfold matching, gauge_update. cbn. intros H. rewrite zip_length by exact H. reflexivity. Qed.

Lemma force_matching a e s : matching s -> matching (force_step D a e s).
Proof.
  revert e s; induction a as [i|a1 IH1 a2 IH2]; intros e s H; cbn; [|auto].
  unfold matching, force_step_term in *. cbn. rewrite zip_length; [exact H|].
  rewrite (r_force D R). exact H.
Qed.

Lemma step_matching i e s : matching s -> matching (step D i e s).
Proof.
  revert e s; induction i as [|a i IH n|a i IH n]; intros e s H; cbn [step].
  - apply update_matching, H.
  - apply repeatedly_inv; [intros; apply IH; assumption|].
    apply force_matching. apply repeatedly_inv; [intros; apply IH; assumption|exact H].
  - repeat first [exact H | apply force_matching
      | apply repeatedly_inv; [intros; apply IH; assumption|]].
Qed.

Lemma update_back e e' s :
  e' == - e -> matching s -> gauge_update D e' (gauge_update D e s) = s.
Proof.
  intros E. destruct s as [g p]. unfold matching, gauge_update. cbn [fst snd]. intros H.
  f_equal. revert g H; induction p as [|x p IH]; intros [|y g] H; cbn in *; try discriminate; [reflexivity|].
  f_equal; [apply (r_rotate D R), E|apply IH; lia].
Qed.

Lemma term_back i e e' s :
  e' == - e -> matching s ->
  force_step_term D i e' (force_step_term D i e s) = s.
Proof.
  intros E. destruct s as [g p]. unfold matching, force_step_term. cbn [fst snd]. intros H.
  f_equal. assert (L : length p = length (force D i g)) by (rewrite (r_force D R); exact H).
  revert L. generalize (force D i g) as fs. clear H.
  induction p as [|x p IH]; intros [|y fs] L; cbn in *; try discriminate; [reflexivity|].
  f_equal; [apply (r_kick D R), E|apply IH; lia].
Qed.

Lemma force_back a e e' s :
  e' == - e -> matching s -> force_step D a e' (force_step D a e s) = s.
Proof.
  intros E H. rewrite !force_pushed. revert s H.
  induction (terms a) as [|i l IH]; intros s H; [reflexivity|].
  cbn [pushed fold_left]. fold (pushed D l e (force_step_term D i e s)).
  fold (pushed D l e' (force_step_term D i e' (pushed D l e (force_step_term D i e s)))).
  rewrite <- (pushed_commute l e i e' _ (r_commute D R)).
  rewrite term_back by assumption. apply IH, H.
Qed.

Lemma step_back i e e' s :
  e' == - e -> matching s -> step D i e' (step D i e s) = s.
Proof.
  revert e e' s; induction i as [|a i IH n|a i IH n]; intros e e' s E H; cbn [step].
  - apply update_back; assumption.
  - set (x := (1 # 2) * e / qnat n). set (x' := (1 # 2) * e' / qnat n).
    assert (Ex : x' == - x) by (unfold x, x', Qdiv; rewrite E; ring).
    assert (M : forall y, matching y -> matching (step D i x y)) by (intros; apply step_matching; auto).
    assert (B : forall y, matching y -> step D i x' (step D i x y) = y) by (intros; apply IH; auto).
    rewrite (repeatedly_back matching n (step D i x) (step D i x')); [|exact M|exact B|].
    2:{ apply force_matching. apply repeatedly_inv; [exact M|exact H]. }
    rewrite force_back; [|exact E|apply repeatedly_inv; [exact M|exact H]].
    apply (repeatedly_back matching); assumption.
  - set (x := e * zeta_factor / qnat n). set (x' := e' * zeta_factor / qnat n).
    set (y := (e - 2 * (e * zeta_factor)) / qnat n). set (y' := (e' - 2 * (e' * zeta_factor)) / qnat n).
    assert (Ex : x' == - x) by (unfold x, x', Qdiv; rewrite E; ring).
    assert (Ey : y' == - y) by (unfold y, y', Qdiv; rewrite E; ring).
    assert (Eh : (1 # 2) * e' == - ((1 # 2) * e)) by (rewrite E; ring).
    assert (M : forall z t, matching t -> matching (step D i z t)) by (intros; apply step_matching; auto).
    assert (Bx : forall t, matching t -> step D i x' (step D i x t) = t) by (intros; apply IH; auto).
    assert (By : forall t, matching t -> step D i y' (step D i y t) = t) by (intros; apply IH; auto).
    assert (Mx : forall t, matching t -> matching (repeatedly n (step D i x) t))
      by (intros; apply repeatedly_inv; auto).
    assert (My : forall t, matching t -> matching (repeatedly n (step D i y) t))
      by (intros; apply repeatedly_inv; auto).
    assert (Mf : forall z t, matching t -> matching (force_step D a z t))
      by (intros; apply force_matching; auto).
    rewrite (repeatedly_back matching n (step D i x) (step D i x')) by auto.
    rewrite force_back by auto.
    rewrite (repeatedly_back matching n (step D i y) (step D i y')) by auto.
    rewrite force_back by auto.
    apply (repeatedly_back matching); auto.
Qed.

End Reversible.

(** ** Reversal of the momentum *)
Section Flip.
Context (neg : momentum D -> momentum D).
Hypothesis F : flips D neg.

Lemma update_flip e e' s :
  e' == - e -> gauge_update D e (flip neg s) = flip neg (gauge_update D e' s).
Proof.
  intros E. destruct s as [g p]. unfold gauge_update, flip. cbn [fst snd]. f_equal.
  revert g; induction p as [|x p IH]; intros [|y g]; cbn; try reflexivity.
  f_equal; [apply (f_rotate D neg F), E|apply IH].
Qed.

Lemma force_flip a e e' s :
  e' == - e -> force_step D a e (flip neg s) = flip neg (force_step D a e' s).
Proof.
  intros E. revert s; induction a as [i|a1 IH1 a2 IH2]; intros s; cbn [force_step].
  - destruct s as [g p]. unfold force_step_term, flip. cbn [fst snd]. f_equal.
    generalize (force D i g) as fs.
    induction p as [|x p IH]; intros [|y fs]; cbn; try reflexivity.
    f_equal; [apply (f_kick D neg F), E|apply IH].
  - rewrite IH1, IH2. reflexivity.
Qed.

Lemma repeatedly_flip n (f g : state D -> state D) s :
  (forall y, f (flip neg y) = flip neg (g y)) ->
  repeatedly n f (flip neg s) = flip neg (repeatedly n g s).
Proof. intros H. revert s; induction n as [|n IH]; intros s; cbn; [reflexivity|]. rewrite H. apply IH. Qed.

Lemma step_flip i e e' s :
  e' == - e -> step D i e (flip neg s) = flip neg (step D i e' s).
Proof.
  revert e e' s; induction i as [|a i IH n|a i IH n]; intros e e' s E; cbn [step].
  - apply update_flip, E.
  - assert (B : forall y, step D i ((1 # 2) * e / qnat n) (flip neg y) =
                          flip neg (step D i ((1 # 2) * e' / qnat n) y)).
    { intros y. apply IH. unfold Qdiv. rewrite E. ring. }
    rewrite (repeatedly_flip n _ _ _ B), (force_flip a e e') by exact E.
    apply (repeatedly_flip n _ _ _ B).
  - assert (B : forall y, step D i (e * zeta_factor / qnat n) (flip neg y) =
                          flip neg (step D i (e' * zeta_factor / qnat n) y)).
    { intros y. apply IH. unfold Qdiv. rewrite E. ring. }
    assert (B2 : forall y, step D i ((e - 2 * (e * zeta_factor)) / qnat n) (flip neg y) =
                          flip neg (step D i ((e' - 2 * (e' * zeta_factor)) / qnat n) y)).
    { intros y. apply IH. unfold Qdiv. rewrite E. ring. }
    assert (Eh : (1 # 2) * e' == - ((1 # 2) * e)) by (rewrite E; ring).
    rewrite (repeatedly_flip n _ _ _ B), (force_flip a _ _ _ Eh).
    rewrite (repeatedly_flip n _ _ _ B2), (force_flip a _ _ _ Eh).
    apply (repeatedly_flip n _ _ _ B).
Qed.

Lemma flip_twice s : flip neg (flip neg s) = s.
Proof.
  destruct s as [g p]. unfold flip. cbn. f_equal. rewrite map_map.
  rewrite <- (map_id p) at 2. apply map_ext. apply (f_twice D neg F).
Qed.
End Flip.

(** ** Times *)
Section Times.
Hypothesis A : additive D.

Lemma qnat_pos n : (1 <= n)%nat -> ~ qnat n == 0.
Proof.
  intros H E. unfold qnat in E. apply (proj1 (inject_Z_injective (Z.of_nat n) 0)) in E. lia.
Qed.

(** A family of maps that add up. *)
Lemma repeatedly_add {X} (T : Q -> X -> X) n e e' x :
  (forall a b c y, c == a + b -> T b (T a y) = T c y) ->
  (1 <= n)%nat -> e' == qnat n * e -> repeatedly n (T e) x = T e' x.
Proof.
  intros H Hn. destruct n as [|n]; [lia|]. clear Hn. revert e' x.
  induction n as [|n IH]; intros e' x E.
  - cbn [repeatedly]. assert (E0 : e == e' + 0) by (rewrite E; unfold qnat; cbn; ring).
    assert (E1 : e' == e' + 0) by ring.
    rewrite <- (H e' 0 e x E0), (H e' 0 e' x E1). reflexivity.
  - rewrite repeatedly_last, (IH (qnat (S n) * e)) by reflexivity.
    apply H. rewrite E. unfold qnat. rewrite (Nat2Z.inj_succ (S n)), <- Z.add_1_r, inject_Z_plus.
    change (inject_Z 1) with 1. ring.
Qed.

Lemma update_add a b c s :
  c == a + b -> gauge_update D b (gauge_update D a s) = gauge_update D c s.
Proof.
  intros E. destruct s as [g p]. unfold gauge_update. cbn [fst snd]. f_equal.
  revert g; induction p as [|x p IH]; intros [|y g]; cbn; try reflexivity.
  f_equal; [apply (a_rotate D A), E|apply IH].
Qed.

Lemma update_eq a c s : c == a -> gauge_update D a s = gauge_update D c s.
Proof.
  intros E. assert (E0 : a == c + 0) by (rewrite E; ring). assert (E1 : c == c + 0) by ring.
  rewrite <- (update_add c 0 a s E0), (update_add c 0 c s E1). reflexivity.
Qed.

Lemma force_nothing a e s : no_force D -> (forall i u, length (force D i u) = length u) ->
  matching s -> force_step D a e s = s.
Proof.
  intros N L. revert s; induction a as [i|a1 IH1 a2 IH2]; intros s H; cbn [force_step].
  - destruct s as [g p]. unfold force_step_term, matching in *. cbn [fst snd] in *. f_equal.
    assert (Hl : length p = length (force D i g)) by (rewrite L; exact H).
    assert (N' : forall f x, In f (force D i g) -> kick D e f x = x) by (intros; eapply N; eassumption).
    revert Hl N'. generalize (force D i g) as fs. clear.
    induction p as [|x p IH]; intros [|f fs] Hl N; cbn in *; try discriminate; [reflexivity|].
    f_equal; [apply N; left; reflexivity|apply IH; [lia|]]. intros; apply N; right; assumption.
  - rewrite IH1 by exact H. apply IH2, H.
Qed.

Lemma update_matching' e s : matching s -> matching (gauge_update D e s).
Proof. unfold matching, gauge_update. cbn. intros H. rewrite zip_length by exact H. reflexivity. Qed.

Lemma step_free i e s : no_force D -> (forall j u, length (force D j u) = length u) ->
  proper i -> matching s -> step D i e s = gauge_update D e s.
Proof.
  intros N L. revert e s; induction i as [|a i IH n|a i IH n]; intros e s P H; cbn [step proper] in *.
  - reflexivity.
  - destruct P as [Hn P]. pose proof (qnat_pos n Hn) as Hq.
    assert (St : forall x x' t, matching t -> x' == qnat n * x ->
        repeatedly n (step D i x) t = gauge_update D x' t).
    { intros x x' t Ht Ex. rewrite <- (repeatedly_add (gauge_update D) n x x' t update_add Hn Ex).
      clear Ex. revert t Ht. induction n as [|m IHm]; intros t Ht; [reflexivity|].
      cbn [repeatedly]. rewrite IH by assumption.
      destruct m as [|m]; [reflexivity|]. apply IHm; [lia| |apply update_matching', Ht].
      apply qnat_pos. lia. }
    assert (Ex : (1 # 2) * e == qnat n * ((1 # 2) * e / qnat n)) by (field; exact Hq).
    rewrite (St _ _ s H Ex). rewrite (force_nothing a _ _ N L (update_matching' _ _ H)).
    rewrite (St _ _ _ (update_matching' _ _ H) Ex). apply update_add. ring.
  - destruct P as [Hn P]. pose proof (qnat_pos n Hn) as Hq.
    assert (St : forall x x' t, matching t -> x' == qnat n * x ->
        repeatedly n (step D i x) t = gauge_update D x' t).
    { intros x x' t Ht Ex. rewrite <- (repeatedly_add (gauge_update D) n x x' t update_add Hn Ex).
      clear Ex. revert t Ht. induction n as [|m IHm]; intros t Ht; [reflexivity|].
      cbn [repeatedly]. rewrite IH by assumption.
      destruct m as [|m]; [reflexivity|]. apply IHm; [lia| |apply update_matching', Ht].
      apply qnat_pos. lia. }
    assert (Ex : e * zeta_factor == qnat n * (e * zeta_factor / qnat n)) by (field; exact Hq).
    assert (Ey : e - 2 * (e * zeta_factor) == qnat n * ((e - 2 * (e * zeta_factor)) / qnat n))
      by (field; exact Hq).
    rewrite (St _ _ s H Ex). rewrite (force_nothing a _ _ N L (update_matching' _ _ H)).
    rewrite (St _ _ _ (update_matching' _ _ H) Ey).
    rewrite (force_nothing a _ _ N L (update_matching' _ _ (update_matching' _ _ H))).
    rewrite (St _ _ _ (update_matching' _ _ (update_matching' _ _ H)) Ex).
    rewrite (update_add _ _ (e - e * zeta_factor)) by ring. apply update_add. ring.
Qed.

(** Forces on links that do not move. *)
Lemma term_add i a b c s :
  c == a + b -> force_step_term D i b (force_step_term D i a s) = force_step_term D i c s.
Proof.
  intros E. destruct s as [g p]. unfold force_step_term. cbn [fst snd]. f_equal.
  generalize (force D i g) as fs.
  induction p as [|x p IH]; intros [|y fs]; cbn; try reflexivity.
  f_equal; [apply (a_kick D A), E|apply IH].
Qed.

Lemma pushed_add l a b c s : c == a + b -> pushed D l b (pushed D l a s) = pushed D l c s.
Proof.
  intros E. revert s; induction l as [|i l IH]; intros s; [reflexivity|].
  cbn [pushed fold_left]. fold (pushed D l a (force_step_term D i a s)).
  fold (pushed D l b (force_step_term D i b (pushed D l a (force_step_term D i a s)))).
  fold (pushed D l c (force_step_term D i c s)).
  rewrite <- (pushed_commute l a i b _ (a_commute D A)), IH.
  rewrite (term_add i a b c) by exact E. reflexivity.
Qed.

Lemma pushed_swap l1 l2 a b s :
  pushed D l1 a (pushed D l2 b s) = pushed D l2 b (pushed D l1 a s).
Proof.
  revert s; induction l2 as [|i l2 IH]; intros s; [reflexivity|].
  cbn [pushed fold_left]. fold (pushed D l2 b (force_step_term D i b s)).
  fold (pushed D l2 b (force_step_term D i b (pushed D l1 a s))).
  rewrite IH, (pushed_commute l1 a i b _ (a_commute D A)). reflexivity.
Qed.

Lemma update_nothing e s : frozen D -> matching s -> gauge_update D e s = s.
Proof.
  intros Z. destruct s as [g p]. unfold matching, gauge_update. cbn [fst snd]. intros H. f_equal.
  revert g H; induction p as [|x p IH]; intros [|y g] H; cbn in *; try discriminate; [reflexivity|].
  f_equal; [apply Z|apply IH; lia].
Qed.

Lemma pushed_matching l e s : (forall j u, length (force D j u) = length u) ->
  matching s -> matching (pushed D l e s).
Proof.
  intros L. revert s; induction l as [|i l IH]; intros s H; [exact H|].
  cbn [pushed fold_left]. fold (pushed D l e (force_step_term D i e s)). apply IH.
  unfold matching, force_step_term in *. cbn. rewrite zip_length; [exact H|].
  rewrite L. exact H.
Qed.

Lemma step_frozen i e s : frozen D -> (forall j u, length (force D j u) = length u) ->
  proper i -> matching s -> step D i e s = pushed D (all_terms i) e s.
Proof.
  intros Z L. revert e s; induction i as [|a i IH n|a i IH n]; intros e s P H;
    cbn [step proper all_terms] in *.
  - apply update_nothing; assumption.
  - destruct P as [Hn P]. pose proof (qnat_pos n Hn) as Hq. set (l := all_terms i) in *.
    assert (St : forall x x' t, matching t -> x' == qnat n * x ->
        repeatedly n (step D i x) t = pushed D l x' t).
    { intros x x' t Ht Ex.
      rewrite <- (repeatedly_add (pushed D l) n x x' t (pushed_add l) Hn Ex).
      clear Ex. revert t Ht. induction n as [|m IHm]; intros t Ht; [reflexivity|].
      cbn [repeatedly]. rewrite IH by assumption.
      destruct m as [|m]; [reflexivity|]. apply IHm; [lia| |apply pushed_matching; assumption].
      apply qnat_pos. lia. }
    assert (Ex : (1 # 2) * e == qnat n * ((1 # 2) * e / qnat n)) by (field; exact Hq).
    rewrite (St _ _ s H Ex). rewrite force_pushed.
    rewrite (St _ _ _ (pushed_matching _ _ _ L (pushed_matching _ _ _ L H)) Ex).
    rewrite (pushed_swap l (terms a)), pushed_app.
    rewrite (pushed_add l _ _ e) by ring. apply pushed_swap.
  - destruct P as [Hn P]. pose proof (qnat_pos n Hn) as Hq. set (l := all_terms i) in *.
    assert (St : forall x x' t, matching t -> x' == qnat n * x ->
        repeatedly n (step D i x) t = pushed D l x' t).
    { intros x x' t Ht Ex.
      rewrite <- (repeatedly_add (pushed D l) n x x' t (pushed_add l) Hn Ex).
      clear Ex. revert t Ht. induction n as [|m IHm]; intros t Ht; [reflexivity|].
      cbn [repeatedly]. rewrite IH by assumption.
      destruct m as [|m]; [reflexivity|]. apply IHm; [lia| |apply pushed_matching; assumption].
      apply qnat_pos. lia. }
    assert (Ex : e * zeta_factor == qnat n * (e * zeta_factor / qnat n)) by (field; exact Hq).
    assert (Ey : e - 2 * (e * zeta_factor) == qnat n * ((e - 2 * (e * zeta_factor)) / qnat n))
      by (field; exact Hq).
    assert (M : forall k x t, matching t -> matching (pushed D k x t))
      by (intros; apply pushed_matching; assumption).
    rewrite !force_pushed.
    rewrite (St _ _ s H Ex), (St _ _ _ (M _ _ _ (M _ _ _ H)) Ey).
    rewrite (St _ _ _ (M _ _ _ (M _ _ _ (M _ _ _ (M _ _ _ H)))) Ex).
    rewrite !(pushed_swap l (terms a)).
    rewrite pushed_app.
    rewrite (pushed_add (terms a) _ _ e) by ring.
    rewrite (pushed_add l (e * zeta_factor) _ (e - e * zeta_factor)) by ring.
    rewrite (pushed_add l _ _ e) by ring.
    apply pushed_swap.
Qed.
End Times.
End Dynamics.
