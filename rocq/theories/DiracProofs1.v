(** Adjoints of the staggered operators. *)
From Coq Require Import ZArith List Bool Lia Permutation.
From Verif Require Import Common GaugeModel GaugeSpec GaugeProofs1 DiracModel DiracSpec.
Import ListNotations.
Open Scope Z_scope.

Section Proofs.
Context (M : matrices) (W : matrix_laws M) (V : vectors M).
Context (dot : vec V -> vec V -> cx M) (cneg : cx M -> cx M) (cscale : re M -> cx M -> cx M).
Context (D : dot_laws M V dot cneg cscale).
Context (L : list Z) (HL : sizes L).

Notation "a +c b" := (cadd M a b) (at level 50, left associativity).

(** ** Sums *)

Lemma c_zero_r : forall a, a +c czero M = a.
Proof. intros. rewrite (c_comm _ _ _ _ _ D). apply (c_zero _ _ _ _ _ D). Qed.

Lemma c_cancel : forall a b c, a +c b = a +c c -> b = c.
Proof.
  intros a b c H. rewrite <- (c_zero _ _ _ _ _ D b), <- (c_zero _ _ _ _ _ D c).
  rewrite <- (c_neg _ _ _ _ _ D a), (c_comm _ _ _ _ _ D a), <- !(c_assoc _ _ _ _ _ D).
  rewrite H. reflexivity.
Qed.

Lemma c_swap4 : forall a b c d, (a +c b) +c (c +c d) = (a +c c) +c (b +c d).
Proof.
  intros. rewrite <- !(c_assoc _ _ _ _ _ D). f_equal.
  rewrite !(c_assoc _ _ _ _ _ D). f_equal. apply (c_comm _ _ _ _ _ D).
Qed.

Lemma cneg_zero : cneg (czero M) = czero M.
Proof.
  apply (c_cancel (czero M)). rewrite (c_neg _ _ _ _ _ D). symmetry. apply c_zero_r.
Qed.

Lemma cneg_add : forall a b, cneg (a +c b) = cneg a +c cneg b.
Proof.
  intros. apply (c_cancel (a +c b)). rewrite (c_neg _ _ _ _ _ D), c_swap4.
  rewrite !(c_neg _ _ _ _ _ D). symmetry. apply c_zero_r.
Qed.

Lemma cneg_neg : forall a, cneg (cneg a) = a.
Proof.
  intros. apply (c_cancel (cneg a)). rewrite (c_neg _ _ _ _ _ D), (c_comm _ _ _ _ _ D).
  symmetry. apply (c_neg _ _ _ _ _ D).
Qed.

Lemma cscale_zero : forall r, cscale r (czero M) = czero M.
Proof.
  intros. apply (c_cancel (cscale r (czero M))). rewrite <- (c_scale_add _ _ _ _ _ D).
  rewrite c_zero_r. symmetry. apply c_zero_r.
Qed.

Lemma cscale_neg : forall r a, cscale r (cneg a) = cneg (cscale r a).
Proof.
  intros. apply (c_cancel (cscale r a)). rewrite <- (c_scale_add _ _ _ _ _ D).
  rewrite !(c_neg _ _ _ _ _ D). apply cscale_zero.
Qed.

Definition csum {A} (f : A -> cx M) (l : list A) : cx M := fold_right (cadd M) (czero M) (map f l).

Lemma csum_ext : forall A (f h : A -> cx M) l, (forall a, In a l -> f a = h a) ->
  csum f l = csum h l.
Proof. intros. unfold csum. f_equal. apply map_ext_In. assumption. Qed.

Lemma csum_add : forall A (f h : A -> cx M) l,
  csum (fun a => f a +c h a) l = csum f l +c csum h l.
Proof.
  intros A f h l. induction l as [|a l IH]; cbn.
  - symmetry. apply c_zero_r.
  - unfold csum in IH. rewrite IH. apply c_swap4.
Qed.

Lemma csum_neg : forall A (f : A -> cx M) l, csum (fun a => cneg (f a)) l = cneg (csum f l).
Proof.
  intros A f l. induction l as [|a l IH]; cbn.
  - symmetry. apply cneg_zero.
  - unfold csum in IH. rewrite IH. symmetry. apply cneg_add.
Qed.

Lemma csum_scale : forall A (f : A -> cx M) r l,
  csum (fun a => cscale r (f a)) l = cscale r (csum f l).
Proof.
  intros A f r l. induction l as [|a l IH]; cbn.
  - symmetry. apply cscale_zero.
  - unfold csum in IH. rewrite IH. symmetry. apply (c_scale_add _ _ _ _ _ D).
Qed.

Lemma csum_zero : forall A (l : list A), csum (fun _ => czero M) l = czero M.
Proof.
  intros A l. induction l as [|a l IH]; [reflexivity|]. unfold csum in *. cbn.
  rewrite IH. apply c_zero_r.
Qed.

Lemma csum_swap : forall A B (f : A -> B -> cx M) l k,
  csum (fun a => csum (f a) k) l = csum (fun b => csum (fun a => f a b) l) k.
Proof.
  intros A B f l k. induction l as [|a l IH].
  - symmetry. apply csum_zero.
  - change (csum (fun a => csum (f a) k) (a :: l))
      with (csum (f a) k +c csum (fun a => csum (f a) k) l).
    rewrite IH, <- csum_add. reflexivity.
Qed.

Lemma csum_perm : forall A (f : A -> cx M) l k, Permutation l k -> csum f l = csum f k.
Proof.
  intros A f l k H. unfold csum. induction H; cbn; try congruence.
  rewrite !(c_assoc _ _ _ _ _ D). f_equal. apply (c_comm _ _ _ _ _ D).
Qed.

(** Sites of one parity, moved up, are the sites of the other parity. *)
Lemma up_parity : forall d x par, even_sizes L \/ par = ALL -> on_lattice L x ->
  (d < length L)%nat -> has_parity (opp_parity par) (up L d x) = has_parity par x.
Proof.
  intros d x par [HE| ->] H Hd; [|reflexivity].
  pose proof (move_parity L 1 d x HL HE H Hd eq_refl) as P. unfold up.
  destruct par; cbn [has_parity opp_parity]; try reflexivity; rewrite P;
    destruct (Z.even (zsum x)); reflexivity.
Qed.

Definition par_sites (par : parity) : list site := filter (has_parity par) (sites L).

Lemma par_sites_In : forall par x, In x (par_sites par) -> on_lattice L x /\ has_parity par x = true.
Proof.
  intros par x H. apply filter_In in H as [H P]. split; [|exact P]. apply sites_In. exact H.
Qed.

Lemma shift_sites : forall d par, even_sizes L \/ par = ALL -> (d < length L)%nat ->
  Permutation (map (up L d) (par_sites par)) (par_sites (opp_parity par)).
Proof.
  intros d par Hp Hd. unfold par_sites.
  assert (E : filter (has_parity par) (sites L)
    = filter (fun x => has_parity (opp_parity par) (up L d x)) (sites L)).
  { apply filter_ext_In. intros x Hx. apply sites_In in Hx. symmetry. apply up_parity; assumption. }
  rewrite E, <- (filter_map _ _ (up L d) (has_parity (opp_parity par))).
  pose proof (move_sites L 1 d HL) as P.
  assert (F : forall l k, Permutation l k ->
    Permutation (filter (has_parity (opp_parity par)) l) (filter (has_parity (opp_parity par)) k)).
  { intros l k H. induction H; cbn; repeat match goal with |- context [if ?b then _ else _] => destruct b end;
      auto using perm_swap. eapply perm_trans; eassumption. }
  apply F. exact P.
Qed.

Lemma csum_shift : forall d par (f : site -> cx M), even_sizes L \/ par = ALL -> (d < length L)%nat ->
  csum (fun x => f (up L d x)) (par_sites par) = csum f (par_sites (opp_parity par)).
Proof.
  intros d par f Hp Hd. rewrite <- (csum_perm _ f _ _ (shift_sites d par Hp Hd)).
  unfold csum. rewrite map_map. reflexivity.
Qed.

(** ** One direction of the hopping term *)

Definition term (anti : nat -> bool) (U : nat -> site -> mat M) (s : Z) (v : site -> vec V)
    (d : nat) (x : site) : vec V :=
  vscale V (half V (s * staggered_eta d x))
    (vsub V (act V (U d x) (next V L anti v d x))
            (prev V L anti (fun y => act V (dagger M (U d y)) (v y)) d x)).

Lemma eta_up : forall d x, on_lattice L x -> staggered_eta d (up L d x) = staggered_eta d x.
Proof.
  intros d x Hx. unfold staggered_eta. do 2 f_equal.
  assert (G : forall ds z, (forall e, In e ds -> e <> d) ->
    fold_left (fun s d2 => s + coordinate d2 (up L d x)) ds z
    = fold_left (fun s d2 => s + coordinate d2 x) ds z).
  { induction ds as [|e ds IH]; intros z H; cbn [fold_left]; [reflexivity|].
    unfold up at 2. rewrite coordinate_move_other.
    2:{ intros E. apply (H e); [left; reflexivity|congruence]. }
    apply IH. intros; apply H; right; assumption. }
  rewrite G; [reflexivity|]. intros e He. apply in_seq in He. lia.
Qed.

Lemma coordinate_up_zero : forall d x, on_lattice L x -> (d < length L)%nat ->
  (coordinate d (up L d x) =? 0) = (coordinate d x =? nth d L 0 - 1).
Proof.
  intros d x Hx Hd. unfold up. rewrite coordinate_move by assumption.
  pose proof (coordinate_range L d x Hx Hd) as R.
  destruct (Z.eqb_spec (coordinate d x) (nth d L 0 - 1)) as [E|E].
  - rewrite E. replace (nth d L 0 - 1 + 1) with (nth d L 0) by lia.
    rewrite Z.mod_same by lia. reflexivity.
  - rewrite Z.mod_small by lia. apply Z.eqb_neq. lia.
Qed.

Lemma prev_up : forall anti v d x, on_lattice L x -> (d < length L)%nat ->
  prev V L anti v d (up L d x)
  = if anti d && (coordinate d x =? nth d L 0 - 1) then vneg V (v x) else v x.
Proof.
  intros anti v d x Hx Hd. unfold prev. rewrite coordinate_up_zero by assumption.
  rewrite (down_up L d x HL Hx). reflexivity.
Qed.

Lemma act_dag : forall u a b, dot (act V (dagger M u) a) b = dot a (act V u b).
Proof. intros. rewrite (d_act _ _ _ _ _ D), (m_dag_dag M W). reflexivity. Qed.

Lemma term_adjoint : forall anti U s d par, even_sizes L \/ par = ALL -> (d < length L)%nat ->
  forall a b,
  csum (fun x => dot (term anti U (- s) a d x) (b x)) (par_sites par)
  = csum (fun x => dot (a x) (term anti U s b d x)) (par_sites (opp_parity par)).
Proof.
  intros anti U s d par Hp Hd a b.
  set (c x := half V (s * staggered_eta d x)).
  set (F1 x := cscale (c x) (dot (act V (U d x) (next V L anti a d x)) (b x))).
  set (F2 x := cscale (c x) (dot (prev V L anti (fun y => act V (dagger M (U d y)) (a y)) d x) (b x))).
  set (G1 x := cscale (c x) (dot (a x) (act V (U d x) (next V L anti b d x)))).
  set (G2 x := cscale (c x) (dot (a x) (prev V L anti (fun y => act V (dagger M (U d y)) (b y)) d x))).
  assert (Hop : even_sizes L \/ opp_parity par = ALL)
    by (destruct Hp as [?| ->]; [left; assumption|right; reflexivity]).
  assert (Oo : opp_parity (opp_parity par) = par) by (destruct par; reflexivity).
  assert (HF : forall x, dot (term anti U (- s) a d x) (b x) = cneg (F1 x) +c F2 x).
  { intros x. unfold term. rewrite (d_scale_l _ _ _ _ _ D), (d_sub_l _ _ _ _ _ D).
    rewrite Z.mul_opp_l, (c_scale_half _ _ _ _ _ D), (c_scale_add _ _ _ _ _ D), cneg_add, cscale_neg.
    rewrite cneg_neg. reflexivity. }
  assert (HG : forall x, dot (a x) (term anti U s b d x) = G1 x +c cneg (G2 x)).
  { intros x. unfold term. rewrite (d_scale_r _ _ _ _ _ D), (d_sub_r _ _ _ _ _ D).
    rewrite (c_scale_add _ _ _ _ _ D), cscale_neg. reflexivity. }
  rewrite (csum_ext _ _ _ _ (fun x _ => HF x)), (csum_ext _ _ _ _ (fun x _ => HG x)).
  rewrite !csum_add, !csum_neg.
  assert (E2 : csum F2 (par_sites par) = csum G1 (par_sites (opp_parity par))).
  { rewrite <- Oo at 1. rewrite <- (csum_shift d (opp_parity par) F2 Hop Hd).
    apply csum_ext. intros x Hx. apply par_sites_In in Hx as [Hx _].
    unfold F2, G1, c. rewrite eta_up by assumption. f_equal.
    rewrite prev_up by assumption. unfold next.
    destruct (anti d && (coordinate d x =? nth d L 0 - 1)).
    - rewrite (d_neg_l _ _ _ _ _ D), act_dag.
      rewrite <- (act_dag _ _ (vneg V _)), (d_neg_r _ _ _ _ _ D), act_dag. reflexivity.
    - apply act_dag. }
  assert (E1 : csum F1 (par_sites par) = csum G2 (par_sites (opp_parity par))).
  { rewrite <- (csum_shift d par G2 Hp Hd).
    apply csum_ext. intros x Hx. apply par_sites_In in Hx as [Hx _].
    unfold F1, G2, c. rewrite eta_up by assumption. f_equal.
    rewrite prev_up by assumption. unfold next. rewrite (d_act _ _ _ _ _ D).
    destruct (anti d && (coordinate d x =? nth d L 0 - 1)).
    - rewrite (d_neg_l _ _ _ _ _ D), (d_neg_r _ _ _ _ _ D). reflexivity.
    - reflexivity. }
  rewrite E1, E2. apply (c_comm _ _ _ _ _ D).
Qed.

(** ** All directions *)

Definition hops anti U s v (z : vec V) (x : site) : vec V :=
  fold_left (fun o d => vadd V o (term anti U s v d x)) (directions L) z.

Lemma dot_fold_l : forall (t : nat -> vec V) ds z b,
  dot (fold_left (fun o d => vadd V o (t d)) ds z) b = dot z b +c csum (fun d => dot (t d) b) ds.
Proof.
  intros t ds. induction ds as [|d ds IH]; intros z b; cbn [fold_left].
  - symmetry. apply c_zero_r.
  - rewrite IH, (d_add_l _ _ _ _ _ D).
    change (csum (fun d => dot (t d) b) (d :: ds))
      with (dot (t d) b +c csum (fun d => dot (t d) b) ds).
    symmetry. apply (c_assoc _ _ _ _ _ D).
Qed.

Lemma dot_fold_r : forall (t : nat -> vec V) ds z b,
  dot b (fold_left (fun o d => vadd V o (t d)) ds z) = dot b z +c csum (fun d => dot b (t d)) ds.
Proof.
  intros t ds. induction ds as [|d ds IH]; intros z b; cbn [fold_left].
  - symmetry. apply c_zero_r.
  - rewrite IH, (d_add_r _ _ _ _ _ D).
    change (csum (fun d => dot b (t d)) (d :: ds))
      with (dot b (t d) +c csum (fun d => dot b (t d)) ds).
    symmetry. apply (c_assoc _ _ _ _ _ D).
Qed.

Lemma directions_lt : forall d, In d (directions L) -> (d < length L)%nat.
Proof. intros d H. apply in_seq in H. lia. Qed.

Lemma terms_adjoint : forall anti U s par, even_sizes L \/ par = ALL -> forall a b,
  csum (fun x => csum (fun d => dot (term anti U (- s) a d x) (b x)) (directions L)) (par_sites par)
  = csum (fun x => csum (fun d => dot (a x) (term anti U s b d x)) (directions L))
      (par_sites (opp_parity par)).
Proof.
  intros anti U s par Hp a b.
  etransitivity; [apply csum_swap|]. etransitivity; [|symmetry; apply csum_swap].
  apply csum_ext. intros d Hd.
  apply term_adjoint; [exact Hp|]. apply directions_lt; exact Hd.
Qed.

Lemma down_opp : forall d x par, even_sizes L \/ par = ALL -> on_lattice L x ->
  (d < length L)%nat -> has_parity par x = true -> has_parity (opp_parity par) (down L d x) = true.
Proof. intros; apply down_parity; assumption. Qed.

(** The loop over directions, for different fields and for one parity of the
    same field. *)
Lemma hop_separate : forall anti stale U v_in v_out par s x,
  even_sizes L \/ par = ALL -> on_lattice L x ->
  hop V L anti stale U false v_in v_out par s x
  = if has_parity par x then hops anti U s v_in (v_out x) x else v_out x.
Proof.
  intros anti stale U v_in v_out par s x Hp Hx. unfold hop, hops. cbv zeta.
  assert (G : forall ds w, (forall d, In d ds -> (d < length L)%nat) ->
    fold_left (fun (v_out : vfield V) d => fun x => if has_parity par x then
          vadd V (v_out x)
            (vscale V (half V (s * staggered_eta d x))
              (vsub V (act V (U d x) (next V L anti v_in d x))
                 (prev V L anti (fun y => if has_parity (opp_parity par) y
                     then act V (dagger M (U d y)) (v_in y) else stale d y) d x)))
        else v_out x) ds w x
    = if has_parity par x then fold_left (fun o d => vadd V o (term anti U s v_in d x)) ds (w x)
      else w x).
  { induction ds as [|d ds IH]; intros w Hds; cbn [fold_left].
    - destruct (has_parity par x); reflexivity.
    - rewrite IH by (intros; apply Hds; right; assumption).
      destruct (has_parity par x) eqn:Px; [|reflexivity].
      f_equal. f_equal. unfold term, prev.
      rewrite (down_opp d x par Hp Hx (Hds d (or_introl eq_refl)) Px). reflexivity. }
  apply G. exact directions_lt.
Qed.

Lemma hop_same : forall anti stale U v par s x,
  even_sizes L -> par <> ALL -> on_lattice L x ->
  hop V L anti stale U true v v par s x
  = if has_parity par x then hops anti U s v (v x) x else v x.
Proof.
  intros anti stale U v par s x HE Hp Hx. unfold hop, hops. cbv zeta.
  assert (G : forall ds w, (forall d, In d ds -> (d < length L)%nat) ->
    (forall y, on_lattice L y -> has_parity par y = false -> w y = v y) ->
    fold_left (fun (v_out : vfield V) d => fun x => if has_parity par x then
          vadd V (v_out x)
            (vscale V (half V (s * staggered_eta d x))
              (vsub V (act V (U d x) (next V L anti v_out d x))
                 (prev V L anti (fun y => if has_parity (opp_parity par) y
                     then act V (dagger M (U d y)) (v y) else stale d y) d x)))
        else v_out x) ds w x
    = if has_parity par x then fold_left (fun o d => vadd V o (term anti U s v d x)) ds (w x)
      else w x).
  { induction ds as [|d ds IH]; intros w Hds Hw; cbn [fold_left].
    - destruct (has_parity par x); reflexivity.
    - rewrite IH.
      + destruct (has_parity par x) eqn:Px; [|reflexivity].
        f_equal. f_equal. unfold term, prev, next.
        rewrite (down_opp d x par (or_introl HE) Hx (Hds d (or_introl eq_refl)) Px).
        assert (N : w (up L d x) = v (up L d x)).
        { apply Hw; [apply up_on; assumption|].
          pose proof (up_parity d x par (or_introl HE) Hx (Hds d (or_introl eq_refl))) as P.
          rewrite Px in P. destruct par; cbn [has_parity opp_parity] in *; try congruence.
          - destruct (Z.even (zsum (up L d x))); [discriminate|reflexivity].
          - rewrite P. reflexivity. }
        rewrite N. reflexivity.
      + intros; apply Hds; right; assumption.
      + intros y Hy Py. rewrite Py. apply Hw; assumption. }
  apply G; [exact directions_lt|reflexivity].
Qed.

(** ** The operators *)

Lemma operator_form : forall s anti stale U m v x, on_lattice L x ->
  operator V L s anti stale U m v x
  = hops anti U s v (vadd V (vzero V) (vscale V m (v x))) x.
Proof.
  intros s anti stale U m v x Hx. unfold operator. cbv zeta.
  rewrite hop_separate by (auto). reflexivity.
Qed.

Lemma operator_adjoint : forall s anti stale stale' U m,
  adjoint_of dot L ALL (operator V L s anti stale U m) (operator V L (- s) anti stale' U m).
Proof.
  intros s anti stale stale' U m a b. unfold field_dot.
  change (csum (fun x => dot (operator V L (- s) anti stale' U m a x) (b x)) (par_sites ALL)
    = csum (fun x => dot (a x) (operator V L s anti stale U m b x)) (par_sites ALL)).
  assert (E1 : csum (fun x => dot (operator V L (- s) anti stale' U m a x) (b x)) (par_sites ALL)
    = csum (fun x => cscale m (dot (a x) (b x)) +c
        csum (fun d => dot (term anti U (- s) a d x) (b x)) (directions L)) (par_sites ALL)).
  { apply csum_ext. intros x Hx. apply par_sites_In in Hx as [Hx _].
    rewrite operator_form by assumption. unfold hops. rewrite dot_fold_l.
    rewrite (d_add_l _ _ _ _ _ D), (d_zero_l _ _ _ _ _ D), (c_zero _ _ _ _ _ D).
    rewrite (d_scale_l _ _ _ _ _ D). reflexivity. }
  assert (E2 : csum (fun x => dot (a x) (operator V L s anti stale U m b x)) (par_sites ALL)
    = csum (fun x => cscale m (dot (a x) (b x)) +c
        csum (fun d => dot (a x) (term anti U s b d x)) (directions L)) (par_sites ALL)).
  { apply csum_ext. intros x Hx. apply par_sites_In in Hx as [Hx _].
    rewrite operator_form by assumption. unfold hops. rewrite dot_fold_r.
    rewrite (d_add_r _ _ _ _ _ D), (d_zero_r _ _ _ _ _ D), (c_zero _ _ _ _ _ D).
    rewrite (d_scale_r _ _ _ _ _ D). reflexivity. }
  rewrite E1, E2, !csum_add. f_equal.
  rewrite (terms_adjoint anti U s ALL (or_intror eq_refl)). reflexivity.
Qed.

(** The odd sites of the even-odd operator. *)
Definition odd_part anti U s m v (y : site) : vec V :=
  vscale V (rinv V m) (hops anti U s v (vzero V) y).

Lemma odd_even : forall x, has_parity ODD x = negb (has_parity EVEN x).
Proof. reflexivity. Qed.

Lemma evenodd_even : forall s anti stale stale' U m v x, even_sizes L -> on_lattice L x ->
  has_parity EVEN x = true ->
  exists w, (forall y, on_lattice L y -> has_parity ODD y = true -> w y = odd_part anti U s m v y) /\
  evenodd V L s anti stale stale' U m v x
  = hops anti U s w (vadd V (vzero V) (vscale V m (v x))) x.
Proof.
  intros s anti stale stale' U m v x HE Hx Px. unfold evenodd. cbv zeta.
  set (out1 := diag V m v (fun _ => vzero V) EVEN).
  set (out2 := hop V L anti stale U false v out1 ODD s).
  set (out3 := diag_inverse V m out2 ODD).
  exists out3. split.
  - intros y Hy Py. unfold out3, diag_inverse. rewrite Py. unfold out2.
    rewrite hop_separate by auto. rewrite Py. unfold odd_part. do 2 f_equal.
    unfold out1, diag. rewrite odd_even in Py. destruct (has_parity EVEN y); [discriminate|reflexivity].
  - rewrite hop_same by (try assumption; discriminate). rewrite Px. f_equal.
    unfold out3, diag_inverse. rewrite odd_even, Px. cbn [negb].
    unfold out2. rewrite hop_separate by auto. rewrite odd_even, Px. cbn [negb].
    unfold out1, diag. rewrite Px. reflexivity.
Qed.

Lemma term_ext : forall anti U s v w d x, even_sizes L -> on_lattice L x -> (d < length L)%nat ->
  has_parity EVEN x = true ->
  (forall y, on_lattice L y -> has_parity ODD y = true -> v y = w y) ->
  term anti U s v d x = term anti U s w d x.
Proof.
  intros anti U s v w d x HE Hx Hd Px H. unfold term, next, prev.
  assert (E1 : v (up L d x) = w (up L d x)).
  { apply H; [apply up_on; assumption|].
    rewrite <- Px. apply (up_parity d x EVEN (or_introl HE) Hx Hd). }
  assert (E2 : v (down L d x) = w (down L d x)).
  { apply H; [apply down_on; assumption|]. apply (down_opp d x EVEN (or_introl HE) Hx Hd Px). }
  rewrite E1, E2. reflexivity.
Qed.

Lemma hops_ext : forall anti U s v w z x, even_sizes L -> on_lattice L x ->
  has_parity EVEN x = true ->
  (forall y, on_lattice L y -> has_parity ODD y = true -> v y = w y) ->
  hops anti U s v z x = hops anti U s w z x.
Proof.
  intros anti U s v w z x HE Hx Px H. unfold hops. revert z.
  assert (G : forall ds, (forall d, In d ds -> (d < length L)%nat) -> forall z,
    fold_left (fun o d => vadd V o (term anti U s v d x)) ds z
    = fold_left (fun o d => vadd V o (term anti U s w d x)) ds z).
  { induction ds as [|d ds IH]; intros Hds z; cbn [fold_left]; [reflexivity|].
    rewrite (term_ext anti U s v w d x); auto.
    - apply IH. intros; apply Hds; right; assumption.
    - apply Hds; left; reflexivity. }
  intros z. apply G. exact directions_lt.
Qed.

Lemma evenodd_form : forall s anti stale stale' U m v x, even_sizes L -> on_lattice L x ->
  has_parity EVEN x = true ->
  evenodd V L s anti stale stale' U m v x
  = hops anti U s (odd_part anti U s m v) (vadd V (vzero V) (vscale V m (v x))) x.
Proof.
  intros s anti stale stale' U m v x HE Hx Px.
  destruct (evenodd_even s anti stale stale' U m v x HE Hx Px) as (w & Hw & ->).
  apply hops_ext; assumption.
Qed.

Lemma evenodd_adjoint : forall s anti stale1 stale2 stale3 stale4 U m, even_sizes L ->
  adjoint_of dot L EVEN (evenodd V L s anti stale1 stale2 U m)
    (evenodd V L (- s) anti stale3 stale4 U m).
Proof.
  intros s anti stale1 stale2 stale3 stale4 U m HE a b. unfold field_dot.
  change (csum (fun x => dot (evenodd V L (- s) anti stale3 stale4 U m a x) (b x)) (par_sites EVEN)
    = csum (fun x => dot (a x) (evenodd V L s anti stale1 stale2 U m b x)) (par_sites EVEN)).
  assert (E1 : csum (fun x => dot (evenodd V L (- s) anti stale3 stale4 U m a x) (b x)) (par_sites EVEN)
    = csum (fun x => cscale m (dot (a x) (b x)) +c
        csum (fun d => dot (term anti U (- s) (odd_part anti U (- s) m a) d x) (b x))
          (directions L)) (par_sites EVEN)).
  { apply csum_ext. intros x Hx. apply par_sites_In in Hx as [Hx Px].
    rewrite evenodd_form by assumption. unfold hops at 1. rewrite dot_fold_l.
    rewrite (d_add_l _ _ _ _ _ D), (d_zero_l _ _ _ _ _ D), (c_zero _ _ _ _ _ D).
    rewrite (d_scale_l _ _ _ _ _ D). reflexivity. }
  assert (E2 : csum (fun x => dot (a x) (evenodd V L s anti stale1 stale2 U m b x)) (par_sites EVEN)
    = csum (fun x => cscale m (dot (a x) (b x)) +c
        csum (fun d => dot (a x) (term anti U s (odd_part anti U s m b) d x))
          (directions L)) (par_sites EVEN)).
  { apply csum_ext. intros x Hx. apply par_sites_In in Hx as [Hx Px].
    rewrite evenodd_form by assumption. unfold hops at 1. rewrite dot_fold_r.
    rewrite (d_add_r _ _ _ _ _ D), (d_zero_r _ _ _ _ _ D), (c_zero _ _ _ _ _ D).
    rewrite (d_scale_r _ _ _ _ _ D). reflexivity. }
  rewrite E1, E2, !csum_add. f_equal.
  rewrite (terms_adjoint anti U s EVEN (or_introl HE)).
  symmetry. cbn [opp_parity].
  assert (T : csum (fun x => csum (fun d => dot (a x) (term anti U s (odd_part anti U s m b) d x))
      (directions L)) (par_sites EVEN)
    = csum (fun x => csum (fun d => dot (term anti U (- s) a d x) (odd_part anti U s m b x))
      (directions L)) (par_sites ODD)).
  { symmetry. apply (terms_adjoint anti U s ODD (or_introl HE)). }
  rewrite T. apply csum_ext. intros y Hy.
  assert (Z1 : csum (fun d => dot (term anti U (- s) a d y) (odd_part anti U s m b y)) (directions L)
    = dot (hops anti U (- s) a (vzero V) y) (odd_part anti U s m b y)).
  { unfold hops. rewrite dot_fold_l, (d_zero_l _ _ _ _ _ D), (c_zero _ _ _ _ _ D). reflexivity. }
  assert (Z2 : csum (fun d => dot (odd_part anti U (- s) m a y) (term anti U s b d y)) (directions L)
    = dot (odd_part anti U (- s) m a y) (hops anti U s b (vzero V) y)).
  { unfold hops at 1. rewrite dot_fold_r, (d_zero_r _ _ _ _ _ D), (c_zero _ _ _ _ _ D). reflexivity. }
  rewrite Z1, Z2. unfold odd_part.
  rewrite (d_scale_l _ _ _ _ _ D), (d_scale_r _ _ _ _ _ D). reflexivity.
Qed.
End Proofs.
