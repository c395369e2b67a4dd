(** The torus: neighbours, sites, parities. *)
From Coq Require Import ZArith List Bool Lia Permutation.
From Verif Require Import Common GaugeModel GaugeSpec.
Import ListNotations.
Open Scope Z_scope.

Lemma move_on_lattice : forall L s d x, sizes L -> on_lattice L x -> on_lattice L (move s L d x).
Proof.
  intros L s d x HL H. revert d. induction H as [|l a L x Ha H IH]; intros d; cbn [move].
  - constructor.
  - inversion HL; subst. destruct d.
    + constructor; [apply Z.mod_pos_bound; lia|assumption].
    + constructor; [assumption|apply IH; assumption].
Qed.

Lemma move_move : forall L s t d x, sizes L ->
  move s L d (move t L d x) = move (t + s) L d x.
Proof.
  induction L as [|l L IH]; intros s t d x HL; [reflexivity|].
  inversion HL; subst.
  destruct x as [|a x]; [reflexivity|]. destruct d; cbn [move].
  - f_equal. rewrite Zplus_mod_idemp_l. f_equal. lia.
  - f_equal. apply IH; assumption.
Qed.

Lemma move_zero : forall L d x, on_lattice L x -> move 0 L d x = x.
Proof.
  intros L d x H. revert d. induction H as [|l a L x Ha H IH]; intros d; cbn [move].
  - reflexivity.
  - destruct d.
    + f_equal. rewrite Z.add_0_r. apply Z.mod_small; lia.
    + f_equal. apply IH.
Qed.

Lemma move_size : forall L d x, on_lattice L x -> move (nth d L 0) L d x = x.
Proof.
  intros L d x H. revert d. induction H as [|l a L x Ha H IH]; intros d; cbn [move].
  - reflexivity.
  - destruct d; cbn [nth].
    + f_equal. replace (a + l) with (a + 1 * l) by lia. rewrite Z_mod_plus_full.
      apply Z.mod_small; lia.
    + f_equal. apply IH.
Qed.

Lemma down_up : forall L d x, sizes L -> on_lattice L x -> down L d (up L d x) = x.
Proof.
  intros. unfold down, up. rewrite move_move by assumption. apply move_zero; assumption.
Qed.

Lemma up_down : forall L d x, sizes L -> on_lattice L x -> up L d (down L d x) = x.
Proof.
  intros. unfold down, up. rewrite move_move by assumption. apply move_zero; assumption.
Qed.

Lemma move_comm : forall L s t d1 d2 x, d1 <> d2 ->
  move s L d1 (move t L d2 x) = move t L d2 (move s L d1 x).
Proof.
  induction L as [|l L IH]; intros s t d1 d2 x Hd; [reflexivity|].
  destruct x as [|a x]; [reflexivity|].
  destruct d1, d2; cbn [move]; try reflexivity.
  - congruence.
  - f_equal. apply IH. congruence.
Qed.

Lemma up_comm : forall L d1 d2 x, up L d1 (up L d2 x) = up L d2 (up L d1 x).
Proof.
  intros. destruct (Nat.eq_dec d1 d2) as [->|]; [reflexivity|]. apply move_comm; assumption.
Qed.

Lemma up_down_comm : forall L d1 d2 x, sizes L -> up L d1 (down L d2 x) = down L d2 (up L d1 x).
Proof.
  intros. destruct (Nat.eq_dec d1 d2) as [->|].
  - unfold up, down. rewrite !move_move by assumption. reflexivity.
  - apply move_comm; assumption.
Qed.

Lemma up_on : forall L d x, sizes L -> on_lattice L x -> on_lattice L (up L d x).
Proof. intros; apply move_on_lattice; assumption. Qed.

Lemma down_on : forall L d x, sizes L -> on_lattice L x -> on_lattice L (down L d x).
Proof. intros; apply move_on_lattice; assumption. Qed.

Lemma coordinate_move : forall L s d x, on_lattice L x -> (d < length L)%nat ->
  coordinate d (move s L d x) = (coordinate d x + s) mod nth d L 0.
Proof.
  intros L s d x H. unfold coordinate. revert d.
  induction H as [|l a L x Ha H IH]; intros d Hd; cbn [length] in Hd; [lia|].
  destruct d; cbn [move nth]; [reflexivity|]. apply IH. lia.
Qed.

Lemma coordinate_move_other : forall L s d e x, d <> e ->
  coordinate e (move s L d x) = coordinate e x.
Proof.
  unfold coordinate. induction L as [|l L IH]; intros s d e x He; [reflexivity|].
  destruct x as [|a x]; [reflexivity|]. destruct d, e; cbn [move nth]; try reflexivity.
  - congruence.
  - apply IH. congruence.
Qed.

Lemma coordinate_range : forall L d x, on_lattice L x -> (d < length L)%nat ->
  0 <= coordinate d x < nth d L 0.
Proof.
  intros L d x H. unfold coordinate. revert d.
  induction H as [|l a L x Ha H IH]; intros d Hd; cbn [length] in Hd; [lia|].
  destruct d; cbn [nth]; [assumption|]. apply IH; lia.
Qed.

Lemma sites_In : forall L x, In x (sites L) <-> on_lattice L x.
Proof.
  induction L as [|l L IH]; intros x; cbn [sites].
  - split.
    + intros [<-|[]]. constructor.
    + intros H; inversion H; left; reflexivity.
  - rewrite in_flat_map. split.
    + intros (a & Ha & Hx). apply in_map_iff in Hx as (y & <- & Hy).
      apply zrange_In in Ha. constructor; [lia|]. apply IH; assumption.
    + intros H; inversion H as [|? a ? y Ha Hy]; subst.
      exists a. split; [apply zrange_In; lia|]. apply in_map. apply IH; assumption.
Qed.

Lemma sites_NoDup : forall L, NoDup (sites L).
Proof.
  induction L as [|l L IH]; cbn [sites].
  - constructor; [intros []|constructor].
  - assert (G : forall r, NoDup r ->
        NoDup (flat_map (fun a => map (cons a) (sites L)) r)).
    { induction r as [|a r IHr]; intros Hr; cbn [flat_map]; [constructor|].
      inversion Hr; subst.
      assert (N : NoDup (map (cons a) (sites L))).
      { apply FinFun.Injective_map_NoDup; [|exact IH]. intros u v E. congruence. }
      assert (D : forall z, In z (map (cons a) (sites L)) ->
          ~ In z (flat_map (fun a => map (cons a) (sites L)) r)).
      { intros z Hz Hz'. apply in_map_iff in Hz as (y & <- & Hy).
        apply in_flat_map in Hz' as (b & Hb & Hz').
        apply in_map_iff in Hz' as (y' & E & Hy'). congruence. }
      revert N D. generalize (map (cons a) (sites L)).
      intros l1 N D. induction l1 as [|z l1 IHl]; [apply IHr; assumption|].
      inversion N; subst. cbn [app]. constructor.
      - rewrite in_app_iff. intros [Hz|Hz]; [contradiction|].
        exact (D z (or_introl eq_refl) Hz).
      - apply IHl; [assumption|]. intros w Hw. apply D. right; exact Hw. }
    apply G. apply zrange_NoDup.
Qed.

(** Moving every site by the same amount permutes the sites. *)
Lemma move_sites : forall L s d, sizes L ->
  Permutation (map (move s L d) (sites L)) (sites L).
Proof.
  intros L s d HL. apply NoDup_Permutation.
  - apply NoDup_map_inj; [|apply sites_NoDup].
    intros x y Hx Hy E. apply sites_In in Hx, Hy.
    rewrite <- (move_zero L d x Hx), <- (move_zero L d y Hy).
    replace 0 with (s + - s) by lia. rewrite <- !move_move by assumption. congruence.
  - apply sites_NoDup.
  - intros x. rewrite in_map_iff. split.
    + intros (y & <- & Hy). apply sites_In. apply sites_In in Hy.
      apply move_on_lattice; assumption.
    + intros Hx. exists (move (- s) L d x). apply sites_In in Hx. split.
      * rewrite move_move by assumption. replace (- s + s) with 0 by lia.
        apply move_zero; assumption.
      * apply sites_In. apply move_on_lattice; assumption.
Qed.

Lemma mod_even : forall a l, 0 < l -> Z.even l = true -> Z.even (a mod l) = Z.even a.
Proof.
  intros a l Hl He. rewrite (Z.div_mod a l) at 2 by lia.
  rewrite Z.even_add, Z.even_mul, He. cbn [orb]. destruct (Z.even (a mod l)); reflexivity.
Qed.

Lemma move_parity : forall L s d x, sizes L -> even_sizes L -> on_lattice L x ->
  (d < length L)%nat -> Z.odd s = true ->
  Z.even (zsum (move s L d x)) = negb (Z.even (zsum x)).
Proof.
  intros L s d x HL HE H. revert d. induction H as [|l a L x Ha H IH]; intros d Hd Hs;
    cbn [length] in Hd; [lia|].
  inversion HL; inversion HE; subst.
  assert (Zc : forall b r, zsum (b :: r) = b + zsum r) by reflexivity.
  destruct d; cbn [move]; rewrite !Zc, !Z.even_add.
  - rewrite mod_even by assumption. rewrite Z.even_add.
    assert (Es : Z.even s = false) by (rewrite <- Z.negb_odd, Hs; reflexivity).
    rewrite Es. destruct (Z.even a), (Z.even (zsum x)); reflexivity.
  - rewrite IH; try assumption; try lia.
    destruct (Z.even a), (Z.even (zsum x)); reflexivity.
Qed.

Lemma down_parity : forall L d x par, sizes L -> even_sizes L \/ par = ALL -> on_lattice L x ->
  (d < length L)%nat -> has_parity par x = true ->
  has_parity (opp_parity par) (down L d x) = true.
Proof.
  intros L d x par HL [HE| ->] H Hd Hp; [|reflexivity].
  pose proof (move_parity L (-1) d x HL HE H Hd eq_refl) as P. unfold down.
  destruct par; cbn [has_parity opp_parity] in *; try reflexivity; rewrite P.
  - rewrite Hp. reflexivity.
  - exact Hp.
Qed.
