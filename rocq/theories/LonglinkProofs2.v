(** Lines of long links. *)
From Verif Require Import Common GaugeModel GaugeSpec GaugeProofs1 ForceModel ForceSpec.
From Verif Require Import LayoutModel LayoutSpec LayoutProofs1 BlockModel BlockSpec BlockProofs1 LonglinkSpec LonglinkProofs1.

Section Lines.
  Variables (M : matrices) (ML : matrix_laws M) (L : list Z) (U : gauge M).
  Hypothesis HL : sizes L.

  Lemma dag_one : dagger M (mone M) = mone M.
  Proof.
    assert (E := m_dag_mul M ML (dagger M (mone M)) (mone M)).
    rewrite (m_one_r M ML), (m_dag_dag M ML), (m_one_r M ML) in E. auto.
  Qed.

  Lemma line_last : forall d k x, on_lattice L x ->
    line M L U d (S k) x = mul M (line M L U d k x) (U d (move (Z.of_nat k) L d x)).
  Proof.
    intros d k. induction k as [|k IH]; intros x Hx.
    - cbn [line]. rewrite (m_one_r M ML), (m_one_l M ML). change (Z.of_nat 0) with 0.
      rewrite move_zero by auto. reflexivity.
    - change (line M L U d (S (S k)) x) with (mul M (U d x) (line M L U d (S k) (up L d x))).
      rewrite IH by (apply up_on; auto).
      change (line M L U d (S k) x) with (mul M (U d x) (line M L U d k (up L d x))).
      rewrite (m_assoc M ML). f_equal. f_equal. unfold up. rewrite move_move by auto. f_equal. lia.
  Qed.

  Lemma ups : forall d k p y, on_lattice L y ->
    path_line L U (repeat (Up d) k ++ p) y
    = mul M (line M L U d k y) (path_line L U p (move (Z.of_nat k) L d y)).
  Proof.
    intros d k p. induction k as [|k IH]; intros y Hy; cbn [repeat app path_line line].
    - change (Z.of_nat 0) with 0. rewrite move_zero by auto. rewrite (m_one_l M ML). reflexivity.
    - cbn [arrive link_of]. rewrite IH by (apply up_on; auto). rewrite (m_assoc M ML). f_equal. f_equal.
      unfold up. rewrite move_move by auto. f_equal. lia.
  Qed.

  Lemma downs : forall d k p y, on_lattice L y ->
    path_line L U (repeat (Down d) k ++ p) y
    = mul M (dagger M (line M L U d k (move (- Z.of_nat k) L d y))) (path_line L U p (move (- Z.of_nat k) L d y)).
  Proof.
    intros d k p. induction k as [|k IH]; intros y Hy; cbn [repeat app].
    - change (- Z.of_nat 0) with 0. rewrite move_zero by auto. cbn [line]. rewrite dag_one, (m_one_l M ML). reflexivity.
    - cbn [path_line arrive link_of]. rewrite IH by (apply down_on; auto).
      rewrite line_last by (apply move_on_lattice; auto). rewrite (m_dag_mul M ML), (m_assoc M ML).
      unfold down. rewrite !move_move by auto.
      replace (-1 + - Z.of_nat k) with (- Z.of_nat (S k)) by lia.
      replace (- Z.of_nat (S k) + Z.of_nat k) with (-1) by lia. reflexivity.
  Qed.
End Lines.

Section Blocked.
  Variables (M : matrices) (ML : matrix_laws M) (L bf : list Z) (U : gauge M).
  Hypothesis HL : sizes L.
  Hypothesis Hb : blocking L bf.
  Local Notation L' := (element_div L bf).

  Lemma sizes' : sizes L'.
  Proof. apply element_div_pos; auto. Qed.

  Lemma factor_nat : forall d, Z.of_nat (Z.to_nat (nth d bf 0)) = nth d bf 0.
  Proof.
    intros d. apply Z2Nat.id. destruct (nth_in_or_default d bf 0) as [H|H]; [|lia].
    assert (Hp := blocking_pos _ _ Hb). rewrite Forall_forall in Hp. specialize (Hp _ H). lia.
  Qed.

  Lemma long_path_end : forall path x, on_lattice L' x ->
    path_end L (long_path bf path) (times bf x) = times bf (path_end L' path x).
  Proof.
    intros path. induction path as [|s path IH]; intros x Hx; [reflexivity|].
    unfold path_end, long_path in *. cbn [flat_map fold_left]. rewrite fold_left_app.
    assert (Hrep : forall s k y, on_lattice L y ->
      fold_left (arrive L) (repeat s k) y
      = move (match s with Up _ => 1 | Down _ => -1 end * Z.of_nat k) L (step_dir s) y).
    { clear - HL. intros s k. induction k as [|k IH]; intros y Hy; cbn [repeat fold_left].
      - rewrite Z.mul_0_r, move_zero by auto. reflexivity.
      - rewrite IH by (destruct s; cbn [arrive]; [apply up_on|apply down_on]; auto).
        destruct s; cbn [arrive step_dir]; unfold up, down; rewrite move_move by auto; f_equal; lia. }
    rewrite Hrep by (apply times_on; auto). rewrite factor_nat.
    rewrite <- times_move by auto.
    destruct s; cbn [arrive step_dir]; apply IH; apply move_on_lattice; auto using sizes'.
  Qed.

  Lemma long_lines : forall path x, on_lattice L' x ->
    path_line L' (long_link M L bf U) path x = path_line L U (long_path bf path) (times bf x).
  Proof.
    intros path. induction path as [|s path IH]; intros x Hx; [reflexivity|].
    cbn [path_line]. unfold long_path. cbn [flat_map]. fold (long_path bf path).
    destruct s as [d|d]; cbn [step_dir link_of arrive].
    - rewrite ups by (auto; apply times_on; auto). rewrite factor_nat.
      rewrite IH by (apply up_on; auto using sizes'). unfold long_link at 1. f_equal. f_equal.
      unfold up. rewrite times_move by auto. f_equal. lia.
    - rewrite downs by (auto; apply times_on; auto). rewrite factor_nat.
      rewrite IH by (apply down_on; auto using sizes'). unfold long_link at 1, down.
      rewrite times_move by auto. replace (-1 * nth d bf 0) with (- nth d bf 0) by lia. reflexivity.
  Qed.
End Blocked.

(** Gauge transformations. *)
Section Covariant.
  Variables (M : matrices) (ML : matrix_laws M) (L bf : list Z) (U : gauge M) (g : site -> mat M).
  Hypothesis HL : sizes L.
  Hypothesis Hb : blocking L bf.
  Hypothesis Hg : forall x, on_lattice L x -> unitary M (g x).

  Lemma line_transform : forall d k x, on_lattice L x ->
    line M L (transform M L g U) d k x
    = mul M (mul M (g x) (line M L U d k x)) (dagger M (g (move (Z.of_nat k) L d x))).
  Proof.
    intros d k. induction k as [|k IH]; intros x Hx; cbn [line].
    - change (Z.of_nat 0) with 0. rewrite move_zero, (m_one_r M ML) by auto.
      symmetry. apply Hg; auto.
    - rewrite IH by (apply up_on; auto). unfold transform.
      rewrite !(m_assoc M ML). rewrite <- (m_assoc M ML _ (dagger M (g (up L d x)))).
      rewrite (proj2 (Hg (up L d x) (up_on L d x HL Hx))), (m_one_r M ML). f_equal. f_equal. f_equal.
      unfold up. rewrite move_move by auto. f_equal. lia.
  Qed.

  Lemma long_transform : forall d x, on_lattice (element_div L bf) x ->
    long_link M L bf (transform M L g U) d x
    = transform M (element_div L bf) (fun y => g (times bf y)) (long_link M L bf U) d x.
  Proof.
    intros d x Hx. unfold long_link. rewrite line_transform by (apply times_on; auto). unfold transform.
    rewrite (factor_nat L bf Hb). f_equal. f_equal. f_equal. unfold up. rewrite times_move by auto.
    f_equal. lia.
  Qed.
End Covariant.
