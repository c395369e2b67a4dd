(** Gauge covariance. *)
From Coq Require Import ZArith List Bool Lia.
From Verif Require Import Common GaugeModel GaugeSpec GaugeProofs1.
Import ListNotations.
Open Scope Z_scope.

Section Proofs.
Context (M : matrices) (W : matrix_laws M).
Notation "a * b" := (mul M a b).
Notation "a + b" := (madd M a b).
Notation dag := (dagger M).
Context (L : list Z) (HL : sizes L).
Notation "x +/ d" := (up L d x) (at level 45, left associativity).
Notation "x -/ d" := (down L d x) (at level 45, left associativity).

Lemma cancel : forall g a, unitary M g -> dag g * (g * a) = a.
Proof.
  intros g a [_ H]. rewrite (m_assoc M W), H. apply (m_one_l M W).
Qed.

Lemma cancel' : forall g a, unitary M g -> g * (dag g * a) = a.
Proof.
  intros g a [H _]. rewrite (m_assoc M W), H. apply (m_one_l M W).
Qed.

Lemma unitary_dag : forall g, unitary M g -> unitary M (dag g).
Proof.
  intros g [H1 H2]. split; rewrite (m_dag_dag M W); assumption.
Qed.

Ltac flat :=
  repeat (rewrite ?(m_dag_mul M W), ?(m_dag_dag M W), <- ?(m_assoc M W)).

Section Transform.
Context (g : site -> mat M) (Hg : forall x, on_lattice L x -> unitary M (g x)).
Context (U : gauge M).
Notation U' := (transform M L g U).

Lemma trace_conj : forall x a, on_lattice L x -> trace M (g x * a * dag (g x)) = trace M a.
Proof.
  intros x a H. rewrite (m_trace_cyclic M W). rewrite cancel by (apply Hg; exact H). reflexivity.
Qed.

Lemma plaquette_covariant : forall d1 d2 x, on_lattice L x ->
  plaquette M L U' d1 d2 x = g x * plaquette M L U d1 d2 x * dag (g x).
Proof.
  intros d1 d2 x H. unfold plaquette, transform. flat.
  rewrite (up_comm L d2 d1 x).
  rewrite !cancel by (apply Hg; repeat apply up_on; assumption).
  reflexivity.
Qed.

Lemma two_staples_covariant : forall d1 d2 x, on_lattice L x ->
  two_staples M L U' d1 d2 x = g x * two_staples M L U d1 d2 x * dag (g (x +/ d1)).
Proof.
  intros d1 d2 x H. unfold two_staples, transform. cbv zeta.
  rewrite (m_dist_l M W), (m_dist_r M W). flat.
  rewrite (up_down L d2 x HL H).
  rewrite (up_comm L d2 d1 x).
  replace (x -/ d2 +/ d1 +/ d2) with (x +/ d1)
    by (rewrite (up_comm L d2 d1); rewrite (up_down L d2 x HL H); reflexivity).
  rewrite !cancel by (apply Hg; repeat (apply up_on || apply down_on); assumption).
  reflexivity.
Qed.

Lemma line_covariant : forall d n x, on_lattice L x ->
  line M L U' d n x = g x * line M L U d n x * dag (g (move (Z.of_nat n) L d x)).
Proof.
  intros d n. induction n as [|n IH]; intros x H.
  - cbn [line]. change (Z.of_nat 0) with 0. rewrite move_zero by assumption.
    rewrite (m_one_r M W). symmetry. apply Hg; assumption.
  - cbn [line]. rewrite IH by (apply up_on; assumption). unfold transform.
    replace (move (Z.of_nat n) L d (x +/ d)) with (move (Z.of_nat (S n)) L d x).
    2:{ unfold up. rewrite move_move by assumption. f_equal. lia. }
    flat. rewrite cancel by (apply Hg; apply up_on; assumption). reflexivity.
Qed.

Lemma sum_covariant : forall a b l, forall z,
  g a * fold_left (madd M) l z * dag (g b)
  = fold_left (madd M) (map (fun s => g a * s * dag (g b)) l) (g a * z * dag (g b)).
Proof.
  intros a b l. induction l as [|s l IH]; intros z; cbn [fold_left map]; [reflexivity|].
  rewrite IH. rewrite (m_dist_l M W), (m_dist_r M W). reflexivity.
Qed.
End Transform.

(** ** Sums of staples *)

Definition staples_of (U : gauge M) (d1 : nat) (x : site) (l : list nat) : list (mat M) :=
  map (fun d2 => two_staples M L U d1 d2 x) (filter (fun d2 => negb (d2 =? d1)%nat) l).

Lemma staples_fold : forall U d1 par, even_sizes L \/ par = ALL ->
  forall x, on_lattice L x -> has_parity par x = true ->
  forall ds lower staples (first : bool) lower' staples' (first' : bool) acc,
  (forall d, In d ds -> (d < length L)%nat) ->
  (if first then acc = mzero M else staples x = Some acc) ->
  fold_left (staples_dir M L U d1 par) ds (lower, staples, first) = (lower', staples', first') ->
  let sum := fold_left (madd M) (staples_of U d1 x ds) acc in
  (if first' then first = true /\ sum = mzero M /\ staples_of U d1 x ds = []
   else staples' x = Some sum).
Proof.
  intros U d1 par Hpar x Hx Hp ds. induction ds as [|d ds IH];
    intros lower staples first lower' staples' first' acc Hds Hacc E sum.
  - cbn [fold_left] in E. injection E as <- <- <-. subst sum. cbn [fold_left].
    destruct first; [|assumption]. cbn. auto.
  - cbn [fold_left] in E. subst sum.
    unfold staples_dir at 2 in E. unfold staples_of in *. cbn [filter].
    destruct (d =? d1)%nat eqn:Ed; cbn [negb].
    + eapply IH; [|exact Hacc|exact E]. intros; apply Hds; right; assumption.
    + cbn [map fold_left].
      assert (Hlow : has_parity (opp_parity par) (x -/ d) = true)
        by (apply down_parity; auto; apply Hds; left; reflexivity).
      assert (N : (if false then acc = mzero M else
        (fun x0 => if has_parity par x0 then
           match (if has_parity (opp_parity par) (x0 -/ d)
                  then Some (dag (U d (x0 -/ d)) * U d1 (x0 -/ d) * U d (x0 -/ d +/ d1))
                  else lower (x0 -/ d)) with
           | None => None
           | Some l => if first then Some (U d x0 * U d1 (x0 +/ d) * dag (U d (x0 +/ d1)) + l)
               else match staples x0 with None => None
                    | Some old => Some (old + (U d x0 * U d1 (x0 +/ d) * dag (U d (x0 +/ d1)) + l)) end
           end else staples x0) x = Some (acc + two_staples M L U d1 d x))).
      { cbn beta. rewrite Hp, Hlow. unfold two_staples.
        destruct first.
        - subst acc. rewrite (m_zero M W). reflexivity.
        - rewrite Hacc. reflexivity. }
      specialize (IH _ _ false lower' staples' first' (acc + two_staples M L U d1 d x)
        (fun e He => Hds e (or_intror He)) N E).
      cbv zeta in IH. destruct first'; [|exact IH]. destruct IH as [IH _]. discriminate.
Qed.

Lemma staplesum_sum : forall U staples d1 par x, even_sizes L \/ par = ALL ->
  on_lattice L x -> has_parity par x = true -> other_directions L d1 <> [] ->
  staplesum M L U staples d1 par x = Some (all_staples M L U d1 x).
Proof.
  intros U staples d1 par x Hpar Hx Hp Hne. unfold staplesum.
  destruct (fold_left (staples_dir M L U d1 par) (directions L) (fun _ => None, staples, true))
    as [[lower' staples'] first'] eqn:E.
  pose proof (staples_fold U d1 par Hpar x Hx Hp (directions L) (fun _ => None) staples true
    lower' staples' first' (mzero M)) as F. cbv zeta in F.
  specialize (F (fun d Hd => proj2 (proj1 (in_seq _ _ _) Hd)) eq_refl E).
  destruct first'; [|exact F]. destruct F as (_ & _ & F). exfalso. apply Hne.
  apply map_eq_nil in F. exact F.
Qed.

Lemma staples_fold_other : forall U d1 par x, has_parity par x = false ->
  forall ds lower staples first,
  snd (fst (fold_left (staples_dir M L U d1 par) ds (lower, staples, first))) x = staples x.
Proof.
  intros U d1 par x Hp ds. induction ds as [|d ds IH]; intros lower staples first;
    cbn [fold_left]; [reflexivity|].
  unfold staples_dir at 2. destruct (d =? d1)%nat; [apply IH|].
  etransitivity; [apply IH|]. cbn beta. rewrite Hp. reflexivity.
Qed.

Lemma staplesum_other : forall U staples d1 par x, has_parity par x = false ->
  staplesum M L U staples d1 par x = staples x.
Proof.
  intros U staples d1 par x Hp. unfold staplesum.
  pose proof (staples_fold_other U d1 par x Hp (directions L) (fun _ => None) staples true) as F.
  destruct (fold_left (staples_dir M L U d1 par) (directions L) (fun _ => None, staples, true))
    as [[lower' staples'] first'] eqn:E.
  change (snd (fst (lower', staples', first')) x = staples x). rewrite <- E. exact F.
Qed.

Lemma zero_sandwich : forall a b, a * mzero M * b = mzero M.
Proof. intros. rewrite (m_mul_zero M W). apply (m_zero_mul M W). Qed.

Lemma all_staples_covariant : forall g, (forall x, on_lattice L x -> unitary M (g x)) ->
  forall U d1 x, on_lattice L x ->
  all_staples M L (transform M L g U) d1 x = g x * all_staples M L U d1 x * dag (g (x +/ d1)).
Proof.
  intros g Hg U d1 x Hx. unfold all_staples, sum_of.
  rewrite sum_covariant, zero_sandwich, map_map. f_equal. apply map_ext_In. intros d2 _.
  apply two_staples_covariant; assumption.
Qed.

Lemma madd_zero_r : forall a, trace M (a + mzero M) = cadd M (trace M a) (czero M).
Proof. intros. rewrite (m_trace_add M W), (m_trace_zero M W). reflexivity. Qed.

Lemma dag_zero : dag (mzero M) = mzero M.
Proof.
  rewrite <- (m_mul_zero M W (dag (mzero M))) at 1.
  rewrite (m_dag_mul M W), (m_dag_dag M W). apply (m_mul_zero M W).
Qed.

Lemma two_staples_trace : forall U d1 d2 x, on_lattice L x ->
  trace M (U d1 x * dag (two_staples M L U d1 d2 x))
  = cadd M (trace M (plaquette M L U d1 d2 x)) (trace M (plaquette M L U d2 d1 (x -/ d2))).
Proof.
  intros U d1 d2 x Hx. unfold two_staples, plaquette. cbv zeta.
  rewrite (m_dag_add M W), (m_dist_l M W), (m_trace_add M W). flat.
  rewrite (up_down L d2 x HL Hx). f_equal.
  rewrite (m_trace_cyclic M W (U d2 (x -/ d2))). flat. reflexivity.
Qed.

Lemma sum_trace : forall A (f : A -> mat M) (h : mat M -> mat M) k l,
  (forall a b, h (a + b) = h a + h b) ->
  (forall d, In d l -> trace M (h (f d)) = k d) ->
  forall z, trace M (h (fold_left (madd M) (map f l) z))
    = fold_left (cadd M) (map k l) (trace M (h z)).
Proof.
  intros A f h k l Hh. induction l as [|d l IH]; intros Hk z; cbn [map fold_left]; [reflexivity|].
  rewrite IH by (intros; apply Hk; right; assumption).
  rewrite Hh, (m_trace_add M W), Hk by (left; reflexivity). reflexivity.
Qed.

Lemma all_staples_trace : forall U d1 x, on_lattice L x ->
  trace M (U d1 x * dag (all_staples M L U d1 x))
  = sum_of (cadd M) (czero M)
      (map (fun d2 => cadd M (trace M (plaquette M L U d1 d2 x))
                             (trace M (plaquette M L U d2 d1 (x -/ d2))))
        (other_directions L d1)).
Proof.
  intros U d1 x Hx. unfold all_staples, sum_of.
  rewrite (sum_trace _ (fun d2 => two_staples M L U d1 d2 x) (fun s => U d1 x * dag s)
    (fun d2 => cadd M (trace M (plaquette M L U d1 d2 x))
                      (trace M (plaquette M L U d2 d1 (x -/ d2))))).
  - rewrite dag_zero, (m_mul_zero M W), (m_trace_zero M W). reflexivity.
  - intros. rewrite (m_dag_add M W). apply (m_dist_l M W).
  - intros. apply two_staples_trace; assumption.
Qed.

(** The staples of hmc/gauge_field.h are the hermitean conjugates. *)
Lemma calc_staples_dag : forall U d1 x, on_lattice L x ->
  calc_staples M L U d1 x = dag (all_staples M L U d1 x).
Proof.
  intros U d1 x Hx. unfold calc_staples, all_staples, sum_of, other_directions.
  rewrite <- dag_zero at 1. generalize (mzero M) as z. generalize (directions L) as ds.
  induction ds as [|d ds IH]; intros z; cbn [fold_left filter]; [reflexivity|].
  destruct (d =? d1)%nat; cbn [negb]; [apply IH|].
  cbn [map fold_left]. cbv zeta. rewrite <- IH. f_equal.
  unfold two_staples. cbv zeta. rewrite !(m_dag_add M W). flat.
  rewrite <- (m_add_assoc M W). reflexivity.
Qed.

(** ** Plaquette sums *)

Lemma fold_left_ext_In : forall A B (f h : B -> A -> B) l,
  (forall b a, In a l -> f b a = h b a) -> forall z, fold_left f l z = fold_left h l z.
Proof.
  intros A B f h l. induction l as [|a l IH]; intros H z; cbn [fold_left]; [reflexivity|].
  rewrite H by (left; reflexivity). apply IH. intros; apply H; right; assumption.
Qed.

Lemma plaquette_trace_invariant : forall g, (forall x, on_lattice L x -> unitary M (g x)) ->
  forall U d1 d2 x, on_lattice L x ->
  trace M (plaquette M L (transform M L g U) d1 d2 x) = trace M (plaquette M L U d1 d2 x).
Proof.
  intros g Hg U d1 d2 x Hx. rewrite (plaquette_covariant g Hg U d1 d2 x Hx).
  apply trace_conj; assumption.
Qed.

Lemma measure_plaq_invariant : forall g, (forall x, on_lattice L x -> unitary M (g x)) ->
  forall U, measure_plaq M L (transform M L g U) = measure_plaq M L U.
Proof.
  intros g Hg U. unfold measure_plaq. apply fold_left_ext_In. intros s [d1 d2] _.
  destruct (d1 <? d2)%nat; [|reflexivity]. apply fold_left_ext_In. intros r x Hx.
  apply sites_In in Hx.
  pose proof (plaquette_trace_invariant g Hg U d1 d2 x Hx) as E. unfold plaquette in E.
  rewrite E. reflexivity.
Qed.

Lemma plaquette_sum_invariant : forall g, (forall x, on_lattice L x -> unitary M (g x)) ->
  forall U, plaquette_sum M L (transform M L g U) = plaquette_sum M L U.
Proof.
  intros g Hg U. unfold plaquette_sum. apply fold_left_ext_In. intros s [d1 d2] _.
  destruct (d2 <? d1)%nat; [|reflexivity]. apply fold_left_ext_In. intros r x Hx.
  apply sites_In in Hx.
  pose proof (plaquette_trace_invariant g Hg U d1 d2 x Hx) as E. unfold plaquette in E.
  rewrite E. reflexivity.
Qed.

(** ** Polyakov loops *)

Lemma zrange_snoc : forall n a, zrange a (S n) = zrange a n ++ [(a + Z.of_nat n)%Z].
Proof.
  intros n a. replace (S n) with (n + 1)%nat by lia. rewrite zrange_app. reflexivity.
Qed.

Lemma polyakov_planes : forall U dir, (dir < length L)%nat -> forall n,
  Z.of_nat n <= nth dir L 0 - 1 ->
  forall x, on_lattice L x ->
  fold_left (polyakov_plane M L U dir)
    (map (fun k => nth dir L 0 - 2 - k) (zrange 0 n)) (U dir) x
  = if nth dir L 0 - 1 - Z.of_nat n <=? coordinate dir x
    then line M L U dir (Z.to_nat (nth dir L 0 - coordinate dir x)) x
    else U dir x.
Proof.
  intros U dir Hd. induction n as [|n IH]; intros Hn x Hx.
  - cbn [zrange map fold_left]. destruct (Z.leb_spec (nth dir L 0 - 1 - Z.of_nat 0) (coordinate dir x)) as [Hle|]; [|reflexivity].
    pose proof (coordinate_range L dir x Hx Hd).
    replace (Z.to_nat (nth dir L 0 - coordinate dir x)) with 1%nat by lia.
    cbn [line]. symmetry. apply (m_one_r M W).
  - rewrite zrange_snoc, map_app, fold_left_app. cbn [map fold_left].
    unfold polyakov_plane at 1.
    pose proof (coordinate_range L dir x Hx Hd) as R.
    destruct (Z.eqb_spec (coordinate dir x) (nth dir L 0 - 2 - (0 + Z.of_nat n))) as [E|E].
    + rewrite IH by (try lia; apply up_on; assumption).
      unfold up at 1. rewrite coordinate_move by assumption.
      rewrite Z.mod_small by lia.
      destruct (Z.leb_spec (nth dir L 0 - 1 - Z.of_nat n) (coordinate dir x + 1)%Z); [|lia].
      destruct (Z.leb_spec (nth dir L 0 - 1 - Z.of_nat (S n)) (coordinate dir x)); [|lia].
      unfold up at 1. rewrite coordinate_move by assumption. rewrite Z.mod_small by lia.
      replace (Z.to_nat (nth dir L 0 - coordinate dir x))
        with (S (Z.to_nat (nth dir L 0 - (coordinate dir x + 1)))) by lia.
      reflexivity.
    + rewrite IH by (try lia; assumption).
      destruct (Z.leb_spec (nth dir L 0 - 1 - Z.of_nat n) (coordinate dir x)),
        (Z.leb_spec (nth dir L 0 - 1 - Z.of_nat (S n)) (coordinate dir x)); try lia; reflexivity.
Qed.

Lemma size_pos : forall dir, (dir < length L)%nat -> 0 < nth dir L 0.
Proof.
  intros dir Hd. apply (proj1 (Forall_forall _ _) HL). apply nth_In. exact Hd.
Qed.

Lemma polyakov_line : forall U dir x, (dir < length L)%nat -> on_lattice L x ->
  coordinate dir x = 0 ->
  polyakov_field M L U dir x = line M L U dir (Z.to_nat (nth dir L 0)) x.
Proof.
  intros U dir x Hd Hx H0. unfold polyakov_field.
  pose proof (size_pos dir Hd).
  rewrite polyakov_planes by (try assumption; lia).
  rewrite H0. destruct (Z.leb_spec (nth dir L 0 - 1 - Z.of_nat (Z.to_nat (nth dir L 0 - 1))) 0);
    [|lia].
  f_equal. lia.
Qed.

Lemma line_trace_invariant : forall g, (forall x, on_lattice L x -> unitary M (g x)) ->
  forall U dir x, (dir < length L)%nat -> on_lattice L x ->
  trace M (line M L (transform M L g U) dir (Z.to_nat (nth dir L 0)) x)
  = trace M (line M L U dir (Z.to_nat (nth dir L 0)) x).
Proof.
  intros g Hg U dir x Hd Hx. pose proof (size_pos dir Hd).
  rewrite (line_covariant g Hg) by assumption.
  rewrite Z2Nat.id by lia. rewrite move_size by assumption. apply trace_conj; assumption.
Qed.

Lemma measure_polyakov_lines : forall U dir, (dir < length L)%nat ->
  measure_polyakov M L U dir
  = cover M (sum_of (cadd M) (czero M)
        (map (fun x => trace M (line M L U dir (Z.to_nat (nth dir L 0)) x))
          (filter (fun x => coordinate dir x =? 0) (sites L))))
      (zprod L / nth dir L 0).
Proof.
  intros U dir Hd. unfold measure_polyakov, sum_of. f_equal.
  assert (G : forall l, (forall x, In x l -> on_lattice L x) -> forall z,
    fold_left (fun s x => if coordinate dir x =? 0 then
       cadd M s (trace M (polyakov_field M L U dir x)) else s) l z
    = fold_left (cadd M) (map (fun x => trace M (line M L U dir (Z.to_nat (nth dir L 0)) x))
          (filter (fun x => coordinate dir x =? 0) l)) z).
  { induction l as [|x l IH]; intros Hl z; cbn [fold_left filter map]; [reflexivity|].
    destruct (Z.eqb_spec (coordinate dir x) 0) as [E|E].
    - cbn [map fold_left]. rewrite <- IH by (intros; apply Hl; right; assumption).
      rewrite polyakov_line; [reflexivity|assumption| |assumption].
      apply Hl; left; reflexivity.
    - apply IH. intros; apply Hl; right; assumption. }
  apply G. intros x Hx. apply sites_In. exact Hx.
Qed.

Lemma measure_polyakov_invariant : forall g, (forall x, on_lattice L x -> unitary M (g x)) ->
  forall U dir, (dir < length L)%nat ->
  measure_polyakov M L (transform M L g U) dir = measure_polyakov M L U dir.
Proof.
  intros g Hg U dir Hd. rewrite !measure_polyakov_lines by assumption.
  f_equal. f_equal. apply map_ext_In. intros x Hx. apply filter_In in Hx as [Hx _].
  apply sites_In in Hx. apply line_trace_invariant; assumption.
Qed.

(** The loop of hmc/gauge_field.h ends with a single link. *)
Lemma loop_planes : forall U dir, (dir < length L)%nat -> forall n,
  Z.of_nat n <= nth dir L 0 -> forall x, on_lattice L x ->
  fold_left (loop_plane M L U dir) (zrange 0 n) (fun _ => mone M) x
  = if (coordinate dir x - 1) mod nth dir L 0 <? Z.of_nat n then U dir (x -/ dir) else mone M.
Proof.
  intros U dir Hd. pose proof (size_pos dir Hd) as P.
  induction n as [|n IH]; intros Hn x Hx.
  - cbn [zrange fold_left]. pose proof (Z.mod_pos_bound (coordinate dir x - 1) _ P).
    destruct (Z.ltb_spec ((coordinate dir x - 1) mod nth dir L 0) (Z.of_nat 0)); [lia|reflexivity].
  - rewrite zrange_snoc, fold_left_app. cbn [fold_left]. unfold loop_plane at 1.
    rewrite IH by (try assumption; lia).
    pose proof (coordinate_range L dir x Hx Hd) as R.
    set (l := nth dir L 0) in *. set (c := coordinate dir x) in *.
    assert (K : (c - 1) mod l = if c =? 0 then l - 1 else c - 1).
    { destruct (Z.eqb_spec c 0) as [->|].
      - rewrite <- (Z.mod_small (l - 1) l) by lia.
        replace (0 - 1)%Z with (l - 1 + (-1) * l)%Z by lia. apply Z_mod_plus_full.
      - apply Z.mod_small; lia. }
    assert (K' : (0 + Z.of_nat n + 1)%Z mod l = if Z.of_nat n =? l - 1 then 0 else (Z.of_nat n + 1)%Z).
    { destruct (Z.eqb_spec (Z.of_nat n) (l - 1)) as [->|].
      - replace (0 + (l - 1) + 1)%Z with (0 + 1 * l)%Z by lia. rewrite Z_mod_plus_full.
        apply Z.mod_0_l; lia.
      - apply Z.mod_small; lia. }
    rewrite K, K'.
    destruct (Z.eqb_spec c 0), (Z.eqb_spec (Z.of_nat n) (l - 1));
    repeat match goal with
    | |- context [?a =? ?b] => destruct (Z.eqb_spec a b)
    | |- context [?a <? ?b] => destruct (Z.ltb_spec a b)
    end; try lia; try reflexivity; apply (m_one_l M W).
Qed.

Lemma loop_single_link : forall U dir x, (dir < length L)%nat -> on_lattice L x ->
  loop_field M L U dir x = U dir (x -/ dir).
Proof.
  intros U dir x Hd Hx. pose proof (size_pos dir Hd) as P. unfold loop_field.
  rewrite loop_planes by (try assumption; lia).
  pose proof (Z.mod_pos_bound (coordinate dir x - 1) _ P).
  destruct (Z.ltb_spec ((coordinate dir x - 1) mod nth dir L 0)
    (Z.of_nat (Z.to_nat (nth dir L 0)))); [reflexivity|lia].
Qed.
End Proofs.
