(** The list of staples: every staple is written once, in its place. *)
From Coq Require Import ZArith List Bool Lia.
From Verif Require Import Common GaugeModel ForceModel GaussModel StoutModel.
Import ListNotations.

(** The rank of d2 among the directions other than d. *)
Definition rank (d d2 : nat) : Z := if (d2 <? d)%nat then Z.of_nat d2 else (Z.of_nat d2 - 1)%Z.

Section Staples.
Context (M : matrices) (L : list Z) (U : gauge M).
Notation "a * b" := (mul M a b).
Notation dag := (dagger M).
Notation "x +/ d" := (up L d x) (at level 45, left associativity).
Notation "x -/ d" := (down L d x) (at level 45, left associativity).

Definition upper (d d2 : nat) (x : site) : mat M := U d2 (x +/ d) * dag (U d2 x * U d (x +/ d2)).
Definition lower (d d2 : nat) (x : site) : mat M :=
  dag (U d (x -/ d2) * U d2 (x -/ d2 +/ d)) * U d2 (x -/ d2).

Let D := Z.of_nat (length L).
Let nstap := (2 * (D - 1))%Z.

(** Everything that is written, and where. *)
Definition place (k : Z) (d : nat) (f : site -> mat M) : Prop :=
  exists d2, d2 <> d /\ (d2 < length L)%nat /\
  ((k = rank d d2 /\ f = upper d d2) \/ (k = (nstap - 1 - rank d d2)%Z /\ f = lower d d2)).

Lemma rank_inj d a b : a <> d -> b <> d -> rank d a = rank d b -> a = b.
Proof. unfold rank; intros; destruct (Nat.ltb_spec a d), (Nat.ltb_spec b d); lia. Qed.
Lemma rank_bound d a : (d < length L)%nat -> a <> d -> (a < length L)%nat -> (0 <= rank d a < D - 1)%Z.
Proof. unfold rank, D; intros; destruct (Nat.ltb_spec a d); lia. Qed.

Lemma place_fun k d f f' : (d < length L)%nat -> place k d f -> place k d f' -> f = f'.
Proof.
intros hd [a [na [ha [[e ->]|[e ->]]]]] [b [nb [hb [[e' ->]|[e' ->]]]]].
- rewrite (rank_inj d a b); congruence.
- pose proof (rank_bound d a hd na ha); pose proof (rank_bound d b hd nb hb); unfold nstap in *; lia.
- pose proof (rank_bound d a hd na ha); pose proof (rank_bound d b hd nb hb); unfold nstap in *; lia.
- rewrite (rank_inj d a b); auto; lia.
Qed.

Definition good (SS : staple_list M) (k : Z) (d : nat) : Prop := exists f, place k d f /\ forall x, SS k d x = f x.

Lemma set_good SS k d f k' d' : place k d f -> (d < length L)%nat -> good SS k' d' \/ (k' = k /\ d' = d) ->
  good (set_staple M SS k d f) k' d'.
Proof.
intros P hd H; unfold good, set_staple, set_links.
destruct (Z.eqb_spec k' k) as [->|nk].
- destruct (Nat.eqb_spec d' d) as [->|nd].
  + exists f; auto.
  + destruct H as [[f' [P' E]]|[_ e]]; [exists f'; auto|contradiction].
- destruct H as [[f' [P' E]]|[e _]]; [exists f'; auto|contradiction].
Qed.

Lemma inner d1 m : forall a SS k, (d1 < length L)%nat -> (a + m = length L)%nat ->
  k = (if (a <=? d1)%nat then Z.of_nat a else Z.of_nat a - 1)%Z ->
  let SS' := fst (fold_left (stout_staples_pair M L U nstap (Z.of_nat d1) d1) (seq a m) (SS, k)) in
  (forall k' d', good SS k' d' -> good SS' k' d') /\
  (forall d2, d2 <> d1 -> (a <= d2)%nat -> (d2 < a + m)%nat ->
     good SS' (rank d2 d1) d2 /\ good SS' (nstap - 1 - rank d1 d2)%Z d1).
Proof.
induction m as [|m IH]; intros a SS k hd hm hk; cbn [seq fold_left].
- split; [auto|intros; lia].
- destruct (Nat.eq_dec a d1) as [->|na].
  + assert (E : stout_staples_pair M L U nstap (Z.of_nat d1) d1 (SS, k) d1 = (SS, k))
      by (unfold stout_staples_pair; rewrite Nat.eqb_refl; reflexivity).
    rewrite E; destruct (IH (S d1) SS k hd ltac:(lia)) as [I1 I2].
    { subst k; destruct (Nat.leb_spec d1 d1), (Nat.leb_spec (S d1) d1); lia. }
    split; [exact I1|]; intros d2 n2 h1 h2; apply I2; lia.
  + pose (S1 := set_staple M SS (if (d1 <? a)%nat then Z.of_nat d1 else Z.of_nat d1 - 1)%Z a (upper a d1)).
    pose (S2 := set_staple M S1 (nstap - 1 - k)%Z d1 (lower d1 a)).
    assert (E : stout_staples_pair M L U nstap (Z.of_nat d1) d1 (SS, k) a = (S2, (k + 1)%Z)).
    { unfold stout_staples_pair; rewrite (proj2 (Nat.eqb_neq a d1) na); reflexivity. }
    rewrite E; clear E.
    assert (P1 : place (rank a d1) a (upper a d1)).
    { exists d1; split; [auto|split; [exact hd|left; auto]]. }
    assert (P2 : place (nstap - 1 - rank d1 a)%Z d1 (lower d1 a)).
    { exists a; split; [auto|split; [lia|right; auto]]. }
    assert (ek : k = rank d1 a).
    { subst k; unfold rank; destruct (Nat.leb_spec a d1), (Nat.ltb_spec a d1); lia. }
    assert (E1 : (if (d1 <? a)%nat then Z.of_nat d1 else Z.of_nat d1 - 1)%Z = rank a d1) by reflexivity.
    assert (G1 : forall k' d', good SS k' d' \/ (k' = rank a d1 /\ d' = a) -> good S1 k' d').
    { intros k' d' H; unfold S1; rewrite E1; apply (set_good SS _ _ (upper a d1)); [exact P1|lia|exact H]. }
    assert (G2 : forall k' d', good S1 k' d' \/ (k' = (nstap - 1 - rank d1 a)%Z /\ d' = d1) -> good S2 k' d').
    { intros k' d' H; unfold S2; rewrite ek; apply (set_good S1 _ _ (lower d1 a)); [exact P2|exact hd|exact H]. }
    destruct (IH (S a) S2 (k + 1)%Z hd ltac:(lia)) as [I1 I2].
    { rewrite ek; unfold rank; destruct (Nat.leb_spec (S a) d1), (Nat.ltb_spec a d1); lia. }
    split.
    * intros k' d' H; apply I1, G2; left; apply G1; left; exact H.
    * intros d2 n2 h1 h2; destruct (Nat.eq_dec d2 a) as [->|n3].
      -- split; apply I1, G2; [left; apply G1; right; auto|right; auto].
      -- apply I2; lia.
Qed.

Lemma outer m : forall a SS, (a + m = length L)%nat ->
  let SS' := fst (fold_left (fun st d1 =>
        let '(SS, l) := st in
        let '(SS, _) := fold_left (stout_staples_pair M L U nstap l d1) (directions L) (SS, 0%Z) in
        (SS, (l + 1)%Z)) (seq a m) (SS, Z.of_nat a)) in
  (forall k' d', good SS k' d' -> good SS' k' d') /\
  (forall d1 d2, d2 <> d1 -> (a <= d1)%nat -> (d1 < a + m)%nat -> (d2 < length L)%nat ->
     good SS' (rank d2 d1) d2 /\ good SS' (nstap - 1 - rank d1 d2)%Z d1).
Proof.
induction m as [|m IH]; intros a SS hm; cbn [seq fold_left].
- split; [auto|intros; lia].
- assert (I := inner a (length L) 0 SS 0%Z ltac:(lia) ltac:(lia) eq_refl).
  change (seq 0 (length L)) with (directions L) in I.
  destruct (fold_left (stout_staples_pair M L U nstap (Z.of_nat a) a) (directions L) (SS, 0%Z)) as [S1 k1].
  cbn [fst] in I; destruct I as [I1 I2].
  replace (Z.of_nat a + 1)%Z with (Z.of_nat (S a)) by lia.
  destruct (IH (S a) S1 ltac:(lia)) as [J1 J2]; split.
  + intros k' d' H; apply J1, I1, H.
  + intros d1 d2 n2 h1 h2 h3; destruct (Nat.eq_dec d1 a) as [->|n3].
    * destruct (I2 d2 n2 ltac:(lia) ltac:(lia)); split; apply J1; assumption.
    * apply J2; lia.
Qed.

Lemma staples_placed SS Ssum d d2 x : (d < length L)%nat -> (d2 < length L)%nat -> d2 <> d ->
  fst (get_stout_staples M L U SS Ssum) (rank d d2) d x = upper d d2 x /\
  fst (get_stout_staples M L U SS Ssum) (nstap - 1 - rank d d2)%Z d x = lower d d2 x.
Proof.
intros hd h2 nd; unfold get_stout_staples; fold D; fold nstap.
assert (O := outer (length L) 0 SS ltac:(lia)).
change (seq 0 (length L)) with (directions L) in O; change (Z.of_nat 0) with 0%Z in O.
match goal with |- context [fold_left ?f (directions L) (SS, 0%Z)] => destruct (fold_left f (directions L) (SS, 0%Z)) as [S1 k1] end.
cbn [fst] in *; destruct O as [_ O].
destruct (O d2 d (not_eq_sym nd) ltac:(lia) ltac:(lia) hd) as [[f [P E]] _].
destruct (O d d2 nd ltac:(lia) ltac:(lia) h2) as [_ [f' [P' E']]].
rewrite E, E'; split.
- rewrite (place_fun _ _ f (upper d d2) hd P); [reflexivity|]; exists d2; auto.
- rewrite (place_fun _ _ f' (lower d d2) hd P'); [reflexivity|]; exists d2; auto.
Qed.

(** The sums. *)
Lemma sum_inner (SS : staple_list M) d l : forall (S : gauge M) d' x,
  fold_left (fun S k => set_links M S d (fun x => madd M (S d x) (SS (Z.of_nat k) d x))) l S d' x
  = if (d' =? d)%nat then fold_left (fun s k => madd M s (SS (Z.of_nat k) d x)) l (S d x) else S d' x.
Proof.
induction l as [|k l IH]; intros S d' x; cbn [fold_left].
- destruct (Nat.eqb_spec d' d) as [->|]; reflexivity.
- rewrite IH; unfold set_links; rewrite Nat.eqb_refl; destruct (d' =? d)%nat; reflexivity.
Qed.

Lemma sum_outer (SS : staple_list M) t ds : forall (S : gauge M) d x, NoDup ds ->
  fold_left (fun S d1 =>
        let S := set_links M S d1 (fun x => SS 0%Z d1 x) in
        fold_left (fun S k => set_links M S d1 (fun x => madd M (S d1 x) (SS (Z.of_nat k) d1 x))) t S) ds S d x
  = if in_dec Nat.eq_dec d ds then fold_left (fun s k => madd M s (SS (Z.of_nat k) d x)) t (SS 0%Z d x) else S d x.
Proof.
induction ds as [|a ds IH]; intros S d x nd; cbn [fold_left]; [reflexivity|].
inversion nd as [|? ? na nd']; subst.
rewrite IH by exact nd'; rewrite sum_inner; unfold set_links at 1 2.
rewrite Nat.eqb_refl; destruct (in_dec Nat.eq_dec d ds) as [i|i], (in_dec Nat.eq_dec d (a :: ds)) as [j|j].
- reflexivity.
- exfalso; apply j; right; exact i.
- destruct j as [->|j]; [|contradiction]; rewrite Nat.eqb_refl; reflexivity.
- destruct (Nat.eqb_spec d a) as [->|]; [exfalso; apply j; left; reflexivity|reflexivity].
Qed.

Lemma sums SS Ssum d x : (d < length L)%nat ->
  snd (get_stout_staples M L U SS Ssum) d x
  = fold_left (fun s k => madd M s (fst (get_stout_staples M L U SS Ssum) (Z.of_nat k) d x)) (seq 1 (Z.to_nat (nstap - 1)))
      (fst (get_stout_staples M L U SS Ssum) 0%Z d x).
Proof.
intros hd; unfold get_stout_staples; fold D; fold nstap.
match goal with |- context [fold_left ?f (directions L) (SS, 0%Z)] => destruct (fold_left f (directions L) (SS, 0%Z)) as [S1 k1] end.
cbn [fst snd]; rewrite sum_outer by apply seq_NoDup.
destruct (in_dec Nat.eq_dec d (directions L)) as [i|i]; [reflexivity|].
exfalso; apply i, in_seq; lia.
Qed.
End Staples.
