(** The edit tables represent a list of cells. *)
From Verif Require Import Common RandomModel RandomProofs1 SrcbufModel SrcbufSpec.
Open Scope nat_scope.

Definition cell_of (ex : list text) (e : Z) : option cell :=
  if has_slot e then match nth_error ex (slot e) with Some s => Some (mkCell (Some s) (0 <? e)%Z) | None => None end
  else if (e =? 0)%Z then Some gone else if (e =? 1)%Z then Some (mkCell None true) else None.

Record table_ok (ei : list Z) (ex : list text) (fr : list nat) (cells : list cell) : Prop := {
  t_len : length cells <= length ei;
  t_cell : forall i e c, nth_error ei i = Some e -> nth_error cells i = Some c -> cell_of ex e = Some c;
  t_rest : forall i e, nth_error ei i = Some e -> length cells <= i -> has_slot e = false;
  t_inj : forall i j e e', nth_error ei i = Some e -> nth_error ei j = Some e' -> has_slot e = true -> has_slot e' = true ->
          slot e = slot e' -> i = j;
  t_free : forall i e, nth_error ei i = Some e -> has_slot e = true -> ~ In (slot e) fr;
  t_bound : forall i e, nth_error ei i = Some e -> has_slot e = true -> slot e < length ex;
  t_nodup : NoDup fr;
  t_fbound : forall j, In j fr -> j < length ex }.

Lemma put_nth' {A : Type} k (x : A) arr i : nth_error (put k x arr) i = if i =? k then (if k <? length arr then Some x else None) else nth_error arr i.
Proof.
  destruct (Nat.ltb_spec k (length arr)) as [H|H]; [apply put_nth; exact H|].
  assert (E : forall k (arr : list A), length arr <= k -> put k x arr = arr).
  { induction k0 as [|k0 IH]; intros [|a l] Hl; cbn [length] in Hl; try lia; cbn [put]; try reflexivity. rewrite IH by lia. reflexivity. }
  rewrite E by exact H. destruct (Nat.eqb_spec i k) as [->|_]; [|reflexivity]. apply nth_error_None. exact H.
Qed.

Lemma has_slot_abs e : has_slot e = true -> (1 < Z.abs e)%Z.
Proof. unfold has_slot. intros H. apply Z.ltb_lt. exact H. Qed.

Lemma cell_of_kept ex e c : cell_of ex e = Some c -> kept c = (0 <? e)%Z.
Proof.
  unfold cell_of. destruct (has_slot e); [destruct (nth_error ex (slot e)); [|discriminate]; intros H; injection H as <-; reflexivity|].
  destruct (Z.eqb_spec e 0) as [->|]; [intros H; injection H as <-; reflexivity|].
  destruct (Z.eqb_spec e 1) as [->|]; [intros H; injection H as <-; reflexivity|discriminate].
Qed.

Lemma cell_of_slot ex e c : cell_of ex e = Some c -> has_slot e = true -> exists s, nth_error ex (slot e) = Some s /\ c = mkCell (Some s) (0 <? e)%Z.
Proof.
  unfold cell_of. intros H Hs. rewrite Hs in H. destruct (nth_error ex (slot e)) as [s|]; [|discriminate]. injection H as <-. eauto.
Qed.

Lemma cell_of_plain ex e c : cell_of ex e = Some c -> has_slot e = false -> (e = 0%Z /\ c = gone) \/ (e = 1%Z /\ c = mkCell None true).
Proof.
  unfold cell_of. intros H Hs. rewrite Hs in H.
  destruct (Z.eqb_spec e 0) as [->|]; [injection H as <-; auto|]. destruct (Z.eqb_spec e 1) as [->|]; [injection H as <-; auto|discriminate].
Qed.

(** The other entries do not see a change of a place in [extents]. *)
Lemma cell_of_put ex j s e : (has_slot e = true -> slot e <> j) -> cell_of (put j s ex) e = cell_of ex e.
Proof.
  intros H. unfold cell_of. destruct (has_slot e); [|reflexivity]. rewrite put_nth'.
  destruct (Nat.eqb_spec (slot e) j) as [E|_]; [exfalso; exact (H eq_refl E)|reflexivity].
Qed.

Lemma cell_of_app ex s e : (has_slot e = true -> slot e < length ex) -> cell_of (ex ++ [s]) e = cell_of ex e.
Proof. intros H. unfold cell_of. destruct (has_slot e); [|reflexivity]. rewrite nth_error_app1 by (apply H; reflexivity). reflexivity. Qed.

Lemma nth_error_lt {A : Type} (l : list A) i x : nth_error l i = Some x -> i < length l.
Proof. intros H. apply nth_error_Some. congruence. Qed.

(** General step: entry [i] becomes [e'], the cell [c']. *)
Lemma table_step ei ex fr cells i e' c' ex' fr' :
  table_ok ei ex fr cells -> i < length cells ->
  cell_of ex' e' = Some c' ->
  (has_slot e' = true -> slot e' < length ex' /\ ~ In (slot e') fr' /\
     forall k e, k <> i -> nth_error ei k = Some e -> has_slot e = true -> slot e <> slot e') ->
  (forall k e, k <> i -> nth_error ei k = Some e -> cell_of ex' e = cell_of ex e) ->
  length ex <= length ex' ->
  (forall k e, k <> i -> nth_error ei k = Some e -> has_slot e = true -> ~ In (slot e) fr') ->
  NoDup fr' -> (forall j, In j fr' -> j < length ex') ->
  table_ok (put i e' ei) ex' fr' (put i c' cells).
Proof.
  intros T Hi Hc Hs Ho Hle Hf Hnd Hb. pose proof (t_len _ _ _ _ T) as Hl.
  assert (N : forall k e, nth_error (put i e' ei) k = Some e -> (k = i /\ e = e') \/ (k <> i /\ nth_error ei k = Some e)).
  { intros k e H. rewrite put_nth in H by lia. destruct (Nat.eqb_spec k i); [left; split; congruence|right; auto]. }
  constructor.
  - rewrite !put_length. exact Hl.
  - intros k e c Hk Hkc. rewrite put_nth in Hkc by exact Hi. destruct (N k e Hk) as [[-> ->]|[Hki Hk']].
    + rewrite Nat.eqb_refl in Hkc. congruence.
    + destruct (Nat.eqb_spec k i); [contradiction|]. rewrite (Ho k e Hki Hk'). exact (t_cell _ _ _ _ T k e c Hk' Hkc).
  - intros k e Hk Hlk. rewrite put_length in Hlk. destruct (N k e Hk) as [[-> ->]|[Hki Hk']]; [lia|]. exact (t_rest _ _ _ _ T k e Hk' Hlk).
  - intros k j e1 e2 H1 H2 S1 S2 Heq. destruct (N k e1 H1) as [[-> ->]|[Hk H1']], (N j e2 H2) as [[-> ->]|[Hj H2']].
    + reflexivity.
    + exfalso. destruct (Hs S1) as [_ [_ Hd]]. exact (Hd j e2 Hj H2' S2 (eq_sym Heq)).
    + exfalso. destruct (Hs S2) as [_ [_ Hd]]. exact (Hd k e1 Hk H1' S1 Heq).
    + exact (t_inj _ _ _ _ T k j e1 e2 H1' H2' S1 S2 Heq).
  - intros k e Hk S1. destruct (N k e Hk) as [[-> ->]|[Hki Hk']]; [apply Hs; exact S1|exact (Hf k e Hki Hk' S1)].
  - intros k e Hk S1. destruct (N k e Hk) as [[-> ->]|[Hki Hk']]; [apply Hs; exact S1|]. pose proof (t_bound _ _ _ _ T k e Hk' S1). lia.
  - exact Hnd.
  - exact Hb.
Qed.

Lemma slot_new j : slot (Z.of_nat j + 2) = j /\ slot (- (Z.of_nat j + 2)) = j /\ has_slot (Z.of_nat j + 2) = true /\ has_slot (- (Z.of_nat j + 2)) = true.
Proof.
  unfold slot, has_slot. rewrite Z.abs_opp. rewrite !(Z.abs_eq (Z.of_nat j + 2)) by lia.
  repeat split; try lia; apply Z.ltb_lt; lia.
Qed.

Lemma slot_signed j (b : bool) : let e := (if b then Z.of_nat j + 2 else - (Z.of_nat j + 2))%Z in slot e = j /\ has_slot e = true /\ (0 <? e)%Z = b.
Proof.
  destruct (slot_new j) as [A [B [C D]]]. destruct b; cbv zeta; (split; [assumption|]); (split; [assumption|]).
  - apply Z.ltb_lt. lia.
  - apply Z.ltb_ge. lia.
Qed.

Section Steps.
Variables (ei : list Z) (ex : list text) (fr : list nat) (cells : list cell) (i : nat) (e : Z) (c : cell).
Hypothesis T : table_ok ei ex fr cells.
Hypothesis He : nth_error ei i = Some e.
Hypothesis Hc : nth_error cells i = Some c.

Let Hi : i < length cells := nth_error_lt _ _ _ Hc.
Let Hec : cell_of ex e = Some c := t_cell _ _ _ _ T i e c He Hc.

Lemma other_slot k e1 : k <> i -> nth_error ei k = Some e1 -> has_slot e = true -> has_slot e1 = true -> slot e1 <> slot e.
Proof. intros Hk H1 S S1 E. apply Hk. exact (t_inj _ _ _ _ T k i e1 e H1 He S1 S E). Qed.

Lemma step_free : has_slot e = true ->
  table_ok (put i (if 0 <? e then 1 else 0)%Z ei) (put (slot e) [] ex) (slot e :: fr) (put i (mkCell None (kept c)) cells).
Proof.
  intros S. apply (table_step ei ex fr cells i _ _ _ _ T Hi).
  - rewrite (cell_of_kept ex e c Hec). destruct (0 <? e)%Z; reflexivity.
  - destruct (0 <? e)%Z; discriminate.
  - intros k e1 Hk H1. apply cell_of_put. intros S1. exact (other_slot k e1 Hk H1 S S1).
  - rewrite put_length. lia.
  - intros k e1 Hk H1 S1 [E|Hin]; [exact (other_slot k e1 Hk H1 S S1 (eq_sym E))|exact (t_free _ _ _ _ T k e1 H1 S1 Hin)].
  - constructor; [exact (t_free _ _ _ _ T i e He S)|exact (t_nodup _ _ _ _ T)].
  - intros j [<-|Hj]; rewrite put_length; [exact (t_bound _ _ _ _ T i e He S)|exact (t_fbound _ _ _ _ T j Hj)].
Qed.

Lemma step_drop : has_slot e = false -> table_ok (put i 0%Z ei) ex fr (put i gone cells).
Proof.
  intros S. apply (table_step ei ex fr cells i _ _ _ _ T Hi).
  - reflexivity.
  - discriminate.
  - reflexivity.
  - lia.
  - intros k e1 Hk H1 S1. exact (t_free _ _ _ _ T k e1 H1 S1).
  - exact (t_nodup _ _ _ _ T).
  - exact (t_fbound _ _ _ _ T).
Qed.

Lemma step_extend s : has_slot e = true -> table_ok ei (put (slot e) s ex) fr (put i (mkCell (Some s) (kept c)) cells).
Proof.
  intros S. rewrite <- (put_same i ei e He) at 1. pose proof (t_bound _ _ _ _ T i e He S) as Hb.
  apply (table_step ei ex fr cells i _ _ _ _ T Hi).
  - unfold cell_of. rewrite S, put_nth', Nat.eqb_refl. apply Nat.ltb_lt in Hb. rewrite Hb. rewrite (cell_of_kept ex e c Hec). reflexivity.
  - intros _. rewrite put_length. split; [exact Hb|]. split; [exact (t_free _ _ _ _ T i e He S)|].
    intros k e1 Hk H1 S1. exact (other_slot k e1 Hk H1 S S1).
  - intros k e1 Hk H1. apply cell_of_put. intros S1. exact (other_slot k e1 Hk H1 S S1).
  - rewrite put_length. lia.
  - intros k e1 Hk H1 S1. exact (t_free _ _ _ _ T k e1 H1 S1).
  - exact (t_nodup _ _ _ _ T).
  - intros j Hj. rewrite put_length. exact (t_fbound _ _ _ _ T j Hj).
Qed.

Lemma step_push s : fr = [] ->
  let j := length ex in
  table_ok (put i (if 0 <? e then Z.of_nat j + 2 else - (Z.of_nat j + 2))%Z ei) (ex ++ [s]) [] (put i (mkCell (Some s) (kept c)) cells).
Proof.
  intros Hfr j. destruct (slot_signed j (0 <? e)%Z) as [A [B C]]. cbv zeta in A, B, C. set (e' := if (0 <? e)%Z then _ else _) in *.
  apply (table_step ei ex fr cells i _ _ _ _ T Hi).
  - unfold cell_of. rewrite B, A, C. unfold j. rewrite nth_error_app2 by lia. rewrite Nat.sub_diag. cbn [nth_error]. rewrite (cell_of_kept ex e c Hec). reflexivity.
  - intros _. rewrite A, app_length. cbn [length]. split; [unfold j; lia|]. split; [intros []|].
    intros k e1 Hk H1 S1 E. pose proof (t_bound _ _ _ _ T k e1 H1 S1). unfold j in E. lia.
  - intros k e1 Hk H1. apply cell_of_app. intros S1. exact (t_bound _ _ _ _ T k e1 H1 S1).
  - rewrite app_length. lia.
  - intros k e1 Hk H1 S1 [].
  - constructor.
  - intros k [].
Qed.

Lemma step_reuse s j fr' : has_slot e = false -> fr = j :: fr' ->
  j < length ex /\ table_ok (put i (if 0 <? e then Z.of_nat j + 2 else - (Z.of_nat j + 2))%Z ei) (put j s ex) fr' (put i (mkCell (Some s) (kept c)) cells).
Proof.
  intros S Hfr. destruct (slot_signed j (0 <? e)%Z) as [A [B C]]. cbv zeta in A, B, C. set (e' := if (0 <? e)%Z then _ else _) in *.
  assert (Hj : j < length ex) by (apply (t_fbound _ _ _ _ T); rewrite Hfr; left; reflexivity). split; [exact Hj|].
  pose proof (t_nodup _ _ _ _ T) as Hnd. rewrite Hfr in Hnd. apply NoDup_cons_iff in Hnd. destruct Hnd as [Hjn Hnd].
  assert (Hother : forall k e1, nth_error ei k = Some e1 -> has_slot e1 = true -> slot e1 <> j).
  { intros k e1 H1 S1 E. apply (t_free _ _ _ _ T k e1 H1 S1). rewrite Hfr, E. left. reflexivity. }
  apply (table_step ei ex fr cells i _ _ _ _ T Hi).
  - unfold cell_of. rewrite B, A, C, put_nth', Nat.eqb_refl. pose proof Hj as Hj'. apply Nat.ltb_lt in Hj'. rewrite Hj'. rewrite (cell_of_kept ex e c Hec). reflexivity.
  - intros _. rewrite A, put_length. split; [exact Hj|]. split; [exact Hjn|]. intros k e1 Hk H1 S1. exact (Hother k e1 H1 S1).
  - intros k e1 Hk H1. apply cell_of_put. intros S1. exact (Hother k e1 H1 S1).
  - rewrite put_length. lia.
  - intros k e1 Hk H1 S1 Hin. apply (t_free _ _ _ _ T k e1 H1 S1). rewrite Hfr. right. exact Hin.
  - exact Hnd.
  - intros k Hk. rewrite put_length. apply (t_fbound _ _ _ _ T). rewrite Hfr. right. exact Hk.
Qed.
End Steps.
