(** Random indices and shuffles. *)
From Coq Require Import Permutation.
From Verif Require Import Common RandomModel RandomSpec.
Open Scope Z_scope.

Lemma round53_error : forall N, 0 <= N -> 2 ^ 53 * Z.abs (round53 N - N) <= N.
Proof.
  intros N HN. unfold round53. destruct (Z.ltb_spec N (2 ^ 53)) as [H|H].
  - replace (N - N) with 0 by lia. cbn [Z.abs]. lia.
  - assert (Hl := Z.log2_spec N ltac:(lia)). set (l := Z.log2 N) in *.
    assert (53 <= l). { unfold l. rewrite <- (Z.log2_pow2 53) by lia. apply Z.log2_le_mono. exact H. }
    set (s := l - 52) in *.
    assert (Hs : 2 ^ l = 2 ^ s * 2 ^ 52) by (rewrite <- Z.pow_add_r by lia; f_equal; lia).
    assert (Hp : 0 < 2 ^ s) by (apply Z.pow_pos_nonneg; lia).
    assert (Hd := Z.div_mod N (2 ^ s) ltac:(lia)). assert (Hm := Z.mod_pos_bound N (2 ^ s) Hp).
    set (q := N / 2 ^ s) in *. set (r := N mod 2 ^ s) in *.
    assert (H2 : 2 * Z.abs ((if (if 2 * r =? 2 ^ s then Z.odd q else 2 ^ s <? 2 * r) then q + 1 else q) * 2 ^ s - N) <= 2 ^ s).
    { destruct (Z.eqb_spec (2 * r) (2 ^ s)).
      - destruct (Z.odd q); lia.
      - destruct (Z.ltb_spec (2 ^ s) (2 * r)); lia. }
    change (2 ^ 53) with (2 * 2 ^ 52). lia.
Qed.

Lemma random_index_range : forall j u, 0 <= j -> in_unit_interval u -> 0 <= random_index j u <= j.
Proof.
  intros j u Hj [[H1 H2] [H3 H4]]. unfold random_index. set (m := mant u) in *. set (e := expo u) in *.
  assert (HN : 0 <= (j + 1) * m) by (apply Z.mul_nonneg_nonneg; lia).
  assert (He := round53_error _ HN). set (R := round53 _) in *.
  assert (Hp : 0 < 2 ^ e) by (apply Z.pow_pos_nonneg; lia).
  assert (Hlo : 0 <= R) by lia.
  assert (Hhi : R < (j + 1) * 2 ^ e).
  { apply (Zmult_lt_reg_r _ _ (2 ^ 53)); [lia|].
    apply (Z.le_lt_trans _ ((j + 1) * (m * (2 ^ 53 + 1)))); [lia|].
    replace ((j + 1) * 2 ^ e * 2 ^ 53) with ((j + 1) * (2 ^ e * 2 ^ 53)) by lia.
    apply Z.mul_lt_mono_pos_l; [lia|]. nia. }
  split; [apply Z.div_pos; lia|]. apply Z.lt_succ_r. apply Z.div_lt_upper_bound; lia.
Qed.

(** Every index comes up. *)
Definition hit (j i : Z) : double01 := mkDouble ((2 * i + 1) * 2 ^ 53 / (2 * (j + 1))) 53.

Lemma hit_index : forall j i, 0 <= i <= j -> j < 2 ^ 31 -> in_unit_interval (hit j i) /\ random_index j (hit j i) = i.
Proof.
  intros j i Hi Hj. unfold hit.
  assert (Hd := Z.div_mod ((2 * i + 1) * 2 ^ 53) (2 * (j + 1)) ltac:(lia)).
  assert (Hm := Z.mod_pos_bound ((2 * i + 1) * 2 ^ 53) (2 * (j + 1)) ltac:(lia)).
  set (m := (2 * i + 1) * 2 ^ 53 / (2 * (j + 1))) in *. set (r := _ mod _) in *.
  change (2 ^ 31) with 2147483648 in *. change (2 ^ 53) with 9007199254740992 in *.
  assert (Hm0 : 0 <= m) by (apply Z.div_pos; lia).
  assert (Hm1 : m < 9007199254740992) by nia.
  split.
  - unfold in_unit_interval. cbn [mant expo]. change (2 ^ 53) with 9007199254740992. lia.
  - unfold random_index. cbn [mant expo].
    assert (HN : 0 <= (j + 1) * m) by (apply Z.mul_nonneg_nonneg; lia).
    assert (He := round53_error _ HN). set (R := round53 _) in *. change (2 ^ 53) with 9007199254740992 in *.
    set (N := (j + 1) * m) in *.
    assert (HN2 : 2 * N = (2 * i + 1) * 9007199254740992 - r) by (unfold N; lia).
    symmetry. apply (Z.div_unique_pos _ _ _ (R - 9007199254740992 * i)); [|lia].
    assert (Z.abs (R - N) <= 2147483648) by lia. lia.
Qed.

(** ** Swaps *)
Section Swap.
Context {A : Type}.
Implicit Types (arr : list A).

Lemma put_length : forall k x arr, length (put k x arr) = length arr.
Proof. induction k as [|k IH]; intros x [|a arr]; cbn [put length]; auto. Qed.

Lemma put_nth : forall k x arr i, (k < length arr)%nat ->
  nth_error (put k x arr) i = if Nat.eqb i k then Some x else nth_error arr i.
Proof.
  induction k as [|k IH]; intros x [|a arr] i H; cbn [length] in H; try lia; cbn [put].
  - destruct i; reflexivity.
  - destruct i as [|i]; [reflexivity|]. cbn [nth_error Nat.eqb]. apply IH. lia.
Qed.

Lemma put_same : forall k arr a, nth_error arr k = Some a -> put k a arr = arr.
Proof. induction k as [|k IH]; intros [|b arr] a H; cbn in *; try discriminate; [congruence|]. f_equal. auto. Qed.

Lemma put_app : forall (pre : list A) a post x, put (length pre) x (pre ++ a :: post) = pre ++ x :: post.
Proof. induction pre as [|b pre IH]; intros; cbn [length app put]; [reflexivity|]. now rewrite IH. Qed.

Lemma swap_perm : forall i j arr arr', swap i j arr = Some arr' -> Permutation arr' arr.
Proof.
  intros i j arr arr' H. unfold swap in H. destruct (i <? 0); [discriminate|]. set (k := Z.to_nat i) in *.
  destruct (nth_error arr k) as [a|] eqn:Ea; [|discriminate]. destruct (nth_error arr j) as [b|] eqn:Eb; [|discriminate].
  injection H as <-.
  assert (Hk : (k < length arr)%nat) by (apply nth_error_Some; congruence).
  assert (Hj : (j < length arr)%nat) by (apply nth_error_Some; congruence).
  (* count by splitting at k: replace k by b, then j by a *)
  destruct (Nat.eq_dec k j) as [->|Hne].
  - assert (a = b) by congruence. subst b. rewrite (put_same j arr a Ea), (put_same j arr a Ea). apply Permutation_refl.
  - apply nth_error_split in Ea. destruct Ea as [pre [post [-> Hl]]]. rewrite <- Hl in *. rewrite put_app.
    assert (Hb : nth_error (pre ++ b :: post) j = Some b).
    { rewrite <- put_app with (a := a). rewrite put_nth by (rewrite app_length; cbn; lia). destruct (Nat.eqb_spec j (length pre)); [congruence|exact Eb]. }
    destruct (Nat.lt_ge_cases j (length pre)) as [Hlt|Hge].
    + assert (Eb2 : nth_error pre j = Some b) by (rewrite nth_error_app1 in Eb by lia; exact Eb).
      apply nth_error_split in Eb2. destruct Eb2 as [p1 [p2 [-> Hl2]]]. rewrite <- Hl2.
      rewrite <- app_assoc. cbn [app]. rewrite put_app. rewrite <- app_assoc. cbn [app].
      apply Permutation_app_head.
      transitivity (a :: b :: p2 ++ post).
      { constructor. symmetry. apply Permutation_middle. }
      transitivity (b :: a :: p2 ++ post); [constructor|]. constructor. apply Permutation_middle.
    + assert (Eb2 : nth_error post (j - length pre - 1) = Some b).
      { rewrite nth_error_app2 in Eb by lia. destruct (j - length pre)%nat as [|d] eqn:Ed; [lia|]. cbn in Eb.
        replace (S d - 1)%nat with d by lia. exact Eb. }
      apply nth_error_split in Eb2. destruct Eb2 as [p1 [p2 [-> Hl2]]].
      replace j with (length (pre ++ b :: p1)) by (rewrite app_length; cbn; lia).
      replace (pre ++ b :: p1 ++ b :: p2) with ((pre ++ b :: p1) ++ b :: p2) by (rewrite <- app_assoc; reflexivity).
      rewrite put_app. rewrite <- app_assoc. cbn [app]. apply Permutation_app_head.
      transitivity (b :: a :: p1 ++ p2).
      { constructor. symmetry. apply Permutation_middle. }
      transitivity (a :: b :: p1 ++ p2); [constructor|]. constructor. apply Permutation_middle.
Qed.

Lemma swap_ok : forall i j arr, 0 <= i <= Z.of_nat j -> (j < length arr)%nat -> exists arr', swap i j arr = Some arr'.
Proof.
  intros i j arr Hi Hj. unfold swap. destruct (Z.ltb_spec i 0); [lia|].
  destruct (nth_error arr (Z.to_nat i)) as [a|] eqn:Ea; [|apply nth_error_None in Ea; lia].
  destruct (nth_error arr j) as [b|] eqn:Eb; [|apply nth_error_None in Eb; lia]. eauto.
Qed.

Lemma shuffle_from_perm : forall j rnd k arr, (forall k, in_unit_interval (rnd k)) -> (j <= length arr - 1)%nat ->
  exists out, shuffle_from j rnd k arr = Some out /\ Permutation out arr.
Proof.
  induction j as [|j IH]; intros rnd k arr Hr Hj; [exists arr; auto|]. cbn [shuffle_from].
  destruct (random_index_range (Z.of_nat (S j)) (rnd k) ltac:(lia) (Hr k)) as [H1 H2].
  set (i := random_index _ _) in *. destruct (Z.eqb_spec i (Z.of_nat (S j))) as [E|E].
  - apply IH; [exact Hr|lia].
  - destruct (swap_ok i (S j) arr ltac:(lia) ltac:(lia)) as [arr' E']. rewrite E'.
    assert (Hp := swap_perm _ _ _ _ E').
    destruct (IH rnd (S k) arr' Hr) as [out [Ho Hp']]; [rewrite (Permutation_length Hp); lia|].
    exists out. split; [exact Ho|]. now transitivity arr'.
Qed.

(** The loop from j leaves what lies above j alone. *)
Lemma swap_outcome : forall i j arr a b, 0 <= i -> nth_error arr (Z.to_nat i) = Some a -> nth_error arr j = Some b ->
  swap i j arr = Some (put j a (put (Z.to_nat i) b arr)).
Proof. intros i j arr a b Hi Ha Hb. unfold swap. destruct (Z.ltb_spec i 0); [lia|]. now rewrite Ha, Hb. Qed.

Lemma shuffle_from_ext : forall j (r1 r2 : nat -> double01) q arr, (forall t, (q <= t)%nat -> r1 t = r2 t) ->
  shuffle_from j r1 q arr = shuffle_from j r2 q arr.
Proof.
  induction j as [|j IHj]; intros r1 r2 q arr H; [reflexivity|]. cbn [shuffle_from]. rewrite (H q) by lia.
  destruct (if random_index (Z.of_nat (S j)) (r2 q) =? Z.of_nat (S j) then Some arr else _); [|reflexivity].
  apply IHj. intros t Ht. apply H. lia.
Qed.

Lemma shuffle_reach : forall n (low out_low high : list A) k,
  length low = n -> Permutation out_low low -> Z.of_nat n <= 2 ^ 31 ->
  exists rnd, (forall k, in_unit_interval (rnd k)) /\ shuffle_from (n - 1) rnd k (low ++ high) = Some (out_low ++ high).
Proof.
  induction n as [|n IH]; intros low out_low high k Hl Hp Hn.
  - destruct low; [|discriminate]. apply Permutation_sym, Permutation_nil in Hp. subst out_low.
    exists (fun _ => mkDouble 0 0). split; [|reflexivity]. intros. unfold in_unit_interval. cbn. lia.
  - destruct n as [|n].
    { destruct low as [|x [|y low]]; try discriminate.
      apply Permutation_sym, Permutation_length_1_inv in Hp. subst out_low.
      exists (fun _ => mkDouble 0 0). split; [|reflexivity]. intros. unfold in_unit_interval. cbn. lia. }
    (* the last element of the target *)
    assert (Hlo : length out_low = S (S n)) by (rewrite (Permutation_length Hp); exact Hl).
    destruct (@exists_last _ out_low) as [out' [x Ho]]; [destruct out_low; discriminate|]. subst out_low.
    assert (Hin : In x low) by (apply (Permutation_in _ Hp); apply in_or_app; right; left; reflexivity).
    apply In_nth_error in Hin. destruct Hin as [i Hi].
    assert (Hil : (i < S (S n))%nat) by (rewrite <- Hl; apply nth_error_Some; congruence).
    destruct (@exists_last _ low) as [l' [y El]]; [destruct low; discriminate|].
    assert (Hl' : length l' = S n) by (rewrite El, app_length in Hl; cbn in Hl; lia).
    (* array after the first swap *)
    assert (Hstep : exists low', length low' = S n /\ Permutation out' low' /\
       (if Z.of_nat i =? Z.of_nat (S n) then Some (low ++ high) else swap (Z.of_nat i) (S n) (low ++ high)) = Some (low' ++ x :: high)).
    { destruct (Z.eqb_spec (Z.of_nat i) (Z.of_nat (S n))) as [E|E].
      - assert (i = S n) by lia. subst i. exists l'. split; [exact Hl'|].
        assert (x = y). { rewrite El in Hi. rewrite nth_error_app2 in Hi by lia. rewrite Hl', Nat.sub_diag in Hi. cbn in Hi. congruence. }
        subst x. split.
        + rewrite El in Hp. apply (Permutation_app_inv_r [y]). exact Hp.
        + rewrite El at 1. rewrite <- app_assoc. reflexivity.
      - exists (put i y l'). split; [rewrite put_length; exact Hl'|].
        assert (Hi' : nth_error l' i = Some x) by (rewrite El, nth_error_app1 in Hi by lia; exact Hi).
        assert (Hsw : swap (Z.of_nat i) (S n) (low ++ high) = Some (put i y l' ++ x :: high)).
        { rewrite (swap_outcome (Z.of_nat i) (S n) (low ++ high) x y) by
            first [lia | rewrite Nat2Z.id, nth_error_app1 by lia; exact Hi
                  | rewrite nth_error_app1 by lia; rewrite El, nth_error_app2, Hl', Nat.sub_diag by lia; reflexivity].
          rewrite Nat2Z.id. f_equal. rewrite El, <- app_assoc. cbn [app].
          apply nth_error_split in Hi'. destruct Hi' as [p1 [p2 [E1 E2]]]. subst l'. rewrite <- E2.
          rewrite <- app_assoc. cbn [app]. rewrite put_app. rewrite put_app.
          replace (S n) with (length (p1 ++ y :: p2)) by (rewrite <- Hl', !app_length; reflexivity).
          replace (p1 ++ y :: p2 ++ y :: high) with ((p1 ++ y :: p2) ++ y :: high) by (rewrite <- app_assoc; reflexivity).
          apply put_app. }
        split; [|exact Hsw].
        apply nth_error_split in Hi'. destruct Hi' as [p1 [p2 [E1 E2]]]. subst l'. rewrite <- E2. rewrite put_app.
        rewrite El in Hp. rewrite <- app_assoc in Hp. cbn [app] in Hp.
        assert (Hp2 : Permutation (out' ++ [x]) ((p1 ++ y :: p2) ++ [x])).
        { rewrite Hp. rewrite <- app_assoc. cbn [app]. apply Permutation_app_head.
          transitivity (x :: y :: p2).
          - constructor. symmetry. apply Permutation_cons_append.
          - transitivity (y :: x :: p2); [constructor|]. constructor. apply Permutation_cons_append. }
        apply (Permutation_app_inv_r [x]). exact Hp2. }
    destruct Hstep as [low' [Hl2 [Hp2 Hs2]]].
    destruct (IH low' out' (x :: high) (S k) Hl2 Hp2 ltac:(lia)) as [rnd [Hr Hrun]].
    exists (fun q => if Nat.eqb q k then hit (Z.of_nat (S n)) (Z.of_nat i) else rnd q).
    destruct (hit_index (Z.of_nat (S n)) (Z.of_nat i) ltac:(lia) ltac:(lia)) as [Hh1 Hh2].
    split.
    + intros q. destruct (Nat.eqb q k); [exact Hh1|apply Hr].
    + replace (S (S n) - 1)%nat with (S n) by lia. cbn [shuffle_from]. rewrite Nat.eqb_refl, Hh2, Hs2.
      replace (out' ++ [x]) with (out' ++ [x]) by reflexivity. rewrite <- app_assoc. cbn [app]. rewrite <- Hrun.
      replace (S n - 1)%nat with n by lia.
      apply shuffle_from_ext. intros t Ht. destruct (Nat.eqb_spec t k); [lia|reflexivity].
Qed.
End Swap.
