(** Rounding to nearest on the integers and the error of a sum. *)
From Coq Require Import Znumtheory.
From Verif Require Import Common ExtendedModel ExtendedSpec.
Open Scope Z_scope.

Lemma pow_mono : forall a b, 0 <= a <= b -> 2 ^ a <= 2 ^ b.
Proof. intros. apply Z.pow_le_mono_r; lia. Qed.
Lemma pow_pos : forall a, 0 <= a -> 0 < 2 ^ a.
Proof. intros. apply Z.pow_pos_nonneg; lia. Qed.
Lemma pow_divide : forall a b, 0 <= a <= b -> (2 ^ a | 2 ^ b).
Proof. intros a b H. exists (2 ^ (b - a)). rewrite <- Z.pow_add_r by lia. f_equal. lia. Qed.
Lemma pow_split : forall a b, 0 <= a <= b -> 2 ^ b = 2 ^ (b - a) * 2 ^ a.
Proof. intros. rewrite <- Z.pow_add_r by lia. f_equal. lia. Qed.

Section Prec.
Variable p : Z.
Hypothesis Hp : 1 < p.

(** Exponent of the last bit. *)
Definition ex (n : Z) : Z := Z.max 0 (Z.log2 (Z.abs n) - (p - 1)).

Lemma ex_nonneg : forall n, 0 <= ex n.
Proof. intros. unfold ex. lia. Qed.

Lemma ex_opp : forall n, ex (- n) = ex n.
Proof. intros. unfold ex. now rewrite Z.abs_opp. Qed.

Lemma ex_upper : forall n, Z.abs n < 2 ^ (p + ex n).
Proof.
  intros n. destruct (Z.eq_dec n 0) as [->|H]; [apply pow_pos; unfold ex; lia|].
  assert (Hl := Z.log2_spec (Z.abs n) ltac:(lia)). unfold ex. assert (Hm := pow_mono (Z.succ (Z.log2 (Z.abs n))) (p + Z.max 0 (Z.log2 (Z.abs n) - (p - 1)))).
  assert (Hn := Z.log2_nonneg (Z.abs n)). lia.
Qed.

Lemma ex_lower : forall n, 0 < ex n -> 2 ^ (p - 1 + ex n) <= Z.abs n.
Proof.
  intros n H. unfold ex in *. rewrite Z.max_r in * by lia. assert (n <> 0) by (intros ->; cbn in H; lia).
  assert (Hl := Z.log2_spec (Z.abs n) ltac:(lia)). replace (p - 1 + (Z.log2 (Z.abs n) - (p - 1))) with (Z.log2 (Z.abs n)) by lia. lia.
Qed.

Lemma ex_mono : forall a b, Z.abs a <= Z.abs b -> ex a <= ex b.
Proof. intros a b H. unfold ex. assert (G := Z.log2_le_mono _ _ H). lia. Qed.

Lemma ex_double : forall a n, Z.abs n <= 2 * Z.abs a -> ex n <= ex a + 1.
Proof.
  intros a n H. destruct (Z.eq_dec a 0) as [->|Ha].
  - assert (n = 0) by lia. subst. unfold ex. cbn. lia.
  - unfold ex. assert (G := Z.log2_le_mono _ _ H). rewrite Z.log2_double in G by lia. lia.
Qed.

(** Numbers that fit. *)
Lemma fits_small : forall n e, 0 <= e -> (2 ^ e | n) -> Z.abs n <= 2 ^ (p + e) -> fits p n.
Proof.
  intros n e He [m ->] H. rewrite Z.pow_add_r in H by lia. assert (P := pow_pos e He). rewrite Z.abs_mul, (Z.abs_eq (2 ^ e)) in H by lia.
  apply Z.mul_le_mono_pos_r in H; [|exact P].
  destruct (Z.eq_dec (Z.abs m) (2 ^ p)) as [E|E].
  - exists (Z.sgn m * 2 ^ (p - 1)), (e + 1). split; [lia|].
    assert (E2 : 2 ^ p = 2 ^ (p - 1) * 2) by (rewrite (pow_split 1 p) by lia; reflexivity). assert (P1 := pow_pos (p - 1) ltac:(lia)).
    assert (Hs : m = Z.sgn m * 2 ^ p) by (rewrite <- E; symmetry; rewrite Z.mul_comm; apply Z.abs_sgn).
    split.
    + rewrite Z.abs_mul. assert (Z.abs (Z.sgn m) <= 1) by lia. rewrite (Z.abs_eq (2 ^ (p - 1))) by lia. nia.
    + rewrite Hs at 1. rewrite E2, Z.pow_add_r by lia. change (2 ^ 1) with 2. ring.
  - exists m, e. split; [exact He|]. split; [lia|reflexivity].
Qed.

Lemma fits_ex : forall n, fits p n -> (2 ^ ex n | n).
Proof.
  intros n (m & e & He & Hm & ->). destruct (Z.eq_dec (ex (m * 2 ^ e)) 0) as [E|E]; [rewrite E; exists (m * 2 ^ e); cbn; lia|].
  assert (He0 := ex_nonneg (m * 2 ^ e)). assert (Hl := ex_lower (m * 2 ^ e) ltac:(lia)). set (k := ex (m * 2 ^ e)) in *.
  assert (k <= e).
  { destruct (Z_lt_le_dec e k) as [H|H]; [|exact H]. exfalso.
    rewrite Z.abs_mul, (Z.abs_eq (2 ^ e)) in Hl by (assert (G := pow_pos e He); lia).
    assert (G := pow_mono (p + e) (p - 1 + k) ltac:(lia)). rewrite Z.pow_add_r in G by lia. assert (P := pow_pos e He). nia. }
  apply Z.divide_mul_r. apply pow_divide. lia.
Qed.

Lemma ex_fits : forall n, (2 ^ ex n | n) -> fits p n.
Proof. intros n H. apply (fits_small n (ex n)); [apply ex_nonneg|exact H|]. assert (G := ex_upper n). lia. Qed.

Lemma fits_opp : forall n, fits p n -> fits p (- n).
Proof. intros n (m & e & He & Hm & ->). exists (- m), e. split; [exact He|]. split; [lia|ring]. Qed.

Lemma fits_0 : fits p 0.
Proof. exists 0, 0. split; [lia|]. split; [apply pow_pos; lia|reflexivity]. Qed.

(** ** Rounding *)
Lemma round_abs_facts : forall N, 0 <= N ->
  (2 ^ ex N | round_abs p N) /\ 2 * Z.abs (round_abs p N - N) <= (if N <? 2 ^ p then 0 else 2 ^ ex N) /\
  ((2 ^ ex N | N) -> round_abs p N = N) /\
  (forall M, (2 ^ ex N | M) -> Z.abs (round_abs p N - N) <= Z.abs (M - N)) /\
  0 <= round_abs p N.
Proof.
  intros N HN. unfold round_abs. destruct (Z.ltb_spec N (2 ^ p)) as [H|H].
  - assert (E : ex N = 0).
    { unfold ex. destruct (Z.eq_dec N 0) as [->|Hz]; [cbn; lia|]. rewrite Z.abs_eq by lia.
      assert (G : Z.log2 N < p) by (apply Z.log2_lt_pow2; lia). lia. }
    rewrite E, Z.sub_diag. split; [exists N; cbn; lia|]. split; [cbn; lia|]. split; [reflexivity|]. split; [intros; cbn [Z.abs]; lia|exact HN].
  - assert (HN0 : 0 < N) by (assert (P := pow_pos p ltac:(lia)); lia).
    assert (E : ex N = Z.log2 N - (p - 1)).
    { unfold ex. rewrite Z.abs_eq by lia. assert (G : p <= Z.log2 N) by (apply Z.log2_le_pow2; lia). lia. }
    rewrite <- E. assert (Hs := ex_nonneg N). set (s := ex N) in *. assert (P := pow_pos s Hs).
    assert (Hdm := Z.div_mod N (2 ^ s) ltac:(lia)). assert (Hr := Z.mod_pos_bound N (2 ^ s) P). assert (Hq := Z.div_pos N (2 ^ s) HN P).
    set (q := N / 2 ^ s) in *. set (r := N mod 2 ^ s) in *. set (T := 2 ^ s) in *. clearbody T q r.
    set (up := if 2 * r =? T then Z.odd q else T <? 2 * r).
    assert (Hup : (up = true -> T <= 2 * r) /\ (up = false -> 2 * r <= T)).
    { unfold up. destruct (Z.eqb_spec (2 * r) T); [split; intros; lia|]. destruct (Z.ltb_spec T (2 * r)); split; intros; (discriminate || lia). }
    split; [exists (if up then q + 1 else q); reflexivity|].
    split; [destruct up; [specialize (proj1 Hup eq_refl)|specialize (proj2 Hup eq_refl)]; intros; lia|].
    split.
    + intros [k Hk]. assert (r = 0).
      { assert (T * (k - q) = r) by lia. assert (k - q = 0) by nia. nia. }
      subst r. destruct up; [specialize (proj1 Hup eq_refl); intros; lia|lia].
    + split; [|destruct up; nia]. intros M [k ->]. destruct up; [specialize (proj1 Hup eq_refl)|specialize (proj2 Hup eq_refl)]; intros;
        (destruct (Z_le_gt_dec k q) as [Hk|Hk]; [assert (k * T <= q * T) by nia; lia|assert ((q + 1) * T <= k * T) by nia; lia]).
Qed.

Notation rnd := (round_to p).

Lemma rnd_opp : forall n, rnd (- n) = - rnd n.
Proof.
  intros n. unfold round_to. destruct (Z.ltb_spec n 0), (Z.ltb_spec (- n) 0); try lia.
  - now rewrite Z.opp_involutive.
  - assert (n = 0) by lia. subst. unfold round_abs. cbn [Z.opp]. assert (P := pow_pos p ltac:(lia)). destruct (Z.ltb_spec 0 (2 ^ p)); [reflexivity|lia].
Qed.

Lemma rnd_wlog : forall (P : Z -> Prop), (forall n, P n -> P (- n)) -> (forall n, 0 <= n -> P n) -> forall n, P n.
Proof. intros P H1 H2 n. destruct (Z_le_gt_dec 0 n) as [H|H]; [now apply H2|]. rewrite <- (Z.opp_involutive n). apply H1, H2. lia. Qed.

Lemma rnd_facts : forall n, (2 ^ ex n | rnd n) /\ 2 * Z.abs (rnd n - n) <= 2 ^ ex n /\ ((2 ^ ex n | n) -> rnd n = n) /\
  2 ^ p * Z.abs (rnd n - n) <= Z.abs n /\ (forall M, (2 ^ ex n | M) -> Z.abs (rnd n - n) <= Z.abs (M - n)).
Proof.
  apply (rnd_wlog (fun n => (2 ^ ex n | rnd n) /\ 2 * Z.abs (rnd n - n) <= 2 ^ ex n /\ ((2 ^ ex n | n) -> rnd n = n) /\
    2 ^ p * Z.abs (rnd n - n) <= Z.abs n /\ (forall M, (2 ^ ex n | M) -> Z.abs (rnd n - n) <= Z.abs (M - n)))).
  - intros n (H1 & H2 & H3 & H4 & H5). rewrite ex_opp, rnd_opp. replace (- rnd n - - n) with (- (rnd n - n)) by lia. rewrite !Z.abs_opp.
    split; [now apply Z.divide_opp_r|]. split; [exact H2|]. split; [intros H; rewrite H3; [reflexivity|exact (proj1 (Z.divide_opp_r _ _) H)]|].
    split; [exact H4|]. intros M HM. replace (M - - n) with (- (- M - n)) by lia. rewrite Z.abs_opp. apply H5. now apply Z.divide_opp_r.
  - intros n Hn. destruct (round_abs_facts n Hn) as (H1 & H2 & H3 & H4 & H5). unfold round_to. destruct (Z.ltb_spec n 0); [lia|].
    assert (P := pow_pos (ex n) (ex_nonneg n)). split; [exact H1|]. split; [destruct (n <? 2 ^ p); lia|]. split; [exact H3|]. split; [|exact H4].
    destruct (Z.ltb_spec n (2 ^ p)) as [G|G]; [nia|].
    assert (E : 0 < ex n).
    { unfold ex. rewrite Z.abs_eq by lia. assert (p <= Z.log2 n) by (apply Z.log2_le_pow2; [assert (G' := pow_pos p ltac:(lia)); lia|exact G]). lia. }
    assert (L := ex_lower n E). rewrite Z.pow_add_r in L by lia. rewrite (pow_split 1 p) by lia. change (2 ^ 1) with 2.
    assert (P1 := pow_pos (p - 1) ltac:(lia)). nia.
Qed.

Lemma rnd_fits : forall n, fits p (rnd n).
Proof.
  intros n. destruct (rnd_facts n) as (H1 & H2 & H3 & H4 & H5). apply (fits_small _ (ex n)); [apply ex_nonneg|exact H1|].
  assert (G := ex_upper n). assert (Hd : (2 ^ ex n | 2 ^ (p + ex n))) by (apply pow_divide; assert (E := ex_nonneg n); lia).
  assert (G1 := H5 _ Hd). assert (Hd' : (2 ^ ex n | - 2 ^ (p + ex n))) by now apply Z.divide_opp_r. assert (G2 := H5 _ Hd'). lia.
Qed.

(** Nearest among the numbers that fit. *)
Lemma rnd_nearest : forall n g, fits p g -> Z.abs (rnd n - n) <= Z.abs (g - n).
Proof.
  intros n g Hg. destruct (rnd_facts n) as (H1 & H2 & H3 & H4 & H5). destruct (Z_le_gt_dec (ex n) (ex g)) as [H|H].
  - apply H5. apply Z.divide_trans with (2 ^ ex g); [apply pow_divide; assert (E := ex_nonneg n); lia|now apply fits_ex].
  - assert (E := ex_nonneg g). assert (L := ex_lower n ltac:(lia)). assert (U := ex_upper g).
    assert (M := pow_mono (p + ex g) (p - 1 + ex n) ltac:(lia)).
    assert (Hd : (2 ^ ex n | 2 ^ (p - 1 + ex n))) by (apply pow_divide; lia).
    assert (Hd' : (2 ^ ex n | - 2 ^ (p - 1 + ex n))) by now apply Z.divide_opp_r.
    assert (G1 := H5 _ Hd). assert (G2 := H5 _ Hd'). lia.
Qed.

Lemma rnd_id : forall n, fits p n -> rnd n = n.
Proof. intros n H. apply rnd_facts. now apply fits_ex. Qed.

Lemma rnd_divide : forall n e, 0 <= e -> (2 ^ e | n) -> (2 ^ e | rnd n).
Proof.
  intros n e He H. destruct (rnd_facts n) as (H1 & _ & H3 & _). destruct (Z_le_gt_dec e (ex n)) as [G|G].
  - apply Z.divide_trans with (2 ^ ex n); [apply pow_divide; lia|exact H1].
  - rewrite H3; [exact H|]. apply Z.divide_trans with (2 ^ e); [apply pow_divide; assert (E := ex_nonneg n); lia|exact H].
Qed.

Lemma rnd_error : forall n, 2 ^ p * Z.abs (rnd n - n) <= Z.abs n.
Proof. intros n. apply rnd_facts. Qed.

(** ** The sum of two numbers and its error *)
Lemma fast_two_sum : forall a b, fits p a -> fits p b -> Z.abs b <= Z.abs a ->
  fits p (a - rnd (a + b)) /\ fits p (a - rnd (a + b) + b).
Proof.
  intros a b Ha Hb Hab. set (n := a + b). set (s := rnd n).
  assert (Ea := ex_nonneg a). assert (Eb := ex_nonneg b). assert (En := ex_nonneg n). assert (Hba := ex_mono b a Hab).
  assert (Da := fits_ex a Ha). assert (Db := fits_ex b Hb). assert (Ua := ex_upper a). assert (Ub := ex_upper b).
  assert (Dab : (2 ^ ex b | a)) by (apply Z.divide_trans with (2 ^ ex a); [apply pow_divide; lia|exact Da]).
  assert (Dn : (2 ^ ex b | n)) by now apply Z.divide_add_r.
  assert (Ds := rnd_divide n (ex b) Eb Dn). fold s in Ds.
  assert (Herr : Z.abs (s - n) <= Z.abs b) by (assert (G := rnd_nearest n a Ha); fold s in G; unfold n in *; lia).
  destruct (rnd_facts n) as (Dsn & Hh & Hex & _). fold s in Dsn, Hh, Hex. split.
  - destruct (Z_le_gt_dec (ex n) (ex b)) as [H|H].
    + rewrite Hex; [unfold n; replace (a - (a + b)) with (- b) by lia; now apply fits_opp|].
      apply Z.divide_trans with (2 ^ ex b); [apply pow_divide; lia|exact Dn].
    + assert (Hp1 := pow_mono (p + ex b) (p - 1 + ex n) ltac:(lia)).
      destruct (Z_le_gt_dec (ex n) (ex a)) as [G|G].
      * apply (fits_small _ (ex n)); [lia| |].
        -- apply Z.divide_sub_r; [|exact Dsn]. apply Z.divide_trans with (2 ^ ex a); [apply pow_divide; lia|exact Da].
        -- assert (E1 : 2 ^ (p + ex n) = 2 * 2 ^ (p - 1 + ex n)) by (replace (p + ex n) with (Z.succ (p - 1 + ex n)) by lia; apply Z.pow_succ_r; lia).
           assert (E2 := pow_mono (ex n) (p - 1 + ex n) ltac:(lia)). unfold n in *. lia.
      * assert (E : ex n = ex a + 1) by (assert (G' := ex_double a n); unfold n in *; lia).
        apply (fits_small _ (ex a)); [lia| |].
        -- apply Z.divide_sub_r; [exact Da|]. apply Z.divide_trans with (2 ^ ex n); [apply pow_divide; lia|exact Dsn].
        -- rewrite E, Z.pow_add_r in Hh by lia. change (2 ^ 1) with 2 in Hh.
           assert (Hmax : Z.abs a <= 2 ^ (p + ex a) - 2 ^ ex a).
           { destruct Da as [k Hk]. assert (P := pow_pos (ex a) Ea). revert Ua Hk. rewrite Z.pow_add_r by lia. set (T := 2 ^ ex a) in *. clearbody T. intros Ua Hk.
             assert (Ek : Z.abs a = Z.abs k * T) by (rewrite Hk, Z.abs_mul, (Z.abs_eq T) by lia; reflexivity). rewrite Ek in *.
             apply Z.mul_lt_mono_pos_r in Ua; [|exact P]. nia. }
           unfold n in *. lia.
  - replace (a - s + b) with (n - s) by (unfold n; lia). apply (fits_small _ (ex b)); [exact Eb|now apply Z.divide_sub_r|]. lia.
Qed.
End Prec.
