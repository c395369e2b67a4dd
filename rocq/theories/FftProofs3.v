(** Gather, transform and scatter on a row. *)
From Verif Require Import Common LayoutModel LayoutSpec LayoutProofs1 LayoutProofs2 LayoutProofs4 FftModel FftSpec FftProofs1 FftProofs2.
Open Scope Z_scope.

Lemma div_add_l : forall a s z, 0 < s -> (a * s + z) / s = a + z / s.
Proof. intros a s z H. rewrite Z.add_comm, Z.div_add by lia. lia. Qed.
Lemma mod_add_l : forall a s z, 0 < s -> (a * s + z) mod s = z mod s.
Proof. intros a s z H. rewrite Z.add_comm, Z.mod_add by lia. reflexivity. Qed.

Ltac nn := repeat apply Z.mul_nonneg_nonneg; lia.

Section Row.
Context {V : Type}.
Variable lat : lattice.
Hypothesis Hv : valid_lattice lat.
Hypothesis Hne : no_empty_rank lat.
Variable dir : nat.
Hypothesis Hdir : (dir < length (l_size lat))%nat.
Variable E : Z.
Hypothesis HE : 0 < E.

Notation nd := (nth dir (n_divisions lat) 0).
Notation Ld := (nth dir (l_size lat) 0).
Notation D i := (cdiv Ld nd i).
Notation S_ i := (D (i + 1) - D i).
Notation k_ r := (kidx lat dir r).
Notation q_ r i := (qrank lat dir r i).
Notation s_ r := (nth dir (n_siz (nodeinfo lat r)) 0).
Notation W r := (mycols lat dir r).
Notation R r i := (W r * E * rpos lat dir r i).
Notation pen r := (pencil_of lat dir r).
Notation row r := (map (pencil_of lat dir r) (zrange 0 (Z.to_nat nd))).

Let Hnd := nd_range lat Hv Hne dir Hdir.

Lemma S_pos : forall i, 0 < S_ i.
Proof. intros i. assert (G := D_lt lat Hv Hne dir Hdir i). cbn beta in G. lia. Qed.

Lemma k_range : forall r, is_rank lat r -> 0 <= k_ r < nd.
Proof. intros r Hr. apply (rank_component lat Hv Hne r dir Hr Hdir). Qed.
Lemma s_eq : forall r, is_rank lat r -> s_ r = S_ (k_ r).
Proof. intros r Hr. apply (own_size lat Hv Hne dir Hdir r Hr). Qed.
Lemma s_pos : forall r, is_rank lat r -> 0 < s_ r.
Proof. intros r Hr. rewrite s_eq by exact Hr. apply S_pos. Qed.
Lemma D_0 : D 0 = 0.
Proof. apply cdiv_0. Qed.
Lemma D_n : D nd = Ld.
Proof. apply cdiv_n. lia. Qed.
Lemma D_mono : forall i j, i <= j -> D i <= D j.
Proof. intros i j H. apply cdiv_le; lia. Qed.

(** Column [C] (site column and element) of the row of [r], as a function of the coordinate. *)
Definition hrow (g : list Z -> Z -> V) (r C y : Z) : V :=
  g (col dir (n_min (nodeinfo lat r)) (n_siz (nodeinfo lat r)) (C / E) y) (C mod E).

Lemma hrow_row : forall g r i C y, is_rank lat r -> 0 <= i < nd -> hrow g (q_ r i) C y = hrow g r C y.
Proof.
  intros g r i C y Hr Hi. unfold hrow. destruct (row_rank lat Hv Hne dir Hdir r i Hr Hi) as (_ & -> & ->).
  rewrite col_row; [reflexivity|]. destruct (rank_lengths lat Hv r). lia.
Qed.

(** The send buffer of [r] with the field [g] in the order of [dir]. *)
Definition sb_holds (r : Z) (h : Z -> Z -> V) (sb : buffer V) : Prop :=
  forall a, 0 <= a < cols lat dir r * E * s_ r -> b_at sb a = Some (h (a / s_ r) (D (k_ r) + a mod s_ r)).

Definition sized (bs : Z -> Z) (r : Z) (bufs : buffer V * buffer V) : Prop :=
  b_size (fst bufs) = bs r /\ b_size (snd bufs) = bs r.

Definition big_enough (bs : Z -> Z) : Prop := forall r, is_rank lat r ->
  cols lat dir r * E * s_ r <= bs r /\ W r * E * rpos lat dir r nd <= bs r.

(** Value [t] of the piece of entry [i] of column [c]. *)
Definition cell (r : Z) (bufs : buffer V * buffer V) (i c t : Z) : option V :=
  let '(local, off, size) := ptr lat dir E r i in b_at (if local : bool then fst bufs else snd bufs) (off + c * size + t).

Definition located (r : Z) (h : Z -> Z -> V) (bufs : buffer V * buffer V) : Prop :=
  forall i c t, 0 <= i < nd -> 0 <= c < W r * E -> 0 <= t < S_ i ->
    cell r bufs i c t = Some (h (cb lat dir r (k_ r) * E + c) (D i + t)).

(** ** The sections of the receive buffer *)
Lemma WE_nonneg : forall r, is_rank lat r -> 0 <= W r * E.
Proof. intros r Hr. assert (G := mycols_nonneg lat Hv Hne dir Hdir r Hr). nia. Qed.

Lemma R_next : forall r i j, is_rank lat r -> i <> k_ r -> i < j -> R r i + W r * E * S_ i <= R r j.
Proof.
  intros r i j Hr Hi Hj. assert (G := WE_nonneg r Hr). assert (H1 := rpos_next lat Hv Hne dir Hdir r i Hr).
  assert (H2 := rpos_le lat Hv Hne dir Hdir r (i + 1) j Hr ltac:(lia)).
  destruct (Z.eqb_spec i (k_ r)); [lia|]. cbn beta in H1. nia.
Qed.

Lemma R_range : forall bs r i, big_enough bs -> is_rank lat r -> 0 <= i < nd -> i <> k_ r ->
  0 <= R r i /\ R r i + W r * E * S_ i <= bs r.
Proof.
  intros bs r i Hb Hr Hi Hk. assert (G := WE_nonneg r Hr). destruct (Hb r Hr) as [_ H].
  assert (H1 := R_next r i nd Hr Hk ltac:(lia)). split; [|lia].
  assert (H2 := rpos_le lat Hv Hne dir Hdir r 0 i Hr ltac:(lia)). rewrite (rpos_0 lat Hv Hne dir Hdir r Hr) in H2. nia.
Qed.

Lemma cb_range : forall bs r i, big_enough bs -> is_rank lat r -> 0 <= i < nd ->
  0 <= cb lat dir r i /\ cb lat dir r i <= cb lat dir r (i + 1) <= cols lat dir r /\
  cb lat dir r (i + 1) * E * s_ r <= bs r.
Proof.
  intros bs r i Hb Hr Hi. destruct (Hb r Hr) as [H _]. assert (G := s_pos r Hr).
  assert (H1 := cb_le lat Hv Hne dir Hdir r 0 i Hr ltac:(lia)). rewrite (cb_0 lat Hv Hne dir Hdir) in H1.
  assert (H2 := cb_le lat Hv Hne dir Hdir r i (i + 1) Hr ltac:(lia)).
  assert (H3 := cb_le lat Hv Hne dir Hdir r (i + 1) nd Hr ltac:(lia)). rewrite (cb_n lat Hv Hne dir Hdir) in H3.
  split; [lia|]. split; [lia|]. assert (cb lat dir r (i + 1) * (E * s_ r) <= cols lat dir r * (E * s_ r)) by (apply Z.mul_le_mono_nonneg_r; nia). lia.
Qed.

(** ** Gather *)
Lemma entry_of_row : forall r i, is_rank lat r -> 0 <= i < nd ->
  entry_of r (row (q_ r i)) = Some (pen (q_ r i) (k_ r)).
Proof.
  intros r i Hr Hi. unfold entry_of. assert (Hk := k_range r Hr). apply find_map_zrange; [lia|].
  intros j Hj. cbn [pencil_of p_node]. rewrite (row_same lat Hv Hne dir Hdir r i j Hr Hi).
  assert (G := row_is lat Hv Hne dir Hdir r j Hr ltac:(lia)). destruct (Z.eqb_spec (q_ r j) r), (Z.eqb_spec j (k_ r)); tauto || (exfalso; tauto).
Qed.

Lemma gather_ok : forall bs st g, big_enough bs ->
  (forall r, is_rank lat r -> exists bufs, st r = Some bufs /\ sized bs r bufs /\ sb_holds r (hrow g r) (fst bufs)) ->
  forall r, is_rank lat r -> exists bufs, gather_data lat dir E st r = Some bufs /\ sized bs r bufs /\ located r (hrow g r) bufs.
Proof.
  intros bs st g Hb Hst r Hr. unfold gather_data. destruct (Hst r Hr) as ([sb rb] & Est & [Hsb Hrb] & Hh). cbn [fst snd] in *.
  rewrite Est, (pencil_row_spec lat Hv Hne dir Hdir r Hr), (my_columns_spec lat Hv Hne dir Hdir r Hr), (rec_ptrs_spec lat Hv Hne dir Hdir E r Hr).
  rewrite combine_map. set (qq := fun x => (pen r x, ptr lat dir E r x)).
  assert (Hk := k_range r Hr). assert (HW := WE_nonneg r Hr).
  match goal with |- context [option_fold ?f _ rb] => set (step := f) end.
  set (P := fun (done : list (pencil * (bool * Z * Z))) (b : buffer V) =>
    b_size b = bs r /\ forall i z, 0 <= i < nd -> In (qq i) done -> i <> k_ r -> 0 <= z < W r * E * S_ i ->
       b_at b (R r i + z) = Some (hrow g r (cb lat dir r (k_ r) * E + z / S_ i) (D i + z mod S_ i))).
  destruct (option_fold_inv _ _ step P (map qq (zrange 0 (Z.to_nat nd))) rb) as (rb' & Erb' & Hs' & Hc').
  - split; [exact Hrb|]. intros i z _ [].
  - intros l1 b l2 a Hl [Ha1 Ha2].
    assert (Hb2 : In b (map qq (zrange 0 (Z.to_nat nd)))) by (rewrite Hl; apply in_elt).
    apply in_map_iff in Hb2. destruct Hb2 as (i & <- & Hi). apply zrange_In in Hi.
    assert (Hqi : forall j, 0 <= j < nd -> In (qq j) (l1 ++ [qq i]) -> j <> i -> In (qq j) l1).
    { intros j Hj Hin Hji. apply in_app_iff in Hin. destruct Hin as [Hin|[Hin|[]]]; [exact Hin|].
      exfalso. apply Hji. unfold qq in Hin. injection Hin as Hin _. symmetry. apply (row_inj lat Hv Hne dir Hdir r i j Hr); [lia|lia|exact Hin]. }
    assert (Hri := row_is lat Hv Hne dir Hdir r i Hr ltac:(lia)).
    unfold step. cbn beta. unfold qq. cbn [pencil_of p_node p_size]. unfold ptr.
    destruct (Z.eqb_spec i (k_ r)) as [Ek|Ek]; cbn beta iota.
    + rewrite (proj2 (Z.eqb_eq _ _)) by tauto. exists a. split; [reflexivity|]. split; [exact Ha1|].
      intros j z Hj Hin Hjk Hz. apply Ha2; [exact Hj| |exact Hjk|exact Hz]. apply Hqi; [exact Hj| |congruence].
      unfold qq at 2. unfold ptr. rewrite (proj2 (Z.eqb_eq _ _) Ek). exact Hin.
    + rewrite (proj2 (Z.eqb_neq _ _)) by tauto.
      destruct (row_rank lat Hv Hne dir Hdir r i Hr ltac:(lia)) as (Hq & _ & _).
      destruct (Hst (q_ r i) Hq) as ([sb' rb'] & Est' & [Hsb' _] & Hh'). cbn [fst snd] in *. rewrite Est'.
      rewrite (pencil_row_spec lat Hv Hne dir Hdir _ Hq), entry_of_row by (assumption || lia).
      cbn [pencil_of p_offset p_number].
      rewrite !(row_cb lat Hv Hne dir Hdir r i) by (assumption || lia). rewrite !(row_size lat Hv Hne dir Hdir r i) by (assumption || lia).
      fold (W r). assert (HS := S_pos i).
      destruct (cb_range bs (q_ r i) (k_ r) Hb Hq Hk) as (C1 & C2 & C3).
      rewrite !(row_cb lat Hv Hne dir Hdir r i) in C1 by (assumption || lia). rewrite !(row_cb lat Hv Hne dir Hdir r i _ Hr) in C2 by lia. rewrite !(row_cb lat Hv Hne dir Hdir r i) in C3 by (assumption || lia).
      rewrite !(row_size lat Hv Hne dir Hdir r i) in C3 by (assumption || lia). rewrite (row_cols lat Hv Hne dir Hdir r i) in C2 by (assumption || lia).
      rewrite (read_spec sb' _ _ (fun z => hrow g r (cb lat dir r (k_ r) * E + z / S_ i) (D i + z mod S_ i))).
      * rewrite map_length, zrange_length. rewrite Z2Nat.id by nia.
        rewrite (proj2 (Z.leb_le _ _)) by lia.
        destruct (R_range bs r i Hb Hr ltac:(lia) Ek) as [R1 R2].
        match goal with |- exists a', write a ?off ?l = Some a' /\ _ => destruct (write_spec a off l) as (a' & Ea' & Sa' & Wa1 & Wa2) end.
        -- exact R1.
        -- rewrite map_length, zrange_length, Z2Nat.id by nia. rewrite Ha1. lia.
        -- exists a'. split; [exact Ea'|]. rewrite map_length, zrange_length, Z2Nat.id in Wa1, Wa2 by nia.
           split; [congruence|]. intros j z Hj Hin Hjk Hz. destruct (Z.eq_dec j i) as [->|Hji].
           ++ rewrite Wa1 by lia. rewrite nth_error_map_zrange by lia. reflexivity.
           ++ rewrite Wa2.
              ** apply Ha2; [exact Hj| |exact Hjk|exact Hz]. apply Hqi; [exact Hj| |exact Hji].
                 unfold qq at 2. unfold ptr. rewrite (proj2 (Z.eqb_neq _ _) Ek). exact Hin.
              ** destruct (Z_lt_le_dec j i) as [Hlt|Hge].
                 --- assert (G := R_next r j i Hr Hjk Hlt). lia.
                 --- assert (G := R_next r i j Hr Ek ltac:(lia)). lia.
      * nn.
      * apply Z.mul_nonneg_nonneg; [exact HW|lia].
      * rewrite Hsb'. unfold mycols. lia.
      * intros z Hz. rewrite Hh'.
        -- rewrite !(row_size lat Hv Hne dir Hdir r i) by (assumption || lia). rewrite (hrow_row g r i) by (assumption || lia).
           rewrite (row_kidx lat Hv Hne dir Hdir r i) by (assumption || lia).
           replace (cb lat dir r (k_ r) * S_ i * E + z) with (cb lat dir r (k_ r) * E * S_ i + z) by ring.
           now rewrite div_add_l, mod_add_l.
        -- rewrite (row_cols lat Hv Hne dir Hdir r i) by (assumption || lia). rewrite !(row_size lat Hv Hne dir Hdir r i) by (assumption || lia).
           assert (cb lat dir r (k_ r + 1) * (E * S_ i) <= cols lat dir r * (E * S_ i)) by (apply Z.mul_le_mono_nonneg_r; nia).
           split; [apply Z.add_nonneg_nonneg; [nn|lia]|]. unfold mycols in Hz. lia.
  - rewrite Erb'. exists (sb, rb'). split; [reflexivity|]. split; [split; assumption|].
    intros i c t Hi Hc Ht. unfold cell, ptr. assert (HS := S_pos i). destruct (Z.eqb_spec i (k_ r)) as [Ek|Ek]; cbn beta iota.
    + subst i. cbn [fst]. rewrite <- (s_eq r Hr) in *. rewrite Hh.
      * replace (cb lat dir r (k_ r) * s_ r * E + c * s_ r + t) with ((cb lat dir r (k_ r) * E + c) * s_ r + t) by ring.
        rewrite div_add_l, mod_add_l, Z.div_small, Z.mod_small by lia. do 2 f_equal. lia.
      * destruct (cb_range bs r (k_ r) Hb Hr Hk) as (C1 & C2 & _). unfold mycols in Hc.
        assert ((c + 1) * s_ r <= (cb lat dir r (k_ r + 1) - cb lat dir r (k_ r)) * E * s_ r) by (apply Z.mul_le_mono_nonneg_r; lia).
        assert (cb lat dir r (k_ r + 1) * (E * s_ r) <= cols lat dir r * (E * s_ r)) by (apply Z.mul_le_mono_nonneg_r; nia).
        split; [nia|lia].
    + cbn [snd]. replace (R r i + c * S_ i + t) with (R r i + (c * S_ i + t)) by ring. rewrite Hc'.
      * rewrite div_add_l, mod_add_l, Z.div_small, Z.mod_small by lia. do 2 f_equal. lia.
      * exact Hi.
      * apply in_map. apply zrange_In. lia.
      * exact Ek.
      * assert ((c + 1) * S_ i <= W r * E * S_ i) by (apply Z.mul_le_mono_nonneg_r; lia). split; [nia|lia].
Qed.

(** ** Transform *)
Lemma piece_range : forall bs r i c, big_enough bs -> is_rank lat r -> 0 <= i < nd -> 0 <= c < W r * E ->
  forall local off size, ptr lat dir E r i = (local, off, size) ->
  size = S_ i /\ 0 <= off + c * size /\ off + c * size + size <= bs r.
Proof.
  intros bs r i c Hb Hr Hi Hc local off size. unfold ptr. assert (HS := S_pos i).
  assert ((c + 1) * S_ i <= W r * E * S_ i) by (apply Z.mul_le_mono_nonneg_r; lia).
  destruct (Z.eqb_spec i (k_ r)) as [Ek|Ek]; intros H1; injection H1 as <- <- <-.
  - split; [reflexivity|]. destruct (cb_range bs r i Hb Hr Hi) as (C1 & C2 & C3). subst i. rewrite <- (s_eq r Hr) in *. unfold mycols in *.
    split; [nia|]. lia.
  - split; [reflexivity|]. destruct (R_range bs r i Hb Hr Hi Ek) as [R1 R2]. split; [nia|lia].
Qed.

(** Different pieces do not overlap. *)
Lemma pieces_disjoint : forall r i c i' c' off size off' size' local, is_rank lat r ->
  0 <= i < nd -> 0 <= i' < nd -> 0 <= c < W r * E -> 0 <= c' < W r * E -> (i, c) <> (i', c') ->
  ptr lat dir E r i = (local, off, size) -> ptr lat dir E r i' = (local, off', size') ->
  off + c * size + size <= off' + c' * size' \/ off' + c' * size' + size' <= off + c * size.
Proof.
  intros r i c i' c' off size off' size' local Hr Hi Hi' Hc Hc' Hn. unfold ptr. assert (HS := S_pos i). assert (HS' := S_pos i').
  destruct (Z.eqb_spec i (k_ r)) as [Ek|Ek], (Z.eqb_spec i' (k_ r)) as [Ek'|Ek']; intros H1 H2; injection H1 as <- <- <-; try discriminate H2; injection H2 as <- <-.
  - assert (c <> c') by congruence. subst i. subst i'. destruct (Z_lt_le_dec c c').
    + left. assert ((c + 1) * S_ (k_ r) <= c' * S_ (k_ r)) by (apply Z.mul_le_mono_nonneg_r; lia). lia.
    + right. assert ((c' + 1) * S_ (k_ r) <= c * S_ (k_ r)) by (apply Z.mul_le_mono_nonneg_r; lia). lia.
  - assert ((c + 1) * S_ i <= W r * E * S_ i) by (apply Z.mul_le_mono_nonneg_r; lia).
    assert ((c' + 1) * S_ i' <= W r * E * S_ i') by (apply Z.mul_le_mono_nonneg_r; lia).
    destruct (Z.lt_trichotomy i i') as [Hl|[Heq|Hl]].
    + assert (G := R_next r i i' Hr Ek Hl). left. nia.
    + subst i'. assert (c <> c') by congruence. destruct (Z_lt_le_dec c c').
      * left. assert ((c + 1) * S_ i <= c' * S_ i) by (apply Z.mul_le_mono_nonneg_r; lia). lia.
      * right. assert ((c' + 1) * S_ i <= c * S_ i) by (apply Z.mul_le_mono_nonneg_r; lia). lia.
    + assert (G := R_next r i' i Hr Ek' Hl). right. nia.
Qed.

Lemma piece_write_ok : forall bs r bufs i c l, big_enough bs -> is_rank lat r -> sized bs r bufs -> 0 <= i < nd -> 0 <= c < W r * E ->
  Z.of_nat (length l) = S_ i ->
  exists bufs', piece_write bufs c (ptr lat dir E r i) l = Some bufs' /\ sized bs r bufs' /\
    (forall t, 0 <= t < S_ i -> cell r bufs' i c t = nth_error l (Z.to_nat t)) /\
    (forall i' c' t, 0 <= i' < nd -> 0 <= c' < W r * E -> (i', c') <> (i, c) -> 0 <= t < S_ i' -> cell r bufs' i' c' t = cell r bufs i' c' t).
Proof.
  intros bs r [sb rb] i c l Hb Hr [Hs1 Hs2] Hi Hc Hl. cbn [fst snd] in *.
  destruct (ptr lat dir E r i) as [[local off] size] eqn:Ep.
  destruct (piece_range bs r i c Hb Hr Hi Hc _ _ _ Ep) as (Esz & P1 & P2). subst size.
  unfold piece_write. destruct local; cbn [fst snd].
  - destruct (write_spec sb (off + c * S_ i) l) as (b' & Eb & Sb & Wb1 & Wb2); [exact P1|lia|]. rewrite Eb.
    exists (b', rb). split; [reflexivity|]. split; [split; cbn [fst snd]; congruence|]. split.
    + intros t Ht. unfold cell. rewrite Ep. cbn [fst]. rewrite <- Wb1 by lia. f_equal.
    + intros i' c' t Hi' Hc' Hn Ht. unfold cell. destruct (ptr lat dir E r i') as [[local' off'] size'] eqn:Ep'.
      destruct (piece_range bs r i' c' Hb Hr Hi' Hc' _ _ _ Ep') as (Esz' & _ & _). subst size'.
      destruct local'; cbn [fst snd]; [|reflexivity]. apply Wb2.
      assert (G := pieces_disjoint r i' c' i c _ _ _ _ true Hr Hi' Hi Hc' Hc Hn Ep' Ep). lia.
  - destruct (write_spec rb (off + c * S_ i) l) as (b' & Eb & Sb & Wb1 & Wb2); [exact P1|lia|]. rewrite Eb.
    exists (sb, b'). split; [reflexivity|]. split; [split; cbn [fst snd]; congruence|]. split.
    + intros t Ht. unfold cell. rewrite Ep. cbn [fst snd]. rewrite <- Wb1 by lia. f_equal.
    + intros i' c' t Hi' Hc' Hn Ht. unfold cell. destruct (ptr lat dir E r i') as [[local' off'] size'] eqn:Ep'.
      destruct (piece_range bs r i' c' Hb Hr Hi' Hc' _ _ _ Ep') as (Esz' & _ & _). subst size'.
      destruct local'; cbn [fst snd]; [reflexivity|]. apply Wb2.
      assert (G := pieces_disjoint r i' c' i c _ _ _ _ false Hr Hi' Hi Hc' Hc Hn Ep' Ep). lia.
Qed.

Lemma nth_error_firstn : forall (A : Type) n (l : list A) k, (k < n)%nat -> nth_error (firstn n l) k = nth_error l k.
Proof.
  intros A n. induction n as [|n IH]; intros l k H; [lia|]. destruct l as [|a l]; [now destruct k|].
  cbn [firstn]. destruct k; [reflexivity|]. cbn [nth_error]. apply IH. lia.
Qed.

Lemma nth_error_skipn : forall (A : Type) n (l : list A) k, nth_error (skipn n l) k = nth_error l (n + k).
Proof. intros A n. induction n as [|n IH]; intros l k; [reflexivity|]. destruct l as [|a l]; [now destruct k|]. apply IH. Qed.

Lemma pieces_write_ok : forall bs r c, big_enough bs -> is_rank lat r -> 0 <= c < W r * E ->
  forall n a bufs l, sized bs r bufs -> 0 <= a -> a + Z.of_nat n <= nd -> Z.of_nat (length l) = D (a + Z.of_nat n) - D a ->
  exists bufs', pieces_write bufs c (map (ptr lat dir E r) (zrange a n)) l = Some bufs' /\ sized bs r bufs' /\
    (forall i t, a <= i < a + Z.of_nat n -> 0 <= t < S_ i -> cell r bufs' i c t = nth_error l (Z.to_nat (D i - D a + t))) /\
    (forall i' c' t, 0 <= i' < nd -> 0 <= c' < W r * E -> c' <> c \/ i' < a -> 0 <= t < S_ i' -> cell r bufs' i' c' t = cell r bufs i' c' t).
Proof.
  intros bs r c Hb Hr Hc. induction n as [|n IH]; intros a bufs l Hs Ha Hn Hl.
  - exists bufs. split; [reflexivity|]. split; [exact Hs|]. split; [intros; lia|reflexivity].
  - cbn [zrange map pieces_write].
    assert (Esz : snd (ptr lat dir E r a) = S_ a) by (unfold ptr; destruct (a =? k_ r); reflexivity). rewrite Esz.
    assert (HS := S_pos a). assert (HD := D_mono (a + 1) (a + Z.of_nat (S n)) ltac:(lia)).
    destruct (piece_write_ok bs r bufs a c (firstn (Z.to_nat (S_ a)) l) Hb Hr Hs ltac:(lia) Hc) as (b1 & E1 & S1 & C1 & O1).
    { rewrite firstn_length. lia. }
    rewrite E1. destruct (IH (a + 1) b1 (skipn (Z.to_nat (S_ a)) l) S1) as (b2 & E2 & S2 & C2 & O2); [lia|lia| |].
    { rewrite skipn_length. replace (a + 1 + Z.of_nat n) with (a + Z.of_nat (S n)) by lia. lia. }
    exists b2. split; [exact E2|]. split; [exact S2|]. split.
    + intros i t Hi Ht. destruct (Z.eq_dec i a) as [->|Hia].
      * rewrite O2 by lia. rewrite C1 by lia. rewrite nth_error_firstn by lia. f_equal. lia.
      * rewrite C2 by lia. rewrite nth_error_skipn. f_equal.
        assert (G := D_mono (a + 1) i ltac:(lia)). lia.
    + intros i' c' t Hi' Hc' Hn' Ht. rewrite O2 by (assumption || lia). apply O1; try assumption. intros Heq. injection Heq as H1 H2. lia.
Qed.

Lemma pieces_concat : forall (h : Z -> V) n, 0 <= n ->
  concat (map (fun i => map (fun t => h (D i + t)) (zrange 0 (Z.to_nat (S_ i)))) (zrange 0 (Z.to_nat n))) = map h (zrange 0 (Z.to_nat (D n))).
Proof.
  intros h n Hn. rewrite <- (Z2Nat.id n) at 2 by exact Hn. clear Hn. induction (Z.to_nat n) as [|m IH].
  - change (Z.of_nat 0) with 0. rewrite D_0. reflexivity.
  - rewrite zrange_S_r, map_app, concat_app, IH. cbn [map concat]. rewrite app_nil_r, Z.add_0_l.
    replace (Z.of_nat (S m)) with (Z.of_nat m + 1) by lia. assert (HS := S_pos (Z.of_nat m)).
    assert (G := D_mono 0 (Z.of_nat m) ltac:(lia)). rewrite D_0 in G.
    replace (Z.to_nat (D (Z.of_nat m + 1))) with (Z.to_nat (D (Z.of_nat m)) + Z.to_nat (S_ (Z.of_nat m)))%nat by lia.
    rewrite zrange_app, map_app. f_equal. rewrite Z.add_0_l, Z2Nat.id by lia.
    replace (zrange (D (Z.of_nat m)) (Z.to_nat (S_ (Z.of_nat m)))) with (map (fun x => D (Z.of_nat m) + x) (zrange 0 (Z.to_nat (S_ (Z.of_nat m)))))
      by (rewrite zrange_map_add; f_equal; lia). now rewrite map_map.
Qed.

Lemma transform_ok : forall bs st (F : list V -> list V) r h h' bufs, big_enough bs -> is_rank lat r ->
  (forall l, Z.of_nat (length l) = Ld -> length (F l) = length l) ->
  (forall C y, 0 <= y < Ld -> nth_error (F (map (h C) (zrange 0 (Z.to_nat Ld)))) (Z.to_nat y) = Some (h' C y)) ->
  st r = Some bufs -> sized bs r bufs -> located r h bufs ->
  exists bufs', transform lat dir E F st r = Some bufs' /\ sized bs r bufs' /\ located r h' bufs'.
Proof.
  intros bs st F r h h' bufs Hb Hr HF Hh' Est Hs Hloc. unfold transform.
  rewrite Est, (pencil_row_spec lat Hv Hne dir Hdir r Hr), (my_columns_spec lat Hv Hne dir Hdir r Hr), (rec_ptrs_spec lat Hv Hne dir Hdir E r Hr).
  assert (HW := WE_nonneg r Hr).
  match goal with |- context [option_fold ?f ?l bufs] =>
    destruct (option_fold_inv _ _ f (fun done b => sized bs r b /\ forall i c t, 0 <= i < nd -> 0 <= c < W r * E -> 0 <= t < S_ i ->
       cell r b i c t = Some ((if c <? Z.of_nat (length done) then h' else h) (cb lat dir r (k_ r) * E + c) (D i + t))) l bufs) as (b' & Eb & Sb & Cb) end.
  - split; [exact Hs|]. intros i c t Hi Hc Ht. cbn [length]. destruct (Z.ltb_spec c (Z.of_nat 0)); [lia|]. now apply Hloc.
  - intros l1 c l2 b Hl [Sb Cb]. assert (Hcl := zrange_split _ _ _ _ _ Hl). destruct Hcl as [_ Ec]. rewrite Z.add_0_l in Ec.
    assert (Hc : 0 <= c < W r * E).
    { assert (In c (zrange 0 (Z.to_nat (W r * E)))) as H by (rewrite Hl; apply in_elt). apply zrange_In in H. lia. }
    unfold transform_column. rewrite map_map.
    rewrite (all_some_map _ _ _ (fun i => map (fun t => h (cb lat dir r (k_ r) * E + c) (D i + t)) (zrange 0 (Z.to_nat (S_ i))))).
    + rewrite pieces_concat by lia. rewrite D_n.
      destruct (pieces_write_ok bs r c Hb Hr Hc (Z.to_nat nd) 0 b
                  (F (map (h (cb lat dir r (k_ r) * E + c)) (zrange 0 (Z.to_nat Ld)))) Sb) as (b2 & E2 & S2 & C2 & O2); [lia|lia| |].
      { rewrite HF; rewrite map_length, zrange_length, ?Z2Nat.id by lia; [|reflexivity]. rewrite Z.add_0_l, D_n, D_0. lia. }
      exists b2. split; [exact E2|]. split; [exact S2|]. intros i c' t Hi Hc' Ht. rewrite app_length. cbn [length].
      destruct (Z.eq_dec c' c) as [->|Hn].
      * rewrite C2 by lia. rewrite D_0, Z.sub_0_r. destruct (Z.ltb_spec c (Z.of_nat (length l1 + 1))); [|lia]. apply Hh'.
        assert (G1 := D_mono 0 i ltac:(lia)). assert (G2 := D_mono (i + 1) nd ltac:(lia)). rewrite D_0 in G1. rewrite D_n in G2. lia.
      * rewrite O2 by (assumption || lia). rewrite Cb by assumption.
        destruct (Z.ltb_spec c' (Z.of_nat (length l1))), (Z.ltb_spec c' (Z.of_nat (length l1 + 1))); try lia; reflexivity.
    + intros i Hi. apply zrange_In in Hi. destruct b as [sb rb]. cbn [fst snd] in *.
      destruct (ptr lat dir E r i) as [[local off] size] eqn:Ep.
      destruct (piece_range bs r i c Hb Hr ltac:(lia) Hc _ _ _ Ep) as (Esz & P1 & P2). subst size. destruct Sb as [Sb1 Sb2]. cbn [fst snd] in *.
      unfold piece_read. apply read_spec; [exact P1|assert (HS := S_pos i); lia|destruct local; lia|].
      intros t Ht. specialize (Cb i c t ltac:(lia) Hc Ht). unfold cell in Cb. rewrite Ep in Cb. cbn [fst snd] in Cb.
      destruct (Z.ltb_spec c (Z.of_nat (length l1))); [lia|]. exact Cb.
  - exists b'. split; [exact Eb|]. split; [exact Sb|]. intros i c t Hi Hc Ht. rewrite Cb by assumption. rewrite zrange_length.
    destruct (Z.ltb_spec c (Z.of_nat (Z.to_nat (W r * E)))); [reflexivity|lia].
Qed.

(** ** Scatter *)
Lemma ptr_of_row : forall r i, is_rank lat r -> 0 <= i < nd ->
  ptr_of E (q_ r i) r (row (q_ r i)) = Some (pen (q_ r i) (k_ r), ptr lat dir E (q_ r i) (k_ r)).
Proof.
  intros r i Hr Hi. unfold ptr_of. destruct (row_rank lat Hv Hne dir Hdir r i Hr Hi) as (Hq & _ & _).
  rewrite (my_columns_spec lat Hv Hne dir Hdir _ Hq), (rec_ptrs_spec lat Hv Hne dir Hdir E _ Hq), combine_map.
  assert (Hk := k_range r Hr). apply (find_map_zrange _ (fun q => p_node (fst q) =? r) (fun x => (pen (q_ r i) x, ptr lat dir E (q_ r i) x)) (k_ r)); [lia|].
  intros j Hj. cbn [fst pencil_of p_node]. rewrite (row_same lat Hv Hne dir Hdir r i j Hr Hi).
  assert (G := row_is lat Hv Hne dir Hdir r j Hr ltac:(lia)). destruct (Z.eqb_spec (q_ r j) r), (Z.eqb_spec j (k_ r)); tauto || (exfalso; tauto).
Qed.

Lemma scatter_ok : forall bs st g, big_enough bs ->
  (forall r, is_rank lat r -> exists bufs, st r = Some bufs /\ sized bs r bufs /\ located r (hrow g r) bufs) ->
  forall r, is_rank lat r -> exists bufs, scatter_data lat dir E st r = Some bufs /\ sized bs r bufs /\ sb_holds r (hrow g r) (fst bufs).
Proof.
  intros bs st g Hb Hst r Hr. unfold scatter_data. destruct (Hst r Hr) as ([sb rb] & Est & [Hsb Hrb] & Hloc). cbn [fst snd] in *.
  rewrite Est, (pencil_row_spec lat Hv Hne dir Hdir r Hr).
  assert (Hk := k_range r Hr). assert (Hsr := s_pos r Hr).
  match goal with |- context [option_fold ?f _ sb] => set (step := f) end.
  set (P := fun (done : list pencil) (b : buffer V) =>
    b_size b = bs r /\ forall i z, 0 <= i < nd -> In (pen r i) done \/ i = k_ r -> 0 <= z < (cb lat dir r (i + 1) - cb lat dir r i) * E * s_ r ->
       b_at b (cb lat dir r i * s_ r * E + z) = Some (hrow g r (cb lat dir r i * E + z / s_ r) (D (k_ r) + z mod s_ r))).
  destruct (option_fold_inv _ _ step P (row r) sb) as (sb' & Esb' & Hs' & Hc').
  - split; [exact Hsb|]. intros i z Hi [Hin|Hin] Hz; [destruct Hin|]. subst i. fold (W r) in Hz.
    assert (Hzd : 0 <= z / s_ r < W r * E) by (split; [apply Z.div_pos; lia|apply Z.div_lt_upper_bound; lia]).
    assert (Hzm := Z.mod_pos_bound z (s_ r) Hsr).
    specialize (Hloc (k_ r) (z / s_ r) (z mod s_ r) Hk Hzd). rewrite <- (s_eq r Hr) in Hloc. specialize (Hloc Hzm).
    unfold cell, ptr in Hloc. rewrite Z.eqb_refl in Hloc. cbn [fst] in Hloc. rewrite <- (s_eq r Hr) in Hloc.
    rewrite <- Hloc. f_equal. assert (Ez := Z.div_mod z (s_ r) ltac:(lia)). lia.
  - intros l1 b l2 a Hl [Ha1 Ha2].
    assert (Hb2 : In b (row r)) by (rewrite Hl; apply in_elt).
    apply in_map_iff in Hb2. destruct Hb2 as (i & <- & Hi). apply zrange_In in Hi.
    assert (Hqi : forall j, 0 <= j < nd -> In (pen r j) (l1 ++ [pen r i]) \/ j = k_ r -> j <> i -> In (pen r j) l1 \/ j = k_ r).
    { intros j Hj [Hin|Hin] Hji; [|now right]. left. apply in_app_iff in Hin. destruct Hin as [Hin|[Hin|[]]]; [exact Hin|].
      exfalso. apply Hji. injection Hin as Hin _ _ _. symmetry. apply (row_inj lat Hv Hne dir Hdir r i j Hr); [lia|lia|exact Hin]. }
    assert (Hri := row_is lat Hv Hne dir Hdir r i Hr ltac:(lia)).
    unfold step. cbn beta. cbn [pencil_of p_node p_size p_number p_offset]. fold (pen r i).
    destruct (Z.eq_dec i (k_ r)) as [Ek|Ek].
    + rewrite (proj2 (Z.eqb_eq _ _)) by tauto. exists a. split; [reflexivity|]. split; [exact Ha1|].
      intros j z Hj Hin Hz. apply Ha2; [exact Hj| |exact Hz]. destruct (Z.eq_dec j i) as [->|Hji]; [now right|now apply Hqi].
    + rewrite (proj2 (Z.eqb_neq _ _)) by tauto.
      destruct (row_rank lat Hv Hne dir Hdir r i Hr ltac:(lia)) as (Hq & _ & _).
      destruct (Hst (q_ r i) Hq) as ([sb2 rb2] & Est' & [_ Hrb2] & Hh'). cbn [fst snd] in *. rewrite Est'.
      rewrite (pencil_row_spec lat Hv Hne dir Hdir _ Hq), ptr_of_row by (assumption || lia).
      rewrite (my_columns_spec lat Hv Hne dir Hdir _ Hq).
      assert (Hki : k_ (q_ r i) = i) by (apply (row_kidx lat Hv Hne dir Hdir r i Hr); lia).
      unfold ptr. rewrite Hki. rewrite (proj2 (Z.eqb_neq (k_ r) i)) by congruence. cbn [pencil_of p_size].
      assert (HWi : W (q_ r i) = cb lat dir r (i + 1) - cb lat dir r i).
      { unfold mycols. rewrite Hki, !(row_cb lat Hv Hne dir Hdir r i) by (assumption || lia). reflexivity. }
      rewrite <- (s_eq r Hr).
      destruct (cb_range bs r i Hb Hr ltac:(lia)) as (C1 & C2 & C3).
      destruct (R_range bs (q_ r i) (k_ r) Hb Hq Hk ltac:(congruence)) as [R1 R2]. rewrite <- (s_eq r Hr) in R2.
      rewrite HWi in *. assert (HN : 0 <= (cb lat dir r (i + 1) - cb lat dir r i) * s_ r * E) by nn.
      rewrite (read_spec rb2 _ _ (fun z => hrow g r (cb lat dir r i * E + z / s_ r) (D (k_ r) + z mod s_ r))).
      * rewrite map_length, zrange_length. rewrite Z2Nat.id by exact HN.
        rewrite (proj2 (Z.leb_le _ _)) by lia.
        match goal with |- exists a', write a ?off ?l = Some a' /\ _ => destruct (write_spec a off l) as (a' & Ea' & Sa' & Wa1 & Wa2) end.
        -- nn.
        -- rewrite map_length, zrange_length, Z2Nat.id by exact HN. rewrite Ha1. lia.
        -- exists a'. split; [exact Ea'|]. rewrite map_length, zrange_length, Z2Nat.id in Wa1, Wa2 by exact HN.
           split; [congruence|]. intros j z Hj Hin Hz. destruct (Z.eq_dec j i) as [->|Hji].
           ++ rewrite Wa1 by lia. rewrite nth_error_map_zrange by lia. reflexivity.
           ++ rewrite Wa2.
              ** apply Ha2; [exact Hj| |exact Hz]. apply Hqi; [exact Hj|exact Hin|exact Hji].
              ** destruct (Z_lt_le_dec j i) as [Hlt|Hge].
                 --- assert (G := cb_le lat Hv Hne dir Hdir r (j + 1) i Hr ltac:(lia)).
                     assert (cb lat dir r (j + 1) * (E * s_ r) <= cb lat dir r i * (E * s_ r)) by (apply Z.mul_le_mono_nonneg_r; nia). lia.
                 --- assert (G := cb_le lat Hv Hne dir Hdir r (i + 1) j Hr ltac:(lia)).
                     assert (cb lat dir r (i + 1) * (E * s_ r) <= cb lat dir r j * (E * s_ r)) by (apply Z.mul_le_mono_nonneg_r; nia). lia.
      * lia.
      * exact HN.
      * rewrite Hrb2. lia.
      * intros z Hz.
        assert (Hzd : 0 <= z / s_ r < (cb lat dir r (i + 1) - cb lat dir r i) * E) by (split; [apply Z.div_pos; lia|apply Z.div_lt_upper_bound; lia]).
        assert (Hzm := Z.mod_pos_bound z (s_ r) Hsr).
        rewrite <- HWi in Hzd. specialize (Hh' (k_ r) (z / s_ r) (z mod s_ r) Hk Hzd). rewrite <- (s_eq r Hr) in Hh'. specialize (Hh' Hzm).
        unfold cell, ptr in Hh'. rewrite Hki in Hh'. rewrite (proj2 (Z.eqb_neq (k_ r) i)) in Hh' by congruence. cbn [snd] in Hh'.
        rewrite <- (s_eq r Hr) in Hh'. rewrite (hrow_row g r i), (row_cb lat Hv Hne dir Hdir r i) in Hh' by (assumption || lia). rewrite <- Hh'.
        f_equal. assert (Ez := Z.div_mod z (s_ r) ltac:(lia)). lia.
  - rewrite Esb'. exists (sb', rb). split; [reflexivity|]. split; [split; assumption|].
    cbn [fst]. intros a Ha.
    assert (Hcol : 0 <= a / (E * s_ r) < cols lat dir r) by (split; [apply Z.div_pos; nia|apply Z.div_lt_upper_bound; nia]).
    destruct (cb_search lat Hv Hne dir Hdir r _ Hr Hcol) as (i & Hi & Hci).
    assert (Eq := Z.div_mod a (E * s_ r) ltac:(nia)). assert (Eb := Z.mod_pos_bound a (E * s_ r) ltac:(nia)).
    set (m := a / (E * s_ r)) in *. set (u := a mod (E * s_ r)) in *.
    assert (L1 : cb lat dir r i * (E * s_ r) <= m * (E * s_ r)) by (apply Z.mul_le_mono_nonneg_r; nia).
    assert (L2 : (m + 1) * (E * s_ r) <= cb lat dir r (i + 1) * (E * s_ r)) by (apply Z.mul_le_mono_nonneg_r; nia).
    set (z := a - cb lat dir r i * s_ r * E).
    replace a with (cb lat dir r i * s_ r * E + z) at 1 by (unfold z; lia).
    rewrite Hc'.
    + replace a with (cb lat dir r i * E * s_ r + z) by (unfold z; lia). now rewrite div_add_l, mod_add_l.
    + exact Hi.
    + left. apply in_map. apply zrange_In. lia.
    + unfold z. lia.
Qed.
End Row.
