(** Proofs about the layout with vector lanes. *)
From Coq Require Import Znumtheory.
From Verif Require Import Common LayoutModel LayoutSpec LayoutProofs1 LayoutProofs2 LayoutProofs3 SetupModel SetupProofs1 SetupProofs2
  VlayoutModel VlayoutSpec VsetupModel.

Lemma scan_ok : forall t sz, match scan_largest t sz with
  | Some d => (d < length sz)%nat /\ t d = true
  | None => forall d, (d < length sz)%nat -> 1 < nth d sz 0 -> t d = false
  end.
Proof.
  intros t sz. unfold scan_largest.
  set (f := fun (acc : Z * option nat) d => if (nth d sz 0 >? fst acc) && t d then (nth d sz 0, Some d) else acc).
  assert (H : forall l acc, match snd (fold_left f l acc) with
     | Some d => (In d l /\ t d = true) \/ snd acc = Some d
     | None => snd acc = None /\ forall d, In d l -> fst acc < nth d sz 0 -> t d = false end).
  { induction l as [|x l IH]; intros acc; cbn [fold_left].
    - destruct (snd acc) eqn:E; [right; auto|split; auto]. intros d [].
    - specialize (IH (f acc x)). destruct (snd (fold_left f l (f acc x))) as [d|].
      + destruct IH as [[A B]|A]; [left; split; auto; right; auto|]. unfold f in A.
        destruct ((nth x sz 0 >? fst acc) && t x) eqn:E; [|right; auto]. cbn in A. inversion A; subst.
        apply andb_true_iff in E. destruct E. left. split; [left; auto|auto].
      + destruct IH as [A B]. unfold f in A, B. rewrite Z.gtb_ltb in *.
        destruct ((fst acc <? nth x sz 0) && t x) eqn:E; [discriminate|].
        split; auto. intros d [<-|Hd] Hlt; [|auto]. apply andb_false_iff in E. destruct E as [E|E]; auto.
        apply Z.ltb_ge in E. lia. }
  specialize (H (seq 0 (length sz)) (1, None)). destruct (snd (fold_left f (seq 0 (length sz)) (1, None))) as [d|].
  - destruct H as [[A B]|A]; [|discriminate]. apply in_seq in A. split; [lia|auto].
  - intros d Hd Hlt. apply H; [apply in_seq; lia|auto].
Qed.

Lemma is_dir_spec : forall g d, is_dir g d = true <-> g = Some d.
Proof.
  intros [k|] d; cbn; [|split; discriminate]. rewrite Nat.eqb_eq. split; [intros ->; auto|intros H; inversion H; auto].
Qed.

Lemma mod2p : forall a p, 0 < p -> a mod (2 * p) = 0 -> a mod p = 0.
Proof.
  intros a p Hp H. apply Z.mod_divide in H; [|lia]. apply Z.mod_divide; [lia|].
  eapply Z.divide_trans; [|exact H]. exists 2. auto.
Qed.

Lemma vpick_ok : forall g p sz d, 1 < p -> vpick g p sz = Some d ->
  (d < length sz)%nat /\ (p | nth d sz 0) /\ (g = Some d -> 3 < nth d sz 0 / p).
Proof.
  intros g p sz d Hp H. unfold vpick in H.
  set (t1 := fun d => ((is_dir g d && (nth d sz 0 mod p =? 0)) || (negb (is_dir g d) && (nth d sz 0 mod (2 * p) =? 0))) &&
                      (nth d sz 0 / p >? 3)) in H.
  set (t2 := fun d => negb (is_dir g d) && (nth d sz 0 mod p =? 0)) in H.
  assert (S1 := scan_ok t1 sz). assert (S2 := scan_ok t2 sz).
  destruct (scan_largest t1 sz) as [x|].
  - inversion H; subst x. destruct S1 as [A B]. unfold t1 in B. apply andb_true_iff in B. destruct B as [B C].
    rewrite Z.gtb_ltb in C. apply Z.ltb_lt in C. split; auto. split; auto.
    apply orb_true_iff in B. destruct B as [B|B]; apply andb_true_iff in B; destruct B as [B1 B2]; apply Z.eqb_eq in B2.
    + apply Z.mod_divide; auto. lia.
    + apply mod2p in B2; [|lia]. apply Z.mod_divide; auto. lia.
  - destruct (scan_largest t2 sz) as [x|]; [|discriminate]. inversion H; subst x. destruct S2 as [A B].
    unfold t2 in B. apply andb_true_iff in B. destruct B as [B1 B2]. apply Z.eqb_eq in B2.
    split; auto. split; [apply Z.mod_divide; auto; lia|]. intros E. apply is_dir_spec in E. rewrite E in B1. discriminate.
Qed.

(** If the number of virtual nodes divides the volume there is no uneven
    direction, and the slicing does not get stuck. *)
Lemma vpick_some : forall p sz, prime p -> (p | zprod sz) -> Forall (fun x => 0 < x) sz -> exists d, vpick None p sz = Some d.
Proof.
  intros p sz Hp Hd Hs. assert (P := prime_ge_2 p Hp). unfold vpick.
  destruct (scan_largest (fun d => (is_dir None d && _ || _) && _) sz) as [d|]; [exists d; auto|].
  assert (S2 := scan_ok (fun d => negb (is_dir None d) && (nth d sz 0 mod p =? 0)) sz).
  destruct (scan_largest _ sz) as [d|]; [exists d; auto|]. exfalso.
  destruct (prime_divides_some p sz Hp Hd) as (k & Hk & Hkd).
  assert (Hpos := pos_nth sz k Hs Hk). assert (p <= nth k sz 0) by (apply Z.divide_pos_le; auto).
  specialize (S2 k Hk ltac:(lia)). cbn in S2. apply Z.eqb_neq in S2. apply S2. apply Z.mod_divide; auto. lia.
Qed.

Lemma vslice_ok : forall g fs sz dv sz' dv', Forall (fun p => 1 < p) fs -> length dv = length sz ->
  Forall (fun x => 0 < x) sz -> Forall (fun x => 0 < x) dv -> vslice g fs sz dv = Some (sz', dv') ->
  length sz' = length sz /\ length dv' = length sz /\
    Forall (fun x => 0 < x) sz' /\ Forall (fun x => 0 < x) dv' /\
    (forall j, (j < length sz)%nat -> nth j sz' 0 * nth j dv' 0 = nth j sz 0 * nth j dv 0) /\
    zprod dv' = zprod fs * zprod dv /\
    (forall k, g = Some k -> (nth k sz' 0 = nth k sz 0 /\ nth k dv' 0 = nth k dv 0) \/ 3 < nth k sz' 0).
Proof.
  induction fs as [|p fs IH]; intros sz dv sz' dv' Hf Hl Hs Hd E; cbn [vslice] in E.
  - inversion E; subst. repeat (split; auto). change (zprod []) with 1. lia.
  - inversion Hf; subst. destruct (vpick g p sz) as [d|] eqn:Ep; [|discriminate].
    destruct (vpick_ok g p sz d H1 Ep) as (Hdl & Hdd & Hg3).
    assert (Hpos := pos_nth sz d Hs Hdl).
    assert (Ediv : nth d sz 0 = p * (nth d sz 0 / p)) by (destruct Hdd as (q & ->); rewrite Z.div_mul by lia; lia).
    assert (Hdv : (d < length dv)%nat) by lia. assert (Hdpos := pos_nth dv d Hd Hdv).
    assert (Ed := update_prod d (fun s => s * p) dv Hdv). cbn beta in Ed.
    apply IH in E; auto.
    + destruct E as (E2 & E3 & E4 & E5 & E6 & E7 & E8). rewrite update_length in *. repeat (split; auto).
      * intros j Hj. rewrite E6 by auto. rewrite !update_nth by lia. destruct (Nat.eqb_spec j d) as [->|]; [nia|auto].
      * rewrite E7, zprod_cons.
        assert (zprod (update d (fun s => s * p) dv) = p * zprod dv) as ->; [|ring].
        apply (Z.mul_reg_r _ _ (nth d dv 0)); [lia|]. rewrite Ed. ring.
      * intros k Hk. destruct (E8 k Hk) as [[A B]|A]; [|right; auto]. rewrite update_nth in A, B by lia.
        destruct (Nat.eqb_spec k d) as [->|]; [|left; auto]. right. rewrite A. auto.
    + rewrite !update_length. auto.
    + apply nth_pos_Forall. rewrite update_length. intros j Hj. rewrite update_nth by auto.
      destruct (Nat.eqb_spec j d) as [->|]; [nia|apply pos_nth; auto].
    + apply nth_pos_Forall. rewrite update_length. intros j Hj. rewrite update_nth by auto.
      destruct (Nat.eqb_spec j d) as [->|]; [nia|apply pos_nth; auto].
Qed.

Lemma vslice_some : forall fs sz dv, Forall prime fs -> Forall (fun x => 0 < x) sz -> (zprod fs | zprod sz) ->
  exists r, vslice None fs sz dv = Some r.
Proof.
  induction fs as [|p fs IH]; intros sz dv Hf Hs Hdiv; cbn [vslice]; [eexists; reflexivity|].
  inversion Hf; subst. assert (P := prime_ge_2 p H1). rewrite zprod_cons in Hdiv.
  destruct (vpick_some p sz H1) as (d & Ep); auto.
  { eapply Z.divide_trans; [|exact Hdiv]. exists (zprod fs). lia. }
  rewrite Ep. destruct (vpick_ok None p sz d ltac:(lia) Ep) as (Hdl & Hdd & _).
  assert (Hpos := pos_nth sz d Hs Hdl).
  assert (Ediv : nth d sz 0 = p * (nth d sz 0 / p)) by (destruct Hdd as (q & ->); rewrite Z.div_mul by lia; lia).
  assert (Es := update_prod d (fun s => s / p) sz Hdl). cbn beta in Es.
  apply IH; auto.
  - apply nth_pos_Forall. rewrite update_length. intros j Hj. rewrite update_nth by auto.
    destruct (Nat.eqb_spec j d) as [->|]; [nia|apply pos_nth; auto].
  - assert (zprod sz = p * zprod (update d (fun s => s / p) sz)).
    { apply (Z.mul_reg_r _ _ (nth d sz 0)); [lia|]. rewrite <- Z.mul_assoc, Es, Z.mul_assoc, <- Ediv. ring. }
    destruct Hdiv as (q & Hq). exists q. apply (Z.mul_reg_l _ _ p); [lia|]. rewrite <- H, Hq. ring.
Qed.

(** *** Subdivision *)
Section Sub.
  Variables (g : option nat) (nsub : Z) (sz dv : list Z).
  Hypothesis Hlen : length dv = length sz.

  Definition sub_inv (sd : list Z) (ns : Z) (m : option nat) : Prop :=
    length sd = length sz /\ zprod sd = ns /\ 1 <= ns /\
    (forall j, (j < length sz)%nat -> 0 < nth j sd 0 /\ nth j dv 0 mod nth j sd 0 = 0 /\
       (1 < nth j sd 0 -> g <> Some j /\ nth j sz 0 mod 2 = 0)) /\
    (match m with None => ns = 1 | Some k => (k < length sz)%nat /\ nth k sd 0 mod 2 = 0 end).

  Lemma step_inv : forall sd ns m dn d, (d < length sz)%nat -> sub_inv sd ns m ->
    let '(sd', ns', m', dn') := subdivide_step g nsub sz dv (sd, ns, m, dn) d in
    sub_inv sd' ns' m' /\ ((sd', ns', m', dn') = (sd, ns, m, dn) \/ (dn' = true /\ ns < ns')).
  Proof.
    intros sd ns m dn d Hd (I1 & I2 & I3 & I4 & I5). cbn [subdivide_step].
    destruct (negb (is_dir g d) && _ && _ && _) eqn:E; [|split; [repeat (split; auto)|auto]].
    apply andb_true_iff in E. destruct E as [E E4]. apply andb_true_iff in E. destruct E as [E E3].
    apply andb_true_iff in E. destruct E as [E1 E2]. apply Z.eqb_eq in E2, E3. apply Z.ltb_lt in E4.
    assert (Hd' : (d < length sd)%nat) by lia. destruct (I4 d Hd) as (J1 & J2 & J3).
    split; [|right; split; [auto|lia]]. split; [rewrite update_length; auto|]. split; [|split; [lia|split]].
    - assert (X := update_prod d (fun _ => nth d sd 0 * 2) sd Hd'). cbn beta in X. rewrite I2 in X.
      apply (Z.mul_reg_r _ _ (nth d sd 0)); [lia|]. rewrite X. ring.
    - intros j Hj. rewrite update_nth by auto. destruct (Nat.eqb_spec j d) as [->|]; [|auto].
      split; [lia|]. split; [auto|]. intros _. split; [|auto]. intros C. apply is_dir_spec in C. rewrite C in E1. discriminate.
    - split; auto. rewrite update_nth, Nat.eqb_refl by auto. apply Z.mod_mul. lia.
  Qed.

  Lemma pass_inv : forall l sd ns m dn, (forall d, In d l -> (d < length sz)%nat) -> sub_inv sd ns m ->
    let '(sd', ns', m', dn') := fold_left (subdivide_step g nsub sz dv) l (sd, ns, m, dn) in
    sub_inv sd' ns' m' /\ ns <= ns' /\ (dn' = true -> dn = true \/ ns < ns').
  Proof.
    induction l as [|d l IH]; intros sd ns m dn Hl I; cbn [fold_left]; [repeat (split; auto); lia|].
    assert (S := step_inv sd ns m dn d (Hl d (or_introl eq_refl)) I).
    destruct (subdivide_step g nsub sz dv (sd, ns, m, dn) d) as [[[sd1 ns1] m1] dn1]. destruct S as [S1 S2].
    specialize (IH sd1 ns1 m1 dn1 (fun d Hd => Hl d (or_intror Hd)) S1).
    destruct (fold_left _ l (sd1, ns1, m1, dn1)) as [[[sd2 ns2] m2] dn2]. destruct IH as (A & B & C).
    split; auto. destruct S2 as [S2|[S2 S3]]; [inversion S2; subst; auto|]. split; [lia|]. intros H. right. lia.
  Qed.

  Lemma subdivide_ok : forall fuel sd ns m, (0 < fuel)%nat -> nsub <= ns + Z.of_nat fuel -> sub_inv sd ns m ->
    exists sd' ns' m', subdivide fuel g nsub sz dv sd ns m = Some (sd', ns', m') /\ sub_inv sd' ns' m'.
  Proof.
    induction fuel as [|k IH]; intros sd ns m Hf Hn I; [lia|]. cbn [subdivide]. unfold subdivide_pass.
    assert (P := pass_inv (seq 0 (length sz)) sd ns m false ltac:(intros d Hd; apply in_seq in Hd; lia) I).
    destruct (fold_left _ _ _) as [[[sd1 ns1] m1] dn1]. destruct P as (A & B & C).
    destruct (dn1 && (ns1 <? nsub)) eqn:E; [|exists sd1, ns1, m1; auto].
    apply andb_true_iff in E. destruct E as [E1 E2]. apply Z.ltb_lt in E2. destruct (C E1) as [|C']; [discriminate|].
    apply IH; auto; lia.
  Qed.
End Sub.

Lemma ones_nth : forall (ls : list Z) j, (j < length ls)%nat -> nth j (map (fun _ => 1) ls) 0 = 1.
Proof. induction ls as [|x l IH]; intros [|j] Hj; cbn in *; try lia; auto. apply IH. lia. Qed.
Lemma ones_prod : forall (ls : list Z), zprod (map (fun _ => 1) ls) = 1.
Proof. induction ls as [|x l IH]; auto. cbn [map]. rewrite zprod_cons, IH. auto. Qed.

Lemma ones_inv : forall g sz dv (ls : list Z), length ls = length sz -> sub_inv g sz dv (map (fun _ => 1) ls) 1 None.
Proof.
  intros g sz dv ls Hl. split; [rewrite map_length; auto|]. split; [apply ones_prod|]. split; [lia|]. split; auto.
  intros j Hj. rewrite ones_nth by lia. split; [lia|]. split; [apply Z.mod_1_r|lia].
Qed.
