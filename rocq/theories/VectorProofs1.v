(** Reading and writing lists of places. *)
From Verif Require Import Common VectorModel VectorSpec.
Open Scope Z_scope.

Section Places.
Context {V : Type}.
Implicit Types (m : storage V) (p q : Z).

Lemma store_some m p v : load m p <> None ->
  exists m', store m p v = Some m' /\ forall q, load m' q = if q =? p then Some v else load m q.
Proof.
  unfold load, store. intros H. destruct ((0 <=? p) && (p <? s_len m)) eqn:Hp; [|congruence].
  eexists. split; [reflexivity|]. intros q. cbn [s_len s_at]. destruct (q =? p) eqn:Hq; [|reflexivity].
  apply Z.eqb_eq in Hq. subst q. rewrite Hp. reflexivity.
Qed.

Lemma load_all_iff {X : Type} m (g : X -> Z) (h : X -> V) (l : list X) :
  load_all m (map g l) = Some (map h l) <-> forall x, In x l -> load m (g x) = Some (h x).
Proof.
  induction l as [|x l IH]; cbn [map load_all].
  - split; [intros _ y []|reflexivity].
  - split.
    + destruct (load m (g x)) as [a|] eqn:Ha; [|discriminate].
      destruct (load_all m (map g l)) as [b|] eqn:Hb; [|discriminate].
      intros H. injection H as H1 H2. subst a b. intros y [<-|Hy]; [exact Ha|]. exact (proj1 IH eq_refl y Hy).
    + intros H. rewrite (H x (or_introl eq_refl)). rewrite (proj2 IH); [reflexivity|]. intros y Hy. apply H. right. exact Hy.
Qed.

Lemma load_all_some {X : Type} m (g : X -> Z) (l : list X) : (forall x, In x l -> load m (g x) <> None) ->
  exists r, load_all m (map g l) = Some r.
Proof.
  induction l as [|x l IH]; intros H; cbn [map load_all]; [eexists; reflexivity|].
  destruct (load m (g x)) eqn:E; [|exfalso; exact (H x (or_introl eq_refl) E)].
  destruct IH as [r Hr]; [intros y Hy; apply H; right; exact Hy|]. rewrite Hr. eexists. reflexivity.
Qed.

Lemma store_all_map {X : Type} (g : X -> Z) (v : X -> V) (l : list X) : forall m,
  (forall x, In x l -> load m (g x) <> None) ->
  NoDup (map g l) ->
  exists m', store_all m (map (fun x => (g x, v x)) l) = Some m' /\
             (forall x, In x l -> load m' (g x) = Some (v x)) /\
             (forall q, ~ In q (map g l) -> load m' q = load m q).
Proof.
  induction l as [|x l IH]; intros m Hin Hnd.
  - exists m. split; [reflexivity|]. split; [intros x []|reflexivity].
  - cbn [map store_all]. cbn [map] in Hnd. apply NoDup_cons_iff in Hnd. destruct Hnd as [Hx Hnd].
    destruct (store_some m (g x) (v x) (Hin x (or_introl eq_refl))) as [m1 [H1 L1]]. rewrite H1.
    destruct (IH m1) as [m' [H2 [H3 H4]]].
    + intros y Hy. rewrite L1. destruct (g y =? g x); [discriminate|]. apply Hin. right. exact Hy.
    + exact Hnd.
    + exists m'. split; [exact H2|]. split.
      * intros y [<-|Hy]; [|apply H3; exact Hy]. rewrite H4 by exact Hx. rewrite L1, Z.eqb_refl. reflexivity.
      * intros q Hq. cbn [map In] in Hq. rewrite H4 by tauto. rewrite L1.
        destruct (q =? g x) eqn:E; [|reflexivity]. apply Z.eqb_eq in E. exfalso. apply Hq. left. congruence.
Qed.

Lemma store_all_app a b : forall m, store_all m (a ++ b) = match store_all m a with Some m' => store_all m' b | None => None end.
Proof.
  induction a as [|[p v] a IH]; intros m; [reflexivity|]. cbn [app store_all]. destruct (store m p v); [apply IH|reflexivity].
Qed.

Lemma combine_map {X A B : Type} (g : X -> A) (v : X -> B) (l : list X) : combine (map g l) (map v l) = map (fun x => (g x, v x)) l.
Proof. induction l as [|x l IH]; [reflexivity|]. cbn [map combine]. rewrite IH. reflexivity. Qed.

(** A copy from places [src] to places [dst] none of which is a source. *)
Definition copy_step {X : Type} (neg : V -> V) (src dst : X -> Z) (acc : option (storage V)) (x : X) : option (storage V) :=
  match acc with
  | Some m => match load m (src x) with Some v => store m (dst x) (neg v) | None => None end
  | None => None
  end.

Lemma copy_fold {X : Type} (neg : V -> V) (src dst : X -> Z) (h : X -> V) (l : list X) : forall m,
  (forall x, In x l -> load m (src x) = Some (h x)) ->
  (forall x, In x l -> load m (dst x) <> None) ->
  (forall x y, In x l -> In y l -> src x <> dst y) ->
  NoDup (map dst l) ->
  exists m', fold_left (copy_step neg src dst) l (Some m) = Some m' /\
             (forall x, In x l -> load m' (dst x) = Some (neg (h x))) /\
             (forall q, ~ In q (map dst l) -> load m' q = load m q).
Proof.
  induction l as [|x l IH]; intros m Hs Hd Hdis Hnd.
  - exists m. split; [reflexivity|]. split; [intros x []|reflexivity].
  - cbn [map] in Hnd. apply NoDup_cons_iff in Hnd. destruct Hnd as [Hx Hnd].
    cbn [fold_left]. unfold copy_step at 2. rewrite (Hs x (or_introl eq_refl)).
    destruct (store_some m (dst x) (neg (h x)) (Hd x (or_introl eq_refl))) as [m1 [H1 L1]]. rewrite H1.
    destruct (IH m1) as [m' [H2 [H3 H4]]].
    + intros y Hy. rewrite L1. destruct (src y =? dst x) eqn:E.
      * apply Z.eqb_eq in E. exfalso. exact (Hdis y x (or_intror Hy) (or_introl eq_refl) E).
      * apply Hs. right. exact Hy.
    + intros y Hy. rewrite L1. destruct (dst y =? dst x); [discriminate|]. apply Hd. right. exact Hy.
    + intros a b Ha Hb. apply Hdis; right; assumption.
    + exact Hnd.
    + exists m'. split; [exact H2|]. split.
      * intros y [<-|Hy]; [|apply H3; exact Hy]. rewrite H4 by exact Hx. rewrite L1, Z.eqb_refl. reflexivity.
      * intros q Hq. cbn [map In] in Hq. rewrite H4 by tauto. rewrite L1.
        destruct (q =? dst x) eqn:E; [|reflexivity]. apply Z.eqb_eq in E. exfalso. apply Hq. left. congruence.
Qed.
End Places.

(** ** Addresses *)
Definition addr (vs E i e : Z) : Z := (i / vs) * vs * E + i mod vs + e * vs.

Lemma addr_vector vs E i e : addr vs E i e = (i / vs) * (E * vs) + (e * vs + i mod vs).
Proof. unfold addr. ring. Qed.

Lemma offset_range vs E k e : 0 <= k < vs -> 0 <= e < E -> 0 <= e * vs + k < E * vs.
Proof. intros. split; [nia|]. assert (e * vs <= (E - 1) * vs) by (apply Z.mul_le_mono_nonneg_r; lia). nia. Qed.

Lemma offset_inj vs E k e k' e' : 0 <= k < vs -> 0 <= k' < vs -> 0 <= e < E -> e * vs + k = e' * vs + k' -> k = k' /\ e = e'.
Proof.
  intros Hk Hk' He H.
  assert (A : e = e').
  { assert (A1 : (e * vs + k) / vs = e) by (rewrite Z.add_comm, Z.div_add by lia; rewrite Z.div_small; lia).
    assert (A2 : (e' * vs + k') / vs = e') by (rewrite Z.add_comm, Z.div_add by lia; rewrite Z.div_small; lia).
    congruence. }
  subst. lia.
Qed.

(** Places of vector [i]. *)
Lemma place_inj vs E i e k i' e' k' : 0 <= k < vs -> 0 <= k' < vs -> 0 <= e < E -> 0 <= e' < E ->
  i * (E * vs) + (e * vs + k) = i' * (E * vs) + (e' * vs + k') -> i = i' /\ e = e' /\ k = k'.
Proof.
  intros Hk Hk' He He' H.
  pose proof (offset_range vs E k e Hk He) as A. pose proof (offset_range vs E k' e' Hk' He') as A'.
  destruct (offset_inj (E * vs) (Z.max i i' + 1 - Z.min i i') (e * vs + k) (i - Z.min i i') (e' * vs + k') (i' - Z.min i i')) as [B C].
  - exact A.
  - exact A'.
  - lia.
  - rewrite !Z.mul_sub_distr_r. lia.
  - destruct (offset_inj vs E k e k' e' Hk Hk' He B) as [D F]. repeat split; lia.
Qed.

Lemma mod_range i vs : 0 < vs -> 0 <= i mod vs < vs.
Proof. intros. apply Z.mod_pos_bound. lia. Qed.

Lemma addr_inj vs E i e i' e' : 0 < vs -> 0 <= e < E -> 0 <= e' < E -> addr vs E i e = addr vs E i' e' -> i = i' /\ e = e'.
Proof.
  intros Hv He He' H. rewrite !addr_vector in H.
  destruct (place_inj vs E (i / vs) e (i mod vs) (i' / vs) e' (i' mod vs)) as [A [B C]]; try assumption; try (apply mod_range; assumption).
  split; [|exact B]. rewrite (Z.div_mod i vs), (Z.div_mod i' vs) by lia. rewrite A, C. reflexivity.
Qed.

Lemma addr_range vs E sites i e : room_for vs E sites -> 0 <= i < sites -> 0 <= e < E -> 0 <= addr vs E i e < sites * E.
Proof.
  intros [Hv [HE [Hs Hm]]] Hi He. rewrite addr_vector.
  pose proof (offset_range vs E (i mod vs) e (mod_range i vs Hv) He) as A.
  assert (B : 0 <= i / vs) by (apply Z.div_pos; lia).
  assert (C : sites = vs * (sites / vs)) by (apply Z.div_exact; lia).
  assert (D : i / vs < sites / vs) by (apply Z.div_lt_upper_bound; lia).
  split; [apply Z.add_nonneg_nonneg; [apply Z.mul_nonneg_nonneg; nia|lia]|].
  assert (F : i / vs * (E * vs) <= (sites / vs - 1) * (E * vs)) by (apply Z.mul_le_mono_nonneg_r; nia).
  replace (sites * E) with (sites / vs * (E * vs)) by (rewrite C at 2; ring).
  rewrite Z.mul_sub_distr_r in F. lia.
Qed.

(** Every place of the array belongs to a site and component. *)
Lemma addr_onto vs E sites p : room_for vs E sites -> 0 <= p < sites * E ->
  exists i e, 0 <= i < sites /\ 0 <= e < E /\ addr vs E i e = p.
Proof.
  intros [Hv [HE [Hs Hm]]] Hp. assert (C : sites = vs * (sites / vs)) by (apply Z.div_exact; lia).
  assert (W : 0 < E * vs) by nia.
  set (a := p / (E * vs)). set (b := p mod (E * vs)).
  assert (Hp' : p = a * (E * vs) + b) by (unfold a, b; pose proof (Z.div_mod p (E * vs)); lia).
  assert (Hb : 0 <= b < E * vs) by (apply Z.mod_pos_bound; exact W).
  assert (Ha : 0 <= a < sites / vs).
  { split; [apply Z.div_pos; lia|]. apply Z.div_lt_upper_bound; [exact W|].
    replace (E * vs * (sites / vs)) with (sites * E) by (rewrite C at 1; ring). lia. }
  exists (a * vs + b mod vs), (b / vs).
  pose proof (mod_range b vs Hv) as Hk.
  assert (D1 : (a * vs + b mod vs) / vs = a) by (rewrite Z.add_comm, Z.div_add by lia; rewrite Z.div_small; lia).
  assert (D2 : (a * vs + b mod vs) mod vs = b mod vs) by (rewrite Z.add_comm, Z.mod_add by lia; rewrite Z.mod_small; lia).
  split; [|split].
  - split; [nia|]. assert (a * vs <= (sites / vs - 1) * vs) by (apply Z.mul_le_mono_nonneg_r; lia). lia.
  - split; [apply Z.div_pos; lia|]. apply Z.div_lt_upper_bound; lia.
  - rewrite addr_vector, D1, D2. rewrite Hp' at 1. pose proof (Z.div_mod b vs). lia.
Qed.
