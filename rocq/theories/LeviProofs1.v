From Coq Require Import ZArith List Arith Lia Permutation Factorial Bool.
From Verif Require Import RandomModel RandomProofs1 LeviModel LeviSpec.
Import ListNotations.
Open Scope nat_scope.

(** ** Signs *)

Lemma filter_length_perm {A} (p : A -> bool) l l' :
  Permutation l l' -> length (filter p l) = length (filter p l').
Proof.
  induction 1 as [|x l l' H IH|x y l|l1 l2 l3 H1 IH1 H2 IH2]; cbn; try lia.
  - destruct (p x); cbn; lia.
  - destruct (p x), (p y); reflexivity.
Qed.

Lemma inversions_tail l1 l2 l2' :
  Permutation l2 l2' ->
  (inversions (l1 ++ l2) + inversions l2' = inversions (l1 ++ l2') + inversions l2)%nat.
Proof.
  intros H. induction l1 as [|a l1 IH]; cbn [app inversions]; [lia|].
  rewrite (filter_length_perm _ (l1 ++ l2) (l1 ++ l2')); [lia|].
  apply Permutation_app_head, H.
Qed.

Lemma even_S n : Nat.even (S n) = negb (Nat.even n).
Proof. rewrite Nat.even_succ, Nat.negb_even. reflexivity. Qed.

Lemma inversions_adjacent a b l :
  a <> b -> Nat.even (inversions (a :: b :: l)) = negb (Nat.even (inversions (b :: a :: l))).
Proof.
  intros H. cbn [inversions filter].
  destruct (Z.ltb_spec b a), (Z.ltb_spec a b); try lia; cbn [length].
  - rewrite <- even_S. f_equal. f_equal. lia.
  - replace (S (length (filter (fun b0 => (b0 <? b)%Z) l)) +
      (length (filter (fun b0 => (b0 <? a)%Z) l) + inversions l))
      with (S (length (filter (fun b0 => (b0 <? a)%Z) l) +
      (length (filter (fun b0 => (b0 <? b)%Z) l) + inversions l))) by lia.
    rewrite even_S, negb_involutive. reflexivity.
Qed.

Lemma even_tail l1 l2 l2' :
  Permutation l2 l2' ->
  xorb (Nat.even (inversions (l1 ++ l2))) (Nat.even (inversions (l1 ++ l2'))) =
  xorb (Nat.even (inversions l2)) (Nat.even (inversions l2')).
Proof.
  intros H. pose proof (inversions_tail l1 l2 l2' H) as E.
  apply (f_equal Nat.even) in E. rewrite !Nat.even_add in E.
  destruct (Nat.even (inversions (l1 ++ l2))), (Nat.even (inversions (l1 ++ l2'))),
    (Nat.even (inversions l2)), (Nat.even (inversions l2')); cbn in *; congruence.
Qed.

Lemma sign_cases p : sign p = 1%Z \/ sign p = (-1)%Z.
Proof. unfold sign. destruct (Nat.even _); auto. Qed.

Lemma sign_flip p q :
  xorb (Nat.even (inversions p)) (Nat.even (inversions q)) = true -> sign p = (- sign q)%Z.
Proof.
  unfold sign. destruct (Nat.even (inversions p)), (Nat.even (inversions q)); cbn; congruence.
Qed.

(** Moving an element across others changes the sign as often. *)
Lemma move_right l1 x mid l :
  NoDup (x :: mid) ->
  xorb (Nat.even (inversions (l1 ++ x :: mid ++ l)))
       (Nat.even (inversions (l1 ++ mid ++ x :: l))) = Nat.odd (length mid).
Proof.
  revert l1; induction mid as [|m mid IH]; intros l1 H.
  - cbn [app]. rewrite xorb_nilpotent. reflexivity.
  - assert (Hx : x <> m) by (inversion H; subst; intros ->; apply H2; left; reflexivity).
    assert (H' : NoDup (x :: mid)).
    { inversion H; subst. inversion H3; subst. constructor; [|assumption].
      intros F; apply H2; right; exact F. }
    cbn [app].
    assert (A : xorb (Nat.even (inversions (l1 ++ x :: m :: mid ++ l)))
                     (Nat.even (inversions (l1 ++ m :: x :: mid ++ l))) = true).
    { rewrite even_tail by apply perm_swap. rewrite inversions_adjacent by exact Hx.
      destruct (Nat.even (inversions (m :: x :: mid ++ l))); reflexivity. }
    specialize (IH (l1 ++ [m]) H'). rewrite <- !app_assoc in IH. cbn [app] in IH.
    cbn [length]. rewrite Nat.odd_succ. pose proof (Nat.negb_odd (length mid)) as O.
    rewrite <- IH in O. rewrite <- O.
    destruct (Nat.even (inversions (l1 ++ x :: m :: mid ++ l))),
      (Nat.even (inversions (l1 ++ m :: x :: mid ++ l))),
      (Nat.even (inversions (l1 ++ m :: mid ++ x :: l))); cbn in *; congruence.
Qed.

(** Exchanging two different elements changes the sign. *)
Lemma swap_sign l1 x mid y l2 :
  NoDup (l1 ++ x :: mid ++ y :: l2) ->
  sign (l1 ++ y :: mid ++ x :: l2) = (- sign (l1 ++ x :: mid ++ y :: l2))%Z.
Proof.
  intros H. apply sign_flip.
  assert (H1 : NoDup (x :: mid ++ y :: l2)).
  { revert H. clear. induction l1 as [|a l1 IH]; [auto|]. intros H. inversion H; auto. }
  assert (Hy : NoDup (y :: mid)).
  { inversion H1; subst. apply NoDup_remove in H4. destruct H4 as [A B].
    constructor; [intros F; apply B, in_or_app; left; exact F|].
    revert A. clear. induction mid as [|a m IH]; [constructor|]. cbn. intros A. inversion A; subst.
    constructor; [intros F; apply H1, in_or_app; left; exact F|auto]. }
  assert (Hx : NoDup (x :: mid)).
  { inversion H1; subst. inversion Hy; subst. constructor; [|assumption].
    intros F. apply H3, in_or_app; left; exact F. }
  assert (Hxy : x <> y).
  { inversion H1; subst. intros ->. apply H3, in_or_app; right; left; reflexivity. }
  (* x mid y l2 -> mid x y l2 -> mid y x l2 -> y mid x l2 *)
  pose proof (move_right l1 x mid (y :: l2) Hx) as M1.
  pose proof (move_right l1 y mid (x :: l2) Hy) as M2.
  assert (M3 : xorb (Nat.even (inversions (l1 ++ mid ++ x :: y :: l2)))
                    (Nat.even (inversions (l1 ++ mid ++ y :: x :: l2))) = true).
  { rewrite !(app_assoc l1 mid). rewrite even_tail by apply perm_swap.
    rewrite inversions_adjacent by exact Hxy.
    destruct (Nat.even (inversions (y :: x :: l2))); reflexivity. }
  destruct (Nat.even (inversions (l1 ++ x :: mid ++ y :: l2))),
    (Nat.even (inversions (l1 ++ y :: mid ++ x :: l2))),
    (Nat.even (inversions (l1 ++ mid ++ x :: y :: l2))),
    (Nat.even (inversions (l1 ++ mid ++ y :: x :: l2))), (Nat.odd (length mid));
    cbn in *; congruence.
Qed.

Lemma sign_identity i n : sign (map Z.of_nat (seq i n)) = 1%Z.
Proof.
  unfold sign. assert (inversions (map Z.of_nat (seq i n)) = 0) as ->; [|reflexivity].
  revert i; induction n as [|n IH]; intros i; [reflexivity|]. cbn [seq map inversions].
  rewrite IH. assert (filter (fun b => (b <? Z.of_nat i)%Z) (map Z.of_nat (seq (S i) n)) = []) as ->;
    [|reflexivity].
  assert (G : forall k, i <= k ->
     filter (fun b => (b <? Z.of_nat i)%Z) (map Z.of_nat (seq k n)) = []); [|apply G; lia].
  clear IH. induction n as [|n IH]; intros k Hk; [reflexivity|]. cbn [seq map filter].
  rewrite (proj2 (Z.ltb_ge _ _)) by lia. apply IH. lia.
Qed.

(** ** One row *)

(** The effect of a vector of steps on a list, written recursively. *)
Fixpoint unrank (ds : list nat) (l : list Z) : list Z :=
  match ds, l with
  | d :: ds', x :: t =>
    match d with
    | O => x :: unrank ds' t
    | S k => nth k t 0%Z :: unrank ds' (put k x t)
    end
  | _, _ => l
  end.

(** Each step stays within the list. *)
Fixpoint valid (ds : list nat) (len : nat) : Prop :=
  match ds with
  | [] => True
  | d :: ds' => d < len /\ valid ds' (len - 1)
  end.

Lemma put_app_r {A} (pre l : list A) k x :
  put (length pre + k) x (pre ++ l) = pre ++ put k x l.
Proof. induction pre as [|a pre IH]; cbn; [reflexivity|]. rewrite IH. reflexivity. Qed.

Lemma put_app_l {A} (l post : list A) k x :
  k < length l -> put k x (l ++ post) = put k x l ++ post.
Proof.
  revert k; induction l as [|a l IH]; intros [|k] H; cbn in *; try lia; [reflexivity|].
  rewrite IH by lia. reflexivity.
Qed.

Lemma put_split {A} (l : list A) k x d :
  k < length l -> exists mid post, l = mid ++ nth k l d :: post /\ length mid = k /\
    put k x l = mid ++ x :: post.
Proof.
  revert k; induction l as [|a l IH]; intros [|k] H; cbn in *; try lia.
  - exists [], l. repeat split.
  - destruct (IH k) as (mid & post & E & L & P); [lia|].
    exists (a :: mid), post. cbn. rewrite P. repeat split; [|lia]. f_equal. exact E.
Qed.

Lemma permute_spec n ds pre l s :
  length (pre ++ l) = n -> NoDup (pre ++ l) -> valid ds (length l) ->
  s = sign (pre ++ l) ->
  permute n (length pre) ds (pre ++ l ++ [s]) =
    Some (pre ++ unrank ds l ++ [sign (pre ++ unrank ds l)]).
Proof.
  revert pre l s; induction ds as [|d ds IH]; intros pre l s Hn Hd Hv Hs.
  - cbn [permute unrank]. destruct l; rewrite Hs; reflexivity.
  - cbn [valid] in Hv. destruct Hv as [Hv1 Hv2].
    destruct l as [|x t]; [cbn in Hv1; lia|]. cbn [length] in *.
    cbn [permute unrank]. destruct d as [|k]; cbn [Nat.eqb].
    + specialize (IH (pre ++ [x]) t s). rewrite <- !app_assoc in IH. cbn [app] in IH.
      assert (Lx : length (pre ++ [x]) = S (length pre)) by (rewrite app_length; cbn; lia).
      rewrite Lx in IH.
      cbn [app]. rewrite IH; [reflexivity|exact Hn|exact Hd| |exact Hs].
      replace (length t) with (S (length t) - 1) by lia. exact Hv2.
    + destruct (put_split t k x 0%Z) as (mid & post & E & L & P); [lia|].
      set (y := nth k t 0%Z) in *.
      assert (X : exchange n (length pre) (length pre + S k) (pre ++ (x :: t) ++ [s]) =
        Some ((pre ++ [y]) ++ put k x t ++ [(- s)%Z])).
      { unfold exchange.
        rewrite nth_error_app2, Nat.sub_diag by lia. cbn [nth_error app].
        rewrite nth_error_app2 by lia. replace (length pre + S k - length pre) with (S k) by lia.
        cbn [nth_error].
        assert (Ny : nth_error (t ++ [s]) k = Some y).
        { rewrite E, <- app_assoc. rewrite nth_error_app2 by lia.
          rewrite L, Nat.sub_diag. reflexivity. }
        rewrite Ny.
        replace (put (length pre) y (pre ++ x :: t ++ [s])) with (pre ++ y :: t ++ [s])
          by (symmetry; rewrite put_app; reflexivity).
        rewrite put_app_r. cbn [put]. rewrite put_app_l by lia.
        rewrite app_length in Hn. cbn [length] in Hn.
        replace n with (length pre + S (length t + 0)) by lia.
        rewrite nth_error_app2 by lia.
        replace (length pre + S (length t + 0) - length pre) with (S (length t + 0)) by lia.
        cbn [nth_error]. rewrite nth_error_app2 by (rewrite put_length; lia).
        rewrite put_length. replace (length t + 0 - length t) with 0 by lia. cbn [nth_error].
        rewrite put_app_r. cbn [put].
        replace (length t) with (length (put k x t)) by apply put_length.
        rewrite put_app_r. cbn [put]. rewrite <- app_assoc. reflexivity. }
      rewrite X.
      assert (Pm : Permutation (pre ++ y :: put k x t) (pre ++ x :: t)).
      { apply Permutation_app_head. rewrite P, E.
        transitivity (x :: y :: mid ++ post).
        - rewrite perm_swap. constructor. symmetry. apply Permutation_middle.
        - constructor. apply Permutation_middle. }
      specialize (IH (pre ++ [y]) (put k x t) (- s)%Z).
      assert (Lx : length (pre ++ [y]) = S (length pre)) by (rewrite app_length; cbn; lia).
      rewrite Lx in IH.
      rewrite <- !app_assoc in IH. cbn [app] in IH. rewrite <- app_assoc. cbn [app].
      rewrite IH; [reflexivity| | | |].
      * rewrite app_length in *. cbn [length] in *. rewrite put_length. lia.
      * apply (Permutation_NoDup (Permutation_sym Pm) Hd).
      * rewrite put_length. replace (length t) with (S (length t) - 1) by lia. exact Hv2.
      * rewrite Hs, P. rewrite E at 1. symmetry. apply swap_sign. rewrite <- E. exact Hd.
Qed.

Lemma unrank_perm ds l : valid ds (length l) -> Permutation (unrank ds l) l.
Proof.
  revert l; induction ds as [|d ds IH]; intros l H; [destruct l; reflexivity|].
  destruct l as [|x t]; [reflexivity|]. cbn [valid length] in H. destruct H as [H1 H2].
  replace (S (length t) - 1) with (length t) in H2 by lia.
  cbn [unrank]. destruct d as [|k]; [constructor; apply IH, H2|].
  destruct (put_split t k x 0%Z) as (mid & post & E & L & P); [lia|].
  rewrite IH by (rewrite put_length; exact H2).
  rewrite P. rewrite E at 2. set (y := nth k t 0%Z).
  transitivity (x :: y :: mid ++ post).
  - rewrite perm_swap. constructor. symmetry. apply Permutation_middle.
  - constructor. apply Permutation_middle.
Qed.

Lemma unrank_inj ds ds' l :
  NoDup l -> length ds = length ds' -> valid ds (length l) -> valid ds' (length l) ->
  unrank ds l = unrank ds' l -> ds = ds'.
Proof.
  revert ds' l; induction ds as [|d ds IH]; intros [|d' ds'] l Hd Hl Hv Hv' H;
    try discriminate; [reflexivity|].
  destruct l as [|x t]; [cbn in Hv; lia|]. cbn [valid length] in Hv, Hv', Hl.
  destruct Hv as [Hv1 Hv2], Hv' as [Hv1' Hv2'].
  replace (S (length t) - 1) with (length t) in * by lia.
  inversion Hd as [|? ? Hx Ht]; subst.
  assert (In_t : forall k, S k < S (length t) -> In (nth k t 0%Z) t).
  { intros k Hk. apply nth_In. lia. }
  cbn [unrank] in H. destruct d as [|k], d' as [|k'].
  - injection H as H. f_equal. apply (IH ds' t); auto.
  - injection H as H _. exfalso. apply Hx. rewrite H. apply In_t. exact Hv1'.
  - injection H as H _. exfalso. apply Hx. rewrite <- H. apply In_t. exact Hv1.
  - injection H as H1 H2.
    assert (k = k').
    { apply (NoDup_nth t 0%Z); [exact Ht|lia|lia|exact H1]. }
    subst k'. f_equal. apply (IH ds' (put k x t)); auto; try (rewrite put_length; assumption).
    destruct (put_split t k x 0%Z) as (mid & post & E & L & P); [lia|].
    rewrite P.
    assert (N : NoDup (x :: t)) by exact Hd. rewrite E in N.
    apply (Permutation_NoDup (l := x :: mid ++ post)); [apply Permutation_middle|].
    inversion N as [|? ? Nx Nt]; subst. apply NoDup_remove in Nt. destruct Nt as [Nt _].
    constructor; [|exact Nt]. intros F. apply Nx. apply in_app_or in F. apply in_or_app.
    destruct F; [left|right; right]; assumption.
Qed.

Lemma unrank_surj l p :
  Permutation p l -> exists ds, length ds = length l /\ valid ds (length l) /\ unrank ds l = p.
Proof.
  remember (length l) as n eqn:Hn. revert l p Hn.
  induction n as [|n IH]; intros l p Hn H.
  - destruct l; [|discriminate]. apply Permutation_sym, Permutation_nil in H. subst.
    exists []. repeat split.
  - destruct l as [|x t]; [discriminate|]. cbn in Hn. injection Hn as Hn.
    destruct p as [|y p]; [apply Permutation_nil in H; discriminate|].
    assert (Hy : In y (x :: t)) by (apply (Permutation_in _ H); left; reflexivity).
    destruct Hy as [->|Hy].
    + apply Permutation_cons_inv in H. destruct (IH t p Hn H) as (ds & A & B & C).
      exists (0 :: ds). cbn. replace (n - 0) with n by lia. rewrite A, C. repeat split; [lia|exact B].
    + destruct (In_nth t y 0%Z Hy) as (k & Hk & Ek).
      destruct (put_split t k x 0%Z) as (mid & post & E & L & P); [exact Hk|].
      rewrite Ek in E.
      assert (H' : Permutation p (put k x t)).
      { apply (Permutation_cons_inv (a := y)). rewrite H, P, E.
        transitivity (x :: y :: mid ++ post).
        - constructor. symmetry. apply Permutation_middle.
        - rewrite perm_swap. constructor. apply Permutation_middle. }
      destruct (IH (put k x t) p) as (ds & A & B & C); [rewrite put_length; exact Hn|exact H'|].
      exists (S k :: ds). cbn. rewrite Nat.sub_0_r, A, C, Ek. repeat split; [lia|exact B].
Qed.

(** ** The counter *)

(** Mixed radix digits of [j]. *)
Fixpoint digits_of (n j : nat) : list nat :=
  match n with
  | O => []
  | S m => j / fact m :: digits_of m (j mod fact m)
  end.

Lemma digits_length n j : length (digits_of n j) = n.
Proof. revert j; induction n as [|n IH]; intros j; [reflexivity|]. cbn. rewrite IH. reflexivity. Qed.

Lemma digits_zero n : digits_of n 0 = repeat 0 n.
Proof.
  induction n as [|n IH]; [reflexivity|]. cbn [digits_of repeat].
  rewrite Nat.div_0_l, Nat.mod_0_l by apply fact_neq_0. rewrite IH. reflexivity.
Qed.

Lemma digits_valid n j : j < fact n -> valid (digits_of n j) n.
Proof.
  revert j; induction n as [|n IH]; intros j H; [exact I|]. cbn [digits_of valid].
  replace (S n - 1) with n by lia. split.
  - apply Nat.div_lt_upper_bound; [apply fact_neq_0|]. cbn [fact] in H. lia.
  - apply IH. apply Nat.mod_upper_bound, fact_neq_0.
Qed.

Lemma digits_inj n j j' : j < fact n -> j' < fact n -> digits_of n j = digits_of n j' -> j = j'.
Proof.
  revert j j'; induction n as [|n IH]; intros j j' H H' E; [cbn in *; lia|].
  cbn [digits_of] in E. injection E as E1 E2.
  apply IH in E2; [|apply Nat.mod_upper_bound, fact_neq_0..].
  rewrite (Nat.div_mod j (fact n)), (Nat.div_mod j' (fact n)) by apply fact_neq_0.
  rewrite E1, E2. reflexivity.
Qed.

Lemma digits_surj n ds :
  length ds = n -> valid ds n -> exists j, j < fact n /\ digits_of n j = ds.
Proof.
  revert ds; induction n as [|n IH]; intros [|d ds] Hl Hv; try discriminate.
  - exists 0. split; [cbn; lia|reflexivity].
  - cbn [valid] in Hv. replace (S n - 1) with n in Hv by lia. destruct Hv as [H1 H2].
    destruct (IH ds) as (j & Hj & E); [cbn in Hl; lia|exact H2|].
    exists (d * fact n + j). split; [cbn [fact]; nia|]. cbn [digits_of].
    rewrite Nat.div_add_l by apply fact_neq_0. rewrite Nat.div_small by exact Hj.
    rewrite (Nat.add_comm (d * fact n) j), Nat.mod_add by apply fact_neq_0.
    rewrite Nat.mod_small by exact Hj.
    rewrite Nat.add_0_r, E. reflexivity.
Qed.

Lemma carry_S n i ind :
  carry n (S i) ind =
  match nth_error ind (S i), nth_error ind i with
  | Some x, Some y =>
    carry n i (if Nat.ltb (n - 1 - S i) x then put i (S y) (put (S i) 0 ind) else ind)
  | _, _ => None
  end.
Proof. reflexivity. Qed.

(** The sweep on a longer vector, down to the second place. *)
Lemma carry_cons n m d rest :
  S m < n -> length rest = n - 1 ->
  carry n (S m) (d :: rest) =
  match carry (n - 1) m rest with
  | Some rest' => carry n 1 (d :: rest')
  | None => None
  end.
Proof.
  revert rest; induction m as [|m IH]; intros rest Hm Hl; [reflexivity|].
  rewrite (carry_S n), (carry_S (n - 1)).
  change (nth_error (d :: rest) (S (S m))) with (nth_error rest (S m)).
  change (nth_error (d :: rest) (S m)) with (nth_error rest m).
  destruct (nth_error rest (S m)) as [x|] eqn:Ex; [|reflexivity].
  destruct (nth_error rest m) as [y|] eqn:Ey; [|reflexivity].
  replace (n - 1 - 1 - S m) with (n - 1 - S (S m)) by lia.
  destruct (Nat.ltb (n - 1 - S (S m)) x).
  - change (put (S m) (S y) (put (S (S m)) 0 (d :: rest)))
      with (d :: put m (S y) (put (S m) 0 rest)).
    rewrite <- IH; [reflexivity|lia|]. rewrite !put_length. exact Hl.
  - rewrite <- IH; [reflexivity|lia|exact Hl].
Qed.

Lemma next_digits n j : next (S n) (digits_of (S n) j) = Some (digits_of (S n) (j + 1)).
Proof.
  revert j; induction n as [|n IH]; intros j.
  - cbn [digits_of next nth_error put carry fact]. rewrite !Nat.div_1_r, Nat.add_1_r.
    reflexivity.
  - unfold next.
    assert (Lr : forall r, length (digits_of (S n) r) = S n) by (intros; apply digits_length).
    change (digits_of (S (S n)) j) with
      (j / fact (S n) :: digits_of (S n) (j mod fact (S n))).
    set (q := j / fact (S n)). set (r := j mod fact (S n)).
    assert (Hr : r < fact (S n)) by (apply Nat.mod_upper_bound, fact_neq_0).
    assert (Hj : j = q * fact (S n) + r).
    { unfold q, r. rewrite Nat.mul_comm. apply Nat.div_mod, fact_neq_0. }
    cbn [nth_error].
    specialize (IH r). unfold next in IH.
    destruct (nth_error (digits_of (S n) r) n) as [x|] eqn:Ex.
    2:{ apply nth_error_None in Ex. rewrite Lr in Ex. lia. }
    cbn [put].
    rewrite carry_cons; [|lia|rewrite put_length, Lr; lia].
    replace (S (S n) - 1) with (S n) by lia.
    rewrite IH.
    set (dr := digits_of (S n) (r + 1)).
    assert (Edr : dr = (r + 1) / fact n :: digits_of n ((r + 1) mod fact n)) by reflexivity.
    rewrite carry_S, Edr. cbn [nth_error carry].
    replace (S (S n) - 1 - 1) with n by lia.
    assert (F : fact (S n) = (S n) * fact n) by reflexivity.
    pose proof (fact_neq_0 n) as F0.
    destruct (Nat.ltb_spec n ((r + 1) / fact n)) as [Hlt|Hge].
    + assert (Er : r + 1 = fact (S n)).
      { assert (S n * fact n <= r + 1); [|lia].
        transitivity ((r + 1) / fact n * fact n); [apply Nat.mul_le_mono_r; lia|].
        rewrite Nat.mul_comm. apply Nat.mul_div_le. exact F0. }
      cbn [put].
      assert (Ej : j + 1 = (q + 1) * fact (S n) + 0) by lia.
      cbn [digits_of]. change (fact n + n * fact n) with (fact (S n)).
      rewrite Ej, Nat.div_add_l by apply fact_neq_0.
      rewrite (Nat.add_comm _ 0), Nat.mod_add by apply fact_neq_0.
      rewrite Nat.div_0_l, Nat.mod_0_l by apply fact_neq_0.
      rewrite Er, F, Nat.mod_mul by exact F0.
      rewrite Nat.div_0_l, Nat.mod_0_l by exact F0.
      do 2 f_equal. lia.
    + assert (Er : r + 1 < fact (S n)).
      { destruct (Nat.lt_ge_cases (r + 1) (fact (S n))) as [?|G]; [assumption|exfalso].
        assert (r + 1 = S n * fact n) as E by lia.
        rewrite E, Nat.div_mul in Hge by exact F0. lia. }
      rewrite <- Edr. unfold dr.
      assert (Ej : j + 1 = q * fact (S n) + (r + 1)) by lia.
      cbn [digits_of]. change (fact n + n * fact n) with (fact (S n)).
      rewrite Ej, Nat.div_add_l by apply fact_neq_0.
      rewrite (Nat.add_comm _ (r + 1)), Nat.mod_add by apply fact_neq_0.
      rewrite (Nat.div_small (r + 1) (fact (S n))), (Nat.mod_small (r + 1) (fact (S n))) by exact Er.
      rewrite Nat.add_0_r. reflexivity.
Qed.

(** ** The table *)

Definition identity (n : nat) : list Z := map Z.of_nat (seq 0 n).

Lemma identity_NoDup n : NoDup (identity n).
Proof.
  unfold identity. apply FinFun.Injective_map_NoDup; [|apply seq_NoDup].
  intros a b H. lia.
Qed.

Lemma identity_length n : length (identity n) = n.
Proof. unfold identity. rewrite map_length, seq_length. reflexivity. Qed.

Definition entry (n j : nat) : list Z := unrank (digits_of n j) (identity n).

(** The last digit plays no part. *)
Lemma unrank_last ds l :
  length ds = length l -> valid ds (length l) -> unrank (firstn (length l - 1) ds) l = unrank ds l.
Proof.
  revert l; induction ds as [|d ds IH]; intros [|x t] Hl Hv; try discriminate; [reflexivity|].
  cbn [valid length] in *. destruct Hv as [H1 H2]. rewrite Nat.sub_succ, Nat.sub_0_r in *.
  destruct t as [|y t].
  - cbn. destruct ds; [|discriminate]. assert (d = 0) as -> by (cbn in H1; lia). reflexivity.
  - cbn [length]. cbn [firstn unrank]. destruct d as [|k].
    + f_equal. rewrite <- (IH (y :: t)); [|cbn in *; lia|exact H2]. cbn [length].
      rewrite Nat.sub_succ, Nat.sub_0_r. reflexivity.
    + f_equal. rewrite <- (IH (put k x (y :: t))).
      * rewrite put_length. cbn [length]. rewrite Nat.sub_succ, Nat.sub_0_r. reflexivity.
      * rewrite put_length. cbn in *. lia.
      * rewrite put_length. exact H2.
Qed.

Lemma valid_firstn k ds len : valid ds len -> valid (firstn k ds) len.
Proof.
  revert ds len; induction k as [|k IH]; intros [|d ds] len H; cbn in *; auto.
  destruct H; auto.
Qed.

Lemma row_digits n j :
  j < fact n -> row n (digits_of n j) = Some (entry n j ++ [sign (entry n j)]).
Proof.
  intros H. unfold row, first_row. fold (identity n).
  pose proof (permute_spec n (firstn (n - 1) (digits_of n j)) [] (identity n) 1%Z) as P.
  cbn [app length] in P. rewrite P; [|apply identity_length|apply identity_NoDup| |].
  - assert (E : unrank (firstn (n - 1) (digits_of n j)) (identity n) = entry n j).
    { rewrite <- (identity_length n) at 1. apply unrank_last.
      - rewrite digits_length, identity_length. reflexivity.
      - rewrite identity_length. apply digits_valid, H. }
    rewrite E. reflexivity.
  - rewrite identity_length. apply valid_firstn, digits_valid, H.
  - symmetry. apply sign_identity.
Qed.

Lemma rows_spec n c j :
  j + c <= fact (S n) ->
  rows (S n) c (digits_of (S n) j) =
    Some (map (fun i => entry (S n) i ++ [sign (entry (S n) i)]) (seq j c)).
Proof.
  revert j; induction c as [|c IH]; intros j H; [reflexivity|].
  cbn [rows]. rewrite row_digits by lia. rewrite next_digits, IH by lia.
  cbn [seq map]. rewrite Nat.add_1_r. reflexivity.
Qed.

Lemma table_spec n :
  table (S n) =
    Some (map (fun i => entry (S n) i ++ [sign (entry (S n) i)]) (seq 0 (fact (S n)))).
Proof. unfold table. rewrite <- digits_zero. apply rows_spec. lia. Qed.
