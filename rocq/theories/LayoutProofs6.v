(** What the two passes of create_std_gathers compute. *)
From Verif Require Import Common LayoutModel LayoutSpec LayoutProofs1 LayoutProofs2
  LayoutProofs4 LayoutProofs5.

Definition cnt {A} (p : A -> bool) (l : list A) : Z := Z.of_nat (length (filter p l)).

Lemma cnt_cons : forall A (p : A -> bool) x l, cnt p (x :: l) = (if p x then 1 else 0) + cnt p l.
Proof. intros. unfold cnt. cbn [filter]. destruct (p x); cbn [length]; lia. Qed.

Lemma cnt_nonneg : forall A (p : A -> bool) l, 0 <= cnt p l.
Proof. unfold cnt. intros. lia. Qed.

Lemma cnt_split : forall A (p q : A -> bool) l,
  cnt (fun x => p x && q x) l + cnt (fun x => p x && negb (q x)) l = cnt p l.
Proof.
  induction l; auto. rewrite !cnt_cons. destruct (p a), (q a); cbn [andb negb]; lia.
Qed.

Section Passes.
  Variables (lat : lattice) (rank : Z) (ni : node_info) (crd : Z -> list Z) (d : Z).

  Let nb i := neighbour lat (crd i) d.
  Let offi i := negb (is_on_node ni (nb i)).
  Let ev i := even_site (crd i).
  Let evn i := even_site (nb i).

  Lemma pass1_spec : forall is s, NoDup is ->
    let r := fold_left (pass1_step lat rank ni crd d) is s in
    (forall i, p1_neighb r i =
       if in_dec Z.eq_dec i is then (if offi i then volume ni else site_index ni (nb i))
       else p1_neighb s i) /\
    p1_from_even r = p1_from_even s + cnt (fun i => offi i && ev i) is /\
    p1_from_odd r = p1_from_odd s + cnt (fun i => offi i && negb (ev i)) is /\
    p1_to_even r = p1_to_even s + cnt (fun i => offi i && evn i) is /\
    p1_to_odd r = p1_to_odd s + cnt (fun i => offi i && negb (evn i)) is.
  Proof.
    induction is as [|i is IH]; intros s Hn.
    - cbn. unfold cnt. cbn. repeat split; auto; try lia.
    - inversion Hn; subst. cbn [fold_left].
      specialize (IH (pass1_step lat rank ni crd d s i) H2). cbv zeta in IH |- *.
      destruct IH as (E1 & E2 & E3 & E4 & E5).
      rewrite E2, E3, E4, E5. rewrite !cnt_cons.
      assert (Hstep : pass1_step lat rank ni crd d s i =
        if offi i then
          mkPass1 (zupd (p1_neighb s) i (volume ni))
            (if p1_rank s =? rank then node_rank lat (nb i) else p1_rank s)
            (p1_from_even s + if ev i then 1 else 0) (p1_from_odd s + if ev i then 0 else 1)
            (p1_to_even s + if evn i then 1 else 0) (p1_to_odd s + if evn i then 0 else 1)
        else mkPass1 (zupd (p1_neighb s) i (site_index ni (nb i))) (p1_rank s)
            (p1_from_even s) (p1_from_odd s) (p1_to_even s) (p1_to_odd s)).
      { unfold pass1_step, offi, nb, ev, evn. destruct (is_on_node _ _); auto. }
      split.
      + intros j. rewrite E1. rewrite Hstep.
        destruct (in_dec Z.eq_dec j is), (in_dec Z.eq_dec j (i :: is)); auto.
        * exfalso. simpl in n. tauto.
        * destruct i0 as [->|]; [|tauto]. destruct (offi j); cbn [p1_neighb]; apply zupd_same.
        * destruct (offi i); cbn [p1_neighb]; apply zupd_other; intros ->; apply n0; simpl; auto.
      + rewrite Hstep. destruct (offi i), (ev i), (evn i); cbn [andb negb p1_from_even p1_from_odd p1_to_even p1_to_odd]; repeat split; lia.
  Qed.

  (** If all off-node neighbours are on one rank R, that rank is recorded. *)
  Lemma pass1_rank : forall R is s,
    (forall i, In i is -> offi i = true -> node_rank lat (nb i) = R) -> R <> rank ->
    p1_rank s = rank \/ p1_rank s = R ->
    p1_rank (fold_left (pass1_step lat rank ni crd d) is s) =
      if existsb offi is then R else p1_rank s.
  Proof.
    intros R. induction is as [|i is IH]; intros s HR Hne Hs; [auto|]. cbn [fold_left existsb].
    rewrite IH; auto.
    - unfold pass1_step. fold (nb i). unfold offi at 2. destruct (is_on_node ni (nb i)) eqn:E.
      + cbn [negb orb p1_rank]. auto.
      + cbn [negb orb p1_rank]. rewrite HR by (simpl; auto; unfold offi; rewrite E; auto).
        destruct (existsb offi is); auto. destruct Hs as [->|Hs]; [rewrite Z.eqb_refl; auto|].
        destruct (Z.eqb_spec (p1_rank s) rank); auto.
    - intros. apply HR; simpl; auto.
    - unfold pass1_step. fold (nb i). destruct (is_on_node ni (nb i)) eqn:E; cbn [p1_rank]; auto.
      rewrite HR by (simpl; auto; unfold offi; rewrite E; auto).
      destruct (p1_rank s =? rank); auto.
  Qed.

  Lemma pass1_rank_none : forall is s, (forall i, In i is -> offi i = false) ->
    p1_rank (fold_left (pass1_step lat rank ni crd d) is s) = p1_rank s.
  Proof.
    induction is as [|i is IH]; intros s H; [auto|]. cbn [fold_left]. rewrite IH.
    - unfold pass1_step. fold (nb i). assert (E := H i (or_introl eq_refl)). unfold offi in E.
      destruct (is_on_node ni (nb i)); [auto|discriminate].
    - intros. apply H. simpl. auto.
  Qed.

  Variable (c_offset : Z) (p1 : pass1).

  Lemma pass2_spec : forall is s, NoDup is ->
    (forall i, In i is -> (p2_neighb s i =? volume ni) = offi i) ->
    0 <= p2_to_even s -> 0 <= p2_to_odd s ->
    p2_to_even s + cnt (fun i => offi i && evn i) is <= p1_to_even p1 ->
    let r := fold_left (pass2_step lat ni crd d c_offset p1) is s in
    (forall i, ~ (In i is /\ offi i = true) -> p2_neighb r i = p2_neighb s i) /\
    map (p2_neighb r) (filter (fun i => offi i && ev i) is) =
      zrange (c_offset + p2_from_even s) (length (filter (fun i => offi i && ev i) is)) /\
    map (p2_neighb r) (filter (fun i => offi i && negb (ev i)) is) =
      zrange (c_offset + p1_from_even p1 + p2_from_odd s)
             (length (filter (fun i => offi i && negb (ev i)) is)) /\
    map (p2_sitelist r) (zrange (p2_to_even s) (length (filter (fun i => offi i && evn i) is))) =
      filter (fun i => offi i && evn i) is /\
    map (p2_sitelist r) (zrange (p1_to_even p1 + p2_to_odd s)
                                (length (filter (fun i => offi i && negb (evn i)) is))) =
      filter (fun i => offi i && negb (evn i)) is /\
    (forall k, k < p2_to_even s -> p2_sitelist r k = p2_sitelist s k) /\
    (forall k, p2_to_even s + cnt (fun i => offi i && evn i) is <= k < p1_to_even p1 + p2_to_odd s ->
       p2_sitelist r k = p2_sitelist s k).
  Proof.
    induction is as [|i is IH]; intros s Hn Hnb H0e H0o Hle.
    - cbn. repeat split; auto.
    - inversion Hn; subst. cbn [fold_left]. rewrite cnt_cons in Hle.
      assert (Hce := cnt_nonneg _ (fun i => offi i && evn i) is).
      assert (Hle2 : p2_to_even s + cnt (fun i => offi i && evn i) is <= p1_to_even p1)
        by (cbv beta in Hle; destruct (offi i && evn i); lia).
      assert (Hstep : pass2_step lat ni crd d c_offset p1 s i =
        if offi i then
          mkPass2 (zupd (p2_neighb s) i (if ev i then c_offset + p2_from_even s
                                         else c_offset + p1_from_even p1 + p2_from_odd s))
            (p2_from_even s + if ev i then 1 else 0) (p2_from_odd s + if ev i then 0 else 1)
            (p2_to_even s + if evn i then 1 else 0) (p2_to_odd s + if evn i then 0 else 1)
            (zupd (p2_sitelist s) (if evn i then p2_to_even s else p2_to_odd s + p1_to_even p1) i)
        else s).
      { unfold pass2_step. rewrite Hnb by (simpl; auto). destruct (offi i); auto.
        fold (nb i). fold (ev i). fold (evn i). destruct (ev i), (evn i); auto. }
      set (s1 := pass2_step lat ni crd d c_offset p1 s i) in *.
      assert (Hs1 : (forall j, In j is -> (p2_neighb s1 j =? volume ni) = offi j) /\
        0 <= p2_to_even s1 /\ 0 <= p2_to_odd s1 /\
        p2_to_even s1 + cnt (fun i => offi i && evn i) is <= p1_to_even p1).
      { rewrite Hstep. destruct (offi i) eqn:Eo.
        - cbn [p2_neighb p2_to_even p2_to_odd]. repeat split.
          + intros j Hj. rewrite zupd_other by (intros ->; tauto). apply Hnb. simpl; auto.
          + destruct (evn i); lia.
          + destruct (evn i); lia.
          + destruct (evn i); cbn [andb] in Hle; lia.
        - repeat split; auto. intros. apply Hnb. simpl; auto. }
      destruct Hs1 as (Hs1a & Hs1b & Hs1c & Hs1d).
      specialize (IH s1 H2 Hs1a Hs1b Hs1c Hs1d). cbv zeta in IH |- *.
      set (r := fold_left (pass2_step lat ni crd d c_offset p1) is s1) in *.
      destruct IH as (A1 & A2 & A3 & A4 & A5 & A6 & A7).
      cbn [filter]. rewrite cnt_cons.
      assert (Ai : p2_neighb r i = p2_neighb s1 i) by (apply A1; tauto).
      destruct (offi i) eqn:Eo; cbn [andb].
      + assert (Hnbr : forall j, ~ (In j (i :: is) /\ offi j = true) -> p2_neighb r j = p2_neighb s j).
        { intros j Hj. rewrite A1 by (simpl in Hj; tauto). rewrite Hstep. cbn [p2_neighb].
          apply zupd_other. intros ->. apply Hj. split; [simpl; auto|auto]. }
        assert (Hi1 : p2_neighb r i = if ev i then c_offset + p2_from_even s
                                         else c_offset + p1_from_even p1 + p2_from_odd s).
        { rewrite Ai, Hstep. apply zupd_same. }
        rewrite Hstep in A2, A3, A4, A5, A6, A7.
        cbn [p2_from_even p2_from_odd p2_to_even p2_to_odd p2_sitelist p2_neighb] in A2, A3, A4, A5, A6, A7.
        split; [exact Hnbr|].
        split; [|split].
        * destruct (ev i); cbn [map length zrange].
          -- f_equal; [exact Hi1|]. rewrite A2. f_equal. lia.
          -- rewrite A2. f_equal. lia.
        * destruct (ev i); cbn [map length zrange negb].
          -- rewrite A3. f_equal. lia.
          -- f_equal; [exact Hi1|]. rewrite A3. f_equal. lia.
        * destruct (evn i); cbn [map length zrange negb].
          -- split; [|split; [|split]].
             ++ f_equal; [|exact A4]. rewrite A6 by lia. apply zupd_same.
             ++ rewrite <- A5 at 2. do 2 f_equal. lia.
             ++ intros k Hk. rewrite A6 by lia. apply zupd_other. lia.
             ++ intros k Hk. rewrite A7 by lia. apply zupd_other. lia.
          -- split; [|split; [|split]].
             ++ rewrite <- A4 at 2. do 2 f_equal. lia.
             ++ f_equal.
                ** rewrite A7 by lia. rewrite Z.add_comm. apply zupd_same.
                ** rewrite <- A5 at 2. do 2 f_equal. lia.
             ++ intros k Hk. rewrite A6 by lia. apply zupd_other. lia.
             ++ intros k Hk. rewrite A7 by lia. apply zupd_other. lia.
      + rewrite Hstep in *. cbn [andb] in *. split; [|split; [|split; [|split; [|split; [|split]]]]]; auto.
        intros j Hj. apply A1. intros [Hj1 Hj2]. apply Hj. simpl. auto.
  Qed.
End Passes.
