(** Reading the buffer. *)
From Verif Require Import Common RandomModel RandomProofs1 SrcbufModel SrcbufSpec SrcbufProofs1.
Open Scope nat_scope.

Lemma skipn_cons {A : Type} (l : list A) j x : nth_error l j = Some x -> skipn j l = x :: skipn (S j) l.
Proof.
  revert j. induction l as [|a l IH]; intros [|j] H; try discriminate.
  - injection H as ->. reflexivity.
  - cbn [skipn nth_error] in *. rewrite (IH j H). reflexivity.
Qed.

Lemma show_cons c cs ch chs : show (c :: cs) (ch :: chs) = show1 (c, ch) ++ show cs chs.
Proof. reflexivity. Qed.

Definition is_gone (c : cell) : bool := match c with mkCell None false => true | _ => false end.

Fixpoint tail_blank (sk : bool) (cs : list cell) : text :=
  match cs with [] => if sk then [blank] else [] | c :: cs' => tail_blank (is_gone c) cs' end.

Section Reading.
Variable st : srcbuf.
Variable cells : list cell.
Hypothesis T : table_ok (ext_ind st) (extents st) (free_ext st) cells.
Hypothesis Hbuf : length cells <= length (buf st).

Lemma at_place j : j < length cells -> exists e c ch, nth_error (ext_ind st) j = Some e /\ nth_error cells j = Some c /\
  nth_error (buf st) j = Some ch /\ cell_of (extents st) e = Some c.
Proof.
  intros H. pose proof (t_len _ _ _ _ T) as Hl.
  destruct (nth_error (ext_ind st) j) as [e|] eqn:He; [|apply nth_error_None in He; lia].
  destruct (nth_error cells j) as [c|] eqn:Hc; [|apply nth_error_None in Hc; lia].
  destruct (nth_error (buf st) j) as [ch|] eqn:Hch; [|apply nth_error_None in Hch; lia].
  exists e, c, ch. repeat split; try reflexivity. exact (t_cell _ _ _ _ T j e c He Hc).
Qed.

Definition rest (n j : nat) : text := show (firstn n (skipn j cells)) (skipn j (buf st)).

Lemma rest_S n j c ch : nth_error cells j = Some c -> nth_error (buf st) j = Some ch -> rest (S n) j = show1 (c, ch) ++ rest n (S j).
Proof. intros Hc Hch. unfold rest. rewrite (skipn_cons _ _ _ Hc), (skipn_cons _ _ _ Hch). cbn [firstn]. apply show_cons. Qed.

Lemma range_size_rest : forall n j, j + n <= length cells -> range_size st n j = Some (Z.of_nat (length (rest n j))).
Proof.
  induction n as [|n IH]; intros j Hj; [reflexivity|].
  destruct (at_place j) as [e [c [ch [He [Hc [Hch Hec]]]]]]; [lia|]. cbn [range_size]. rewrite He. cbn [bind].
  rewrite (rest_S n j c ch Hc Hch), app_length. rewrite (IH (S j)) by lia. cbn [bind].
  destruct (has_slot e) eqn:S1.
  - destruct (cell_of_slot _ _ _ Hec S1) as [s [Hs ->]]. rewrite Hs. cbn [bind]. unfold show1. cbn [fst snd before kept]. rewrite app_length.
    destruct (0 <? e)%Z; cbn [length]; f_equal; lia.
  - cbn [bind]. destruct (cell_of_plain _ _ _ Hec S1) as [[-> ->]|[-> ->]]; cbn [show1 fst snd before kept gone app length Z.ltb Z.compare]; f_equal; lia.
Qed.

Lemma firstn_exact {A : Type} (n : nat) (l l' : list A) : length l = n -> firstn n (l ++ l') = l.
Proof. intros <-. rewrite firstn_app, Nat.sub_diag, firstn_all. cbn [firstn]. apply app_nil_r. Qed.

Lemma walk_within len : forall n j sk out,
  j + n <= length cells -> length out <= len <= length out + length (rest n j) -> (sk = true -> length out < len) ->
  walk st len n j sk out = Some (firstn len (out ++ rest n j)).
Proof.
  induction n as [|n IH]; intros j sk out Hj Hlen Hsk.
  - cbn [walk]. change (rest 0 j) with (@nil Z) in *. cbn [length] in Hlen. destruct sk; [specialize (Hsk eq_refl); lia|].
    rewrite firstn_exact by lia. reflexivity.
  - destruct (at_place j) as [e [c [ch [He [Hc [Hch Hec]]]]]]; [lia|]. cbn [walk].
    destruct (sk || (length out <? len)) eqn:Hgo.
    + assert (Hlt : length out < len).
      { apply orb_true_iff in Hgo. destruct Hgo as [H|H]; [apply Hsk; exact H|apply Nat.ltb_lt; exact H]. }
      rewrite He. cbn [bind]. rewrite (rest_S n j c ch Hc Hch) in *. rewrite app_length in Hlen.
      destruct (has_slot e) eqn:S1.
      * destruct (cell_of_slot _ _ _ Hec S1) as [s [Hs ->]]. pose proof (has_slot_abs _ S1) as Ha.
        destruct (Z.eqb_spec e 0); [lia|]. destruct (Z.eqb_spec e 1); [lia|]. rewrite Hs. cbn [bind].
        unfold show1 in *. cbn [fst snd before kept] in *. rewrite app_length in Hlen.
        destruct (Nat.leb_spec (length out + length s) len) as [Hfit|Hfit].
        -- rewrite firstn_all2 by lia. rewrite app_length. destruct (Nat.ltb_spec (length out + length s) len) as [Hroom|Hroom].
           ++ destruct (0 <? e)%Z; cbn [andb].
              ** rewrite Hch. cbn [bind]. cbn [length] in Hlen. rewrite IH; [|lia|rewrite !app_length; cbn [length]; lia|discriminate].
                 f_equal. f_equal. rewrite <- !app_assoc. reflexivity.
              ** cbn [length] in Hlen. rewrite IH; [|lia|rewrite app_length; lia|discriminate]. f_equal. f_equal. rewrite <- !app_assoc. reflexivity.
           ++ cbn [andb]. rewrite IH; [|lia|rewrite app_length; lia|discriminate]. rewrite firstn_exact by (rewrite app_length; lia).
              rewrite <- !app_assoc. rewrite (app_assoc out). rewrite firstn_exact by (rewrite app_length; lia). reflexivity.
        -- rewrite app_length, firstn_length. replace (Nat.min (len - length out) (length s)) with (len - length out) by lia.
           replace (length out + (len - length out) <? len) with false by (symmetry; apply Nat.ltb_ge; lia). cbn [andb].
           assert (Hl1 : length (out ++ firstn (len - length out) s) = len) by (rewrite app_length, firstn_length; lia).
           rewrite IH; [|lia|lia|discriminate]. rewrite firstn_exact by exact Hl1.
           rewrite <- (firstn_skipn (len - length out) s) at 2. rewrite <- !app_assoc. rewrite (app_assoc out). rewrite firstn_exact by exact Hl1. reflexivity.
      * destruct (cell_of_plain _ _ _ Hec S1) as [[-> ->]|[-> ->]].
        -- cbn [Z.eqb]. unfold show1, gone in *. cbn [fst snd before kept app length] in *. apply IH; [lia|lia|intros _; exact Hlt].
        -- cbn [Z.eqb Pos.eqb]. rewrite Hch. cbn [bind]. unfold show1 in *. cbn [fst snd before kept app length] in *.
           rewrite IH; [|lia|rewrite app_length; cbn [length]; lia|discriminate]. f_equal. f_equal. rewrite <- app_assoc. reflexivity.
    + apply orb_false_iff in Hgo. destruct Hgo as [_ Hge]. apply Nat.ltb_ge in Hge. rewrite firstn_exact by lia. reflexivity.
Qed.

Lemma walk_beyond len : forall n j sk out,
  j + n <= length cells -> length out + length (rest n j) < len ->
  walk st len n j sk out = Some (out ++ rest n j ++ tail_blank sk (firstn n (skipn j cells))).
Proof.
  induction n as [|n IH]; intros j sk out Hj Hlen.
  - cbn [walk firstn tail_blank]. change (rest 0 j) with (@nil Z) in *. destruct sk; [reflexivity|]. cbn [app]. rewrite app_nil_r. reflexivity.
  - destruct (at_place j) as [e [c [ch [He [Hc [Hch Hec]]]]]]; [lia|]. cbn [walk].
    rewrite (skipn_cons _ _ _ Hc). cbn [firstn tail_blank].
    rewrite (rest_S n j c ch Hc Hch) in *. rewrite app_length in Hlen.
    replace (sk || (length out <? len)) with true by (symmetry; apply orb_true_iff; right; apply Nat.ltb_lt; lia).
    rewrite He. cbn [bind].
    destruct (has_slot e) eqn:S1.
    + destruct (cell_of_slot _ _ _ Hec S1) as [s [Hs ->]]. pose proof (has_slot_abs _ S1) as Ha.
      destruct (Z.eqb_spec e 0); [lia|]. destruct (Z.eqb_spec e 1); [lia|]. rewrite Hs. cbn [bind].
      unfold show1 in *. cbn [fst snd before kept] in *. rewrite app_length in Hlen. rewrite firstn_all2 by lia. rewrite app_length.
      replace (length out + length s <? len) with true by (symmetry; apply Nat.ltb_lt; lia). cbn [andb is_gone].
      destruct (0 <? e)%Z.
      * rewrite Hch. cbn [bind]. cbn [length] in Hlen. rewrite IH; [|lia|rewrite !app_length; cbn [length]; lia]. rewrite <- !app_assoc. reflexivity.
      * cbn [length] in Hlen. rewrite IH; [|lia|rewrite !app_length; lia]. rewrite app_nil_r, <- !app_assoc. reflexivity.
    + destruct (cell_of_plain _ _ _ Hec S1) as [[-> ->]|[-> ->]].
      * cbn [Z.eqb]. unfold show1, gone in *. cbn [fst snd before kept app length is_gone] in *. apply IH; lia.
      * cbn [Z.eqb Pos.eqb]. rewrite Hch. cbn [bind is_gone]. unfold show1 in *. cbn [fst snd before kept app length] in *.
        rewrite IH; [|lia|rewrite app_length; cbn [length]; lia]. rewrite <- app_assoc. reflexivity.
Qed.
End Reading.

Lemma tail_blank_rev : forall cs sk, tail_blank sk cs = match rev cs with [] => if sk then [blank] else [] | mkCell None false :: _ => [blank] | _ => [] end.
Proof.
  induction cs as [|c cs IH] using rev_ind; intros sk; [reflexivity|].
  rewrite rev_app_distr. cbn [rev app].
  assert (X : forall l sk, tail_blank sk (l ++ [c]) = if is_gone c then [blank] else []).
  { induction l as [|a l IHl]; intros sk0; [reflexivity|]. cbn [app tail_blank]. apply IHl. }
  rewrite X. destruct c as [[s|] [|]]; reflexivity.
Qed.

Lemma show_app cs1 cs2 chs : show (cs1 ++ cs2) chs = show cs1 chs ++ show cs2 (skipn (length cs1) chs).
Proof.
  revert chs. induction cs1 as [|c cs1 IH]; intros chs; [reflexivity|]. destruct chs as [|ch chs].
  - cbn [app length skipn]. unfold show. cbn [combine flat_map app]. destruct cs2; reflexivity.
  - cbn [app length skipn]. rewrite !show_cons, IH, <- app_assoc. reflexivity.
Qed.

Lemma show_chars cs chs more : length cs <= length chs -> show cs (chs ++ more) = show cs chs.
Proof.
  revert chs. induction cs as [|c cs IH]; intros [|ch chs] H; cbn [length] in H; try lia; [reflexivity|reflexivity|].
  cbn [app]. rewrite !show_cons, IH by lia. reflexivity.
Qed.
