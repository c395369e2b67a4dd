(** Proofs about the weight files. *)
From Coq Require Import QArith Qabs Qpower String Lqa.
From Verif Require Import Common RandomModel RandomProofs1 SrcbufModel WordsModel WordsSpec WordsProofs1 CmdargsModel MucaModel MucaProofs1 DecimalModel DecimalProofs1 DecimalProofs2 MucafileModel MucafileSpec.
Open Scope list_scope.
Open Scope nat_scope.

(** *** One number *)

Definition reads (x y : Q) : Prop := forall rest, ends_number rest -> scan_float (print_e x ++ rest) = Some (Some (y, rest)).

Lemma fits_reads : forall x, fits x -> exists y, reads x y /\ close x y.
Proof.
  intros x Hx.
  assert (Hp : (x == 0)%Q \/ ((qpow 10 (-300) <= qabs x)%Q /\ (qabs x < qpow 10 300)%Q)).
  { destruct Hx as [H|[H1 H2]]; [left; exact H|right]. rewrite <- qabs_Qabs in H1, H2. split.
    - apply (Qle_trans _ (qpow 10 (-37))); [apply qpow_le; lia|exact H1].
    - apply (Qle_lt_trans _ (qpow 10 38)); [exact H2|]. reflexivity. }
  destruct (print_spec x Hp) as [neg [m [e [w [P1 [P2 [P3 [P4 P5]]]]]]]]. cbv zeta in P5.
  set (v := (if neg then - (inject_Z m * qpow 10 (e - 6)) else inject_Z m * qpow 10 (e - 6))%Q) in *.
  assert (S : forall rest, ends_number rest -> scan_e (print_e x ++ rest) = Some (v, rest)).
  { intros rest Hr. rewrite P1. apply scan_number; assumption. }
  assert (F : exists y, to_float v = Some y /\ close x y).
  { destruct Hx as [H|[H1 H2]].
    - assert (Hq : (qabs x == 0)%Q) by (destruct (qabs_cases x) as [[G E]|[G E]]; rewrite E; lra).
      rewrite Hq in P5. assert (Hv : (v == 0)%Q) by lra. exists 0%Q. split; [apply to_float_zero; exact Hv|].
      unfold close. apply Qabs_Qle_condition. rewrite H. change (Qabs 0) with 0%Q. split; lra.
    - rewrite <- qabs_Qabs in H1, H2. unfold half_digit in P5.
      assert (B1 : (qpow 2 (-126) <= qabs v)%Q).
      { assert (G : (qpow 2 (-126) <= (9 # 10) * qpow 10 (-37))%Q) by (apply qle_iff; vm_compute; reflexivity).
        destruct (qabs_cases x) as [[G1 E1]|[G1 E1]]; destruct (qabs_cases v) as [[G2 E2]|[G2 E2]]; rewrite E1 in *; rewrite E2; lra. }
      assert (B2 : (qabs v < qpow 2 127)%Q).
      { assert (G : ((11 # 10) * qpow 10 38 < qpow 2 127)%Q) by (apply qlt_iff; vm_compute; reflexivity).
        destruct (qabs_cases x) as [[G1 E1]|[G1 E1]]; destruct (qabs_cases v) as [[G2 E2]|[G2 E2]]; rewrite E1 in *; rewrite E2; lra. }
      destruct (to_float_spec v B1 B2) as [y [F1 [F2 F3]]]. exists y. split; [exact F1|].
      unfold close. apply Qabs_Qle_condition. rewrite <- qabs_Qabs.
      destruct (qabs_cases x) as [[G1 E1]|[G1 E1]]; destruct (qabs_cases v) as [[G2 E2]|[G2 E2]]; rewrite E1 in *; rewrite E2 in *; split; lra. }
  destruct F as [y [F1 F2]]. exists y. split; [|exact F2]. intros rest Hr. unfold scan_float. rewrite (S rest Hr), F1. reflexivity.
Qed.

(** *** The characters of a printed number *)

Definition plain (c : Z) : Prop := (43 <= c <= 57 \/ c = 101)%Z.
Lemma digits_plain : forall k n, Forall plain (digits k n).
Proof.
  induction k as [|k IH]; intros n; cbn [digits]; [constructor|]. apply Forall_app. split; [apply IH|]. constructor; [|constructor].
  unfold plain. pose proof (Z.mod_pos_bound n 10 ltac:(lia)). lia.
Qed.
Lemma number_plain : forall neg m e w, Forall plain (number_text neg m e w).
Proof.
  assert (A : forall c, plain c -> Forall plain [c]) by (intros c H; constructor; [exact H|constructor]).
  intros neg m e w. unfold number_text. change (str "-") with [45%Z]. change (str ".") with [46%Z]. change (str "e") with [101%Z]. change (str "+") with [43%Z].
  rewrite !Forall_app. unfold plain in A.
  split; [destruct neg; [apply A; lia|constructor]|]. split; [apply digits_plain|]. split; [apply A; lia|]. split; [apply digits_plain|].
  split; [apply A; lia|]. split; [destruct (e <? 0)%Z; apply A; lia|apply digits_plain].
Qed.
Lemma fits_plain : forall x, fits x -> Forall plain (print_e x) /\ print_e x <> [].
Proof.
  intros x Hx.
  assert (Hp : (x == 0)%Q \/ ((qpow 10 (-300) <= qabs x)%Q /\ (qabs x < qpow 10 300)%Q)).
  { destruct Hx as [H|[H1 H2]]; [left; exact H|right]. rewrite <- qabs_Qabs in H1, H2. split.
    - apply (Qle_trans _ (qpow 10 (-37))); [apply qpow_le; lia|exact H1].
    - apply (Qle_lt_trans _ (qpow 10 38)); [exact H2|]. reflexivity. }
  destruct (print_spec x Hp) as [neg [m [e [w [P1 _]]]]]. rewrite P1. split; [apply number_plain|].
  unfold number_text. intros H. apply app_eq_nil in H. destruct H as [_ H]. apply app_eq_nil in H. destruct H as [H _]. discriminate H.
Qed.

(** *** Lines *)

Lemma getlines_line : forall l s cur, ~ In newline l -> getlines (l ++ newline :: s) cur = (cur ++ l) :: getlines s [].
Proof.
  induction l as [|c l IH]; intros s cur H; cbn [app getlines].
  - rewrite Z.eqb_refl. rewrite app_nil_r. reflexivity.
  - rewrite (proj2 (Z.eqb_neq c newline)) by (intros E; apply H; left; exact E). rewrite IH by (intros G; apply H; right; exact G). rewrite <- app_assoc. reflexivity.
Qed.
Lemma getlines_text : forall ls, Forall (fun l => ~ In newline l) ls -> getlines (as_text ls) [] = ls.
Proof.
  induction ls as [|l ls IH]; intros H; [reflexivity|]. inversion H as [|? ? H1 H2]; subst. unfold as_text. cbn [map concat]. rewrite <- app_assoc. cbn [app].
  rewrite getlines_line by exact H1. cbn [app]. f_equal. apply IH. exact H2.
Qed.

Lemma keyword_free : forall l, (forall i, ~ occurs l (str "OP_value") i) -> keyword_line l = false.
Proof.
  intros l H. unfold keyword_line. destruct (find l (str "OP_value") 0) as [k|] eqn:E; [|reflexivity].
  apply find_spec in E. destruct E as [E _]. exfalso. exact (H k E).
Qed.

Lemma not_in_keyword_free : forall l, ~ In 79%Z l -> keyword_line l = false.
Proof.
  intros l H. apply keyword_free. intros i [a [b [E _]]]. apply H. rewrite E. apply in_or_app. right. apply in_or_app. left. left. reflexivity.
Qed.

Lemma count_header : forall ls h, Forall (fun l => keyword_line l = false) ls -> fold_left count_line ls (h, (-1)%Z) = ((h + Z.of_nat (List.length ls))%Z, (-1)%Z).
Proof.
  induction ls as [|l ls IH]; intros h H; cbn [fold_left List.length]; [f_equal; lia|]. inversion H as [|? ? H1 H2]; subst.
  unfold count_line at 2. rewrite H1. change (-1 <? 0)%Z with true. cbn iota. rewrite IH by exact H2. f_equal. lia.
Qed.
Lemma count_data : forall ls h d, (0 <= d)%Z -> Forall (fun l => keyword_line l = false) ls -> fold_left count_line ls (h, d) = (h, (d + Z.of_nat (List.length ls))%Z).
Proof.
  induction ls as [|l ls IH]; intros h d Hd H; cbn [fold_left List.length]; [f_equal; lia|]. inversion H as [|? ? H1 H2]; subst.
  unfold count_line at 2. rewrite H1. rewrite (proj2 (Z.ltb_ge d 0)) by lia. rewrite IH by (lia || exact H2). f_equal. lia.
Qed.

(** *** Rows *)

Definition row := (Q * Q * Q)%type.
Definition row_text (r : row) : text := let '(l, c, w) := r in print_e l ++ [tab] ++ print_e c ++ [tab] ++ print_e w.

Lemma read_skip : forall ls rest count data lim wei, (count + Z.of_nat (List.length ls) <= 0)%Z -> (0 < data)%Z ->
  read_rows (ls ++ rest) count data lim wei = read_rows rest (count + Z.of_nat (List.length ls)) data lim wei.
Proof.
  induction ls as [|l ls IH]; intros rest count data lim wei Hc Hd; cbn [app List.length] in *; [f_equal; lia|]. cbn [read_rows].
  rewrite (proj2 (Z.leb_gt 0 count)) by lia. cbn [andb]. rewrite (proj2 (Z.eqb_neq count (data - 1))) by lia.
  rewrite IH by lia. f_equal. lia.
Qed.

Lemma set_at_app : forall a x v b, set_at (Z.of_nat (List.length a)) v (a ++ x :: b) = Some (a ++ v :: b).
Proof.
  intros a x v b. unfold set_at. rewrite app_length. cbn [List.length].
  rewrite (proj2 (Z.leb_le _ _)) by lia. rewrite (proj2 (Z.ltb_lt _ _)) by lia. cbn [andb]. rewrite Nat2Z.id. f_equal.
  clear. induction a as [|y a IH]; cbn [List.length app put]; [reflexivity|]. f_equal. exact IH.
Qed.

Lemma skip_tab : forall c s, plain c -> skip_space (tab :: c :: s) = c :: s.
Proof.
  intros c s H. unfold plain in H. cbn [skip_space]. change (isspace tab) with true. cbn iota. unfold isspace.
  rewrite (proj2 (Z.eqb_neq c 32)) by lia. rewrite (proj2 (Z.leb_gt c 13)) by lia. rewrite andb_false_r. reflexivity.
Qed.
Lemma skip_tab_print : forall x s, fits x -> skip_space ([tab] ++ print_e x ++ s) = print_e x ++ s.
Proof.
  intros x s Hx. destruct (fits_plain x Hx) as [H1 H2]. destruct (print_e x) as [|c t]; [contradiction H2; reflexivity|].
  inversion H1 as [|? ? H3 H4]; subst. cbn [app]. apply skip_tab. exact H3.
Qed.

Lemma read_data : forall rows rows' last last' a w,
  Forall2 (fun (r r' : row) => fits (fst (fst r)) /\ fits (snd (fst r)) /\ fits (snd r) /\ reads (fst (fst r)) (fst (fst r')) /\ reads (snd (fst r)) (snd (fst r')) /\ reads (snd r) (snd r')) rows rows' ->
  reads last last' -> List.length w = List.length a ->
  read_rows (map row_text rows ++ [print_e last]) (Z.of_nat (List.length a)) (Z.of_nat (List.length a + List.length rows + 1))
    (a ++ repeat 0%Q (S (List.length rows))) (w ++ repeat 0%Q (List.length rows)) =
  Some (Some (a ++ map (fun r => fst (fst r)) rows' ++ [last'], w ++ map snd rows')).
Proof.
  induction rows as [|r rows IH]; intros rows' last last' a w H Hl Hw; inversion H as [|? r' ? rows1 H1 H2]; subst; cbn [map app List.length].
  - cbn [read_rows]. rewrite (proj2 (Z.ltb_ge _ _)) by lia. rewrite andb_false_r. rewrite (proj2 (Z.eqb_eq _ _)) by lia.
    specialize (Hl [] I). rewrite app_nil_r in Hl. rewrite Hl. cbn [bind]. cbn [repeat]. rewrite set_at_app. reflexivity.
  - destruct r as [[l c] q]. destruct r' as [[l' c'] q']. cbn [fst snd] in H1. destruct H1 as [F1 [F2 [F3 [R1 [R2 R3]]]]].
    cbn [read_rows]. rewrite (proj2 (Z.leb_le _ _)) by lia. rewrite (proj2 (Z.ltb_lt _ _)) by lia. cbn [andb].
    change (row_text (l, c, q)) with (print_e l ++ [tab] ++ print_e c ++ [tab] ++ print_e q).
    rewrite R1 by reflexivity. cbn [bind]. rewrite skip_tab_print by exact F2. rewrite R2 by reflexivity. cbn [bind].
    pose proof (skip_tab_print q [] F3) as T3. rewrite app_nil_r in T3. rewrite T3. specialize (R3 [] I). rewrite app_nil_r in R3. rewrite R3. cbn [bind].
    change (repeat 0%Q (S (S (List.length rows)))) with (0%Q :: repeat 0%Q (S (List.length rows))). rewrite set_at_app. cbn [bind].
    assert (Sw : set_at (Z.of_nat (List.length a)) q' (w ++ repeat 0%Q (S (List.length rows))) = Some (w ++ q' :: repeat 0%Q (List.length rows))) by (rewrite <- Hw; apply set_at_app).
    rewrite Sw. cbn [bind].
    specialize (IH rows1 last last' (a ++ [l']) (w ++ [q']) H2 Hl ltac:(rewrite !app_length; cbn [List.length]; lia)).
    rewrite <- !app_assoc in IH. cbn [app] in IH. rewrite app_length in IH. cbn [List.length] in IH.
    replace (Z.of_nat (List.length a) + 1)%Z with (Z.of_nat (List.length a + 1)) by lia.
    replace (List.length a + S (List.length rows) + 1) with (List.length a + 1 + List.length rows + 1) by lia.
    rewrite IH. cbn [map fst snd]. reflexivity.
Qed.

(** The written rows. *)
Lemma write_rows_spec : forall n i limits centers weights, List.length limits = S (i + n) -> List.length centers = i + n -> List.length weights = i + n ->
  exists rows last, write_rows n i limits centers weights = Some (as_text (map row_text rows ++ [print_e last])) /\ List.length rows = n /\
    skipn i limits = map (fun r => fst (fst r)) rows ++ [last] /\ skipn i centers = map (fun r => snd (fst r)) rows /\ skipn i weights = map snd rows.
Proof.
  assert (sk : forall (A : Type) (l : list A) i x, nth_error l i = Some x -> skipn i l = x :: skipn (S i) l).
  { intros A. induction l as [|y l IH]; intros i x H; destruct i as [|i]; cbn [nth_error] in H; try discriminate; [injection H as <-; reflexivity|]. cbn [skipn]. rewrite (IH i x H). destruct l; reflexivity. }
  induction n as [|n IH]; intros i lim cen wei H1 H2 H3; cbn [write_rows].
  - destruct (nth_error lim i) as [l|] eqn:El; [|apply nth_error_None in El; lia]. cbn [bind]. exists [], l.
    split; [unfold as_text; cbn [map app concat]; rewrite app_nil_r; reflexivity|]. split; [reflexivity|]. split.
    + rewrite (sk _ _ _ _ El). rewrite (skipn_all2 (n := S i)) by lia. reflexivity.
    + split; apply skipn_all2; lia.
  - destruct (nth_error lim i) as [l|] eqn:El; [|apply nth_error_None in El; lia].
    destruct (nth_error cen i) as [c|] eqn:Ec; [|apply nth_error_None in Ec; lia].
    destruct (nth_error wei i) as [w|] eqn:Ew; [|apply nth_error_None in Ew; lia]. cbn [bind].
    destruct (IH (S i) lim cen wei ltac:(lia) ltac:(lia) ltac:(lia)) as [rows [last [W [L [S1 [S2 S3]]]]]]. rewrite W. cbn [bind].
    exists ((l, c, w) :: rows), last. split.
    + unfold as_text. cbn [map app concat]. unfold row_text at 2. rewrite <- !app_assoc. cbn [app]. reflexivity.
    + split; [cbn [List.length]; lia|]. rewrite (sk _ _ _ _ El), (sk _ _ _ _ Ec), (sk _ _ _ _ Ew), S1, S2, S3. split; [reflexivity|]. split; reflexivity.
Qed.

Lemma as_text_app : forall a b, as_text (a ++ b) = as_text a ++ as_text b.
Proof. intros. unfold as_text. rewrite map_app, concat_app. reflexivity. Qed.

Lemma as_text_one : forall l, as_text [l] = l ++ [newline].
Proof. intros. unfold as_text. cbn [map concat]. apply app_nil_r. Qed.

Lemma rows_plain : forall x, fits x -> ~ In newline (print_e x) /\ ~ In 79%Z (print_e x).
Proof.
  intros x Hx. destruct (fits_plain x Hx) as [H _]. pose proof (proj1 (Forall_forall _ _) H) as G. unfold plain in G. change newline with 10%Z.
  split; intros I; specialize (G _ I); lia.
Qed.

Lemma choose_rows : forall rows : list row, Forall (fun r => fits (fst (fst r)) /\ fits (snd (fst r)) /\ fits (snd r)) rows ->
  exists rows' : list row, Forall2 (fun (r r' : row) => fits (fst (fst r)) /\ fits (snd (fst r)) /\ fits (snd r) /\ reads (fst (fst r)) (fst (fst r')) /\ reads (snd (fst r)) (snd (fst r')) /\ reads (snd r) (snd r')) rows rows' /\
    Forall2 close (map (fun r => fst (fst r)) rows) (map (fun r => fst (fst r)) rows') /\ Forall2 close (map snd rows) (map snd rows').
Proof.
  induction rows as [|r rows IH]; intros H.
  - exists []. split; [constructor|]. split; constructor.
  - inversion H as [|? ? [H1 [H2 H3]] H4]; subst. destruct (IH H4) as [rows' [G1 [G2 G3]]].
    destruct (fits_reads _ H1) as [l' [R1 C1]]. destruct (fits_reads _ H2) as [c' [R2 _]]. destruct (fits_reads _ H3) as [w' [R3 C3]].
    exists ((l', c', w') :: rows'). split; [constructor; [|exact G1]|split; cbn [map]; constructor; assumption].
    cbn [fst snd]. split; [exact H1|]. split; [exact H2|]. split; [exact H3|]. split; [exact R1|]. split; assumption.
Qed.

Lemma file_round_trip : forall header limits centers weights,
  List.length limits = S (List.length centers) -> List.length weights = List.length centers ->
  Forall fits limits -> Forall fits centers -> Forall fits weights -> Forall header_line header ->
  exists body limits' weights', write_weight_function limits centers weights = Some body /\
    read_weight_function (as_text header ++ body) = Some (Some (limits', midpoints limits', weights')) /\
    Forall2 close limits limits' /\ Forall2 close weights weights'.
Proof.
  intros header lim cen wei H1 H2 Fl Fc Fw Hh.
  destruct (write_rows_spec (List.length cen) 0 lim cen wei) as [rows [last [W [L [S1 [S2 S3]]]]]]; [lia|lia|lia|]. cbn [skipn] in S1, S2, S3.
  assert (Fr : Forall (fun r : row => fits (fst (fst r)) /\ fits (snd (fst r)) /\ fits (snd r)) rows).
  { rewrite S1 in Fl. apply Forall_app in Fl. destruct Fl as [Fl _]. rewrite S2 in Fc. rewrite S3 in Fw. rewrite Forall_map in Fl, Fc, Fw.
    apply Forall_forall. intros r Hr. pose proof (proj1 (Forall_forall _ _) Fl r Hr). pose proof (proj1 (Forall_forall _ _) Fc r Hr). pose proof (proj1 (Forall_forall _ _) Fw r Hr). split; [assumption|split; assumption]. }
  assert (Flast : fits last) by (rewrite S1 in Fl; apply Forall_app in Fl; destruct Fl as [_ Fl]; inversion Fl; assumption).
  destruct (choose_rows rows Fr) as [rows' [R1 [R2 R3]]]. destruct (fits_reads last Flast) as [last' [RL CL]].
  assert (Lr : List.length rows' = List.length rows).
  { clear - R1. induction R1; cbn [List.length]; congruence. }
  exists (as_text (column_line :: map row_text rows ++ [print_e last])), (map (fun r => fst (fst r)) rows' ++ [last']), (map snd rows').
  split. { unfold write_weight_function. rewrite W. cbn [bind]. unfold as_text at 2. cbn [map concat]. rewrite <- app_assoc. reflexivity. }
  split; [|split; [rewrite S1; apply Forall2_app; [exact R2|constructor; [exact CL|constructor]]|rewrite S3; exact R3]].
  unfold read_weight_function. rewrite <- as_text_app.
  assert (Rp : Forall (fun l => ~ In newline l /\ keyword_line l = false) (map row_text rows ++ [print_e last])).
  { apply Forall_app. split.
    - rewrite Forall_map. apply Forall_forall. intros [[l c] w] Hr. destruct (proj1 (Forall_forall _ _) Fr _ Hr) as [G1 [G2 G3]]. cbn [fst snd] in G1, G2, G3.
      destruct (rows_plain l G1) as [A1 A2]. destruct (rows_plain c G2) as [B1 B2]. destruct (rows_plain w G3) as [D1 D2].
      assert (T : forall z, z <> tab -> ~ In z (print_e l) -> ~ In z (print_e c) -> ~ In z (print_e w) -> ~ In z (row_text (l, c, w))).
      { intros z Hz X Y V G. unfold row_text in G. apply in_app_or in G. destruct G as [G|G]; [contradiction|]. cbn [app] in G. destruct G as [G|G]; [congruence|].
        apply in_app_or in G. destruct G as [G|G]; [contradiction|]. destruct G as [G|G]; [congruence|contradiction]. }
      split; [apply T; [discriminate|assumption|assumption|assumption]|]. apply not_in_keyword_free. apply T; [discriminate|assumption|assumption|assumption].
    - constructor; [|constructor]. destruct (rows_plain last Flast) as [A1 A2]. split; [exact A1|apply not_in_keyword_free; exact A2]. }
  rewrite getlines_text.
  2: { apply Forall_app. split; [apply Forall_forall; intros l Hl; apply (proj1 (Forall_forall _ _) Hh l Hl)|]. constructor.
       - intros G. vm_compute in G. repeat (destruct G as [G|G]; [discriminate G|]). exact G.
       - apply Forall_forall. intros l Hl. apply (proj1 (Forall_forall _ _) Rp l Hl). }
  rewrite fold_left_app. rewrite count_header.
  2: { apply Forall_forall. intros l Hl. apply keyword_free. apply (proj1 (Forall_forall _ _) Hh l Hl). }
  cbn [fold_left]. replace (count_line ((1 + Z.of_nat (List.length header))%Z, (-1)%Z) column_line) with ((1 + Z.of_nat (List.length header))%Z, 1%Z) by reflexivity.
  rewrite count_data; [|lia|apply Forall_forall; intros l Hl; apply (proj1 (Forall_forall _ _) Rp l Hl)].
  rewrite app_length, map_length. cbn [List.length].
  replace (1 + Z.of_nat (List.length rows + 1) - 1)%Z with (Z.of_nat (List.length rows + 1)) by lia.
  rewrite (proj2 (Z.ltb_ge _ _)) by lia.
  change (column_line :: map row_text rows ++ [print_e last]) with ([column_line] ++ (map row_text rows ++ [print_e last])).
  rewrite app_assoc. rewrite read_skip; [|rewrite app_length; cbn [List.length]; lia|lia].
  rewrite app_length. cbn [List.length]. replace (- (1 + Z.of_nat (List.length header)) + Z.of_nat (List.length header + 1))%Z with 0%Z by lia.
  rewrite Nat2Z.id. replace (Z.to_nat (Z.of_nat (List.length rows + 1) - 1)) with (List.length rows) by lia.
  replace (List.length rows + 1) with (S (List.length rows)) at 2 by lia.
  pose proof (read_data rows rows' last last' [] [] R1 RL eq_refl) as D. cbn [List.length app] in D.
  change (Z.of_nat 0) with 0%Z in D. replace (0 + List.length rows + 1) with (List.length rows + 1) in D by lia. rewrite D. reflexivity.
Qed.
