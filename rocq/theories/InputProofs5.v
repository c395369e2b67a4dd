(** Reading the entries of a file. *)
From Coq Require Import String.
From Verif Require Import Common SrcbufModel WordsModel WordsProofs1 CmdargsModel DecimalModel InputModel InputSpec
  InputProofs1 InputProofs2 InputProofs3 InputProofs4.
Open Scope list_scope.
Open Scope nat_scope.

(** The key is not overridden. *)
Definition quiet (x : input) (key : text) : Prop := i_first x = false \/ override (eff x) key = Ok (None, eff x).
Definition same_eff (x y : input) : Prop := eff x = eff y /\ i_first x = i_first y.
Lemma same_eff_quiet : forall x y key, same_eff x y -> quiet y key -> quiet x key.
Proof. intros x y key (E & F) [Q|Q]; [left|right]; congruence. Qed.
Lemma same_eff_trans : forall x y z, same_eff x y -> same_eff y z -> same_eff x z.
Proof. unfold same_eff. intuition congruence. Qed.
Lemma same_args_eff : forall x y, same_args x y -> same_eff x y.
Proof. intros x y (A & F & C). unfold same_eff, eff. rewrite A, C. auto. Qed.

(** Everything a step has to say: the new text and the same arguments. *)
Definition at_text (y x : input) (v : list text) : Prop := wf y /\ same_eff y x /\ view y = v.
Lemma at_trans : forall z y x v w, at_text z y w -> at_text y x v -> at_text z x w.
Proof. intros z y x v w (? & ? & ?) (? & ? & ?). repeat split; auto; eapply same_eff_trans; eauto. Qed.

Lemma scan_quiet : forall x key, wf x -> quiet x key -> exists y, scan_cmdline x key = Ok y /\ at_text y x (view x) /\ rest y = rest x.
Proof.
  intros x key W Q. unfold scan_cmdline. destruct (i_first x) eqn:F.
  - destruct Q as [Q|Q]; [congruence|]. cbv zeta. fold (eff x). rewrite Q. simpl. eexists. split; [reflexivity|].
    split; [|reflexivity].
    split; [|split]; auto. split; auto. unfold eff at 1. simpl. destruct (eff x) eqn:E; auto.
    unfold eff in E. destruct (i_args x); [|discriminate]. destruct (i_cmd x) as [[|? ?]|]; congruence.
  - eexists. split; [reflexivity|]. repeat split; auto.
Qed.

Lemma norm_line : forall l r, trim l = l -> l <> [] -> norm l r = l :: r.
Proof. intros l r T N. unfold norm. rewrite T. destruct l; [now elim N|reflexivity]. Qed.
Lemma view_lines : forall x l r, wf x -> view x = l :: r -> trim l = l /\ l <> [].
Proof. intros x l r W V. pose proof (remove_whitespaceP x W) as P. rewrite V in P. destruct P as (y & _ & _ & _ & _ & _ & P). exact P. Qed.

Lemma spelled_nonempty : forall ws key, spelled ws key -> ws <> [] -> 0 <? length key = true.
Proof.
  intros ws key S N. apply Nat.ltb_lt. inversion S; subst; [now elim N| |];
    destruct H0 as [H0 _]; rewrite !app_length; destruct w; simpl; try lia; now elim H0.
Qed.
Lemma handle_key_found : forall x key ws l r t, wf x -> view x = l :: r -> plain l -> plain key -> spelled ws key -> ws <> [] ->
  has_key ws l t -> quiet x key ->
  exists y, handle_key x key = Ok (true, y) /\ at_text y x (norm t r).
Proof.
  intros x key ws l r t W V Pl Pk Sk N K Q. unfold handle_key. pose proof (remove_whitespaceP x W) as P. rewrite V in P.
  destruct P as (x1 & -> & A & R & W1 & S & T & Nl). cbn [bind].
  rewrite (spelled_nonempty ws key Sk N).
  rewrite has_wordsE by auto. rewrite R.
  destruct (key_skip_has ws l key t Sk N Pl Pk T K) as (k & -> & Ek & Lk). cbn [bind].
  set (x2 := set_start x1 (i_start x1 + k)).
  assert (E2 : same_eff x2 x) by (apply same_args_eff; exact A).
  assert (W2 : wf x2) by (apply wf_advance; auto; now rewrite R).
  destruct (scan_quiet x2 key W2 (same_eff_quiet _ _ _ E2 Q)) as (y & -> & (Wy & Ey & Vy) & _).
  exists y. split; [reflexivity|]. split; auto. split; [eapply same_eff_trans; eauto|].
  rewrite Vy. unfold view, x2. rewrite rest_advance, R, Ek. cbn [set_start set_line i_file]. rewrite S. apply norm_trim.
Qed.
Lemma handle_key_missing : forall x key ws, wf x -> plain key -> spelled ws key -> ws <> [] ->
  (forall l r, view x = l :: r -> plain l /\ forall t, ~ has_key ws l t) ->
  exists y, handle_key x key = Ok (false, y) /\ wf y /\ same_args y x /\ view y = view x.
Proof.
  intros x key ws W Pk Sk N H. unfold handle_key. pose proof (remove_whitespaceP x W) as P.
  rewrite (spelled_nonempty ws key Sk N).
  destruct (view x) as [|l r] eqn:V.
  - destruct P as (x1 & -> & A & R & W1 & S). cbn [bind]. rewrite has_wordsE, R by auto.
    pose proof (key_skipP ws [] key Sk N ltac:(constructor) Pk eq_refl) as P.
    destruct (key_skip [] key).
    + destruct P as (t & (B & _) & _). exfalso.
      assert (F := spelled_words _ _ Sk). destruct ws as [|w ws]; [congruence|]. apply begins_cons in B as (p & E & _).
      inversion F; subst. destruct H2. destruct w; [congruence|discriminate].
    + cbn [bind]. exists x1. repeat split; auto; try apply A. unfold view. rewrite R, S. reflexivity.
  - destruct P as (x1 & -> & A & R & W1 & S & T & Nl). cbn [bind]. rewrite has_wordsE, R by auto.
    destruct (H _ _ eq_refl) as [Pl Hk]. pose proof (key_skipP ws l key Sk N Pl Pk T) as P.
    destruct (key_skip l key).
    + destruct P as (t & K & _). exfalso. eapply Hk; eauto.
    + cbn [bind]. exists x1. repeat split; auto; try apply A. unfold view. rewrite R, S. now apply norm_line.
Qed.
Lemma handle_nokey : forall x, wf x -> quiet x [] -> exists y, handle_key x [] = Ok (true, y) /\ at_text y x (view x).
Proof.
  intros x W Q. unfold handle_key. pose proof (remove_whitespaceP x W) as P.
  assert (G : exists b z, remove_whitespace x = Ok (b, z) /\ wf z /\ same_args z x /\ view z = view x).
  { destruct (view x) as [|l r] eqn:V.
    - destruct P as (z & E & A & R & W' & S). exists false, z. repeat split; auto; try apply A. unfold view. rewrite R, S. reflexivity.
    - destruct P as (z & E & A & R & W' & S & T & N). exists true, z. repeat split; auto; try apply A. unfold view. rewrite R, S. now apply norm_line. }
  destruct G as (b & z & -> & Wz & Az & Vz). cbn [bind length Nat.ltb Nat.leb].
  apply same_args_eff in Az.
  destruct (scan_quiet z [] Wz (same_eff_quiet _ _ _ Az Q)) as (y & -> & (Wy & Ey & Vy) & _).
  exists y. split; [reflexivity|]. repeat split; auto; try congruence; eapply same_eff_trans; eauto.
Qed.

Lemma get_token_found : forall x l r t, wf x -> view x = l :: r -> token l = Some t ->
  exists y, get_token x = Ok (Some t, y) /\ at_text y x (norm (skipn (length t) l) r).
Proof.
  intros x l r t W V E. unfold get_token. pose proof (peek_tokenP x W) as P. rewrite V, E in P.
  destruct P as (T & N & z & -> & A & R & Wz & S). cbn [bind]. eexists. split; [reflexivity|].
  split; [apply wf_advance; auto; rewrite R; now apply token_le|]. split; [apply same_args_eff; exact A|].
  unfold view. rewrite rest_advance, R. cbn [set_start set_line i_file]. now rewrite S.
Qed.
Lemma get_token_end : forall x, wf x -> view x = [] -> exists y, get_token x = Ok (None, y) /\ at_text y x [].
Proof.
  intros x W V. unfold get_token. pose proof (peek_tokenP x W) as P. rewrite V in P.
  destruct P as (z & -> & A & R & Wz & S). cbn [bind]. exists z. split; auto. split; auto.
  split; [now apply same_args_eff|]. unfold view. rewrite R, S. reflexivity.
Qed.
Lemma match_token_found : forall x l r t, wf x -> view x = l :: r -> token l = Some t ->
  exists y, match_token x t = Ok (true, y) /\ at_text y x (norm (skipn (length t) l) r).
Proof.
  intros x l r t W V E. unfold match_token. pose proof (peek_tokenP x W) as P. rewrite V, E in P.
  destruct P as (T & N & z & -> & A & R & Wz & S). cbn [bind].
  assert (same_text t t = true) as -> by now apply same_text_iff. eexists. split; [reflexivity|].
  split; [apply wf_advance; auto; rewrite R; now apply token_le|]. split; [apply same_args_eff; exact A|].
  unfold view. rewrite rest_advance, R. cbn [set_start set_line i_file]. now rewrite S.
Qed.
Lemma match_token_other : forall x t, wf x ->
  match view x with [] => True | l :: _ => exists u, token l = Some u /\ u <> t end ->
  exists y, match_token x t = Ok (false, y) /\ at_text y x (view x).
Proof.
  intros x t W H. unfold match_token. pose proof (peek_tokenP x W) as P. destruct (view x) as [|l r] eqn:V.
  - destruct P as (z & -> & A & R & Wz & S). cbn [bind]. exists z. split; auto. split; auto.
    split; [now apply same_args_eff|]. unfold view. rewrite R, S. reflexivity.
  - destruct H as (u & E & D). rewrite E in P. destruct P as (T & N & z & -> & A & R & Wz & S). cbn [bind].
    assert (same_text u t = false) as ->.
    { destruct (same_text u t) eqn:Es; auto. apply same_text_iff in Es. congruence. }
    exists z. split; auto. split; auto. split; [now apply same_args_eff|]. unfold view. rewrite R, S. now apply norm_line.
Qed.

(** The tokens. *)
Definition stop (e : text) : Prop := match e with [] => True | c :: _ => isspace c = true \/ c = 44%Z end.
Lemma token_end_word : forall t e, visible t -> no_comma_quote t -> stop e -> token_end (t ++ e) false = (length t, false).
Proof.
  induction t as [|c t IH]; intros e V C S.
  - simpl. destruct e as [|b e]; auto. simpl in *. destruct S as [S|S].
    + rewrite S. reflexivity.
    + subst. reflexivity.
  - inversion V; inversion C; subst. simpl. rewrite H1. replace (c =? 44)%Z with false by lia. replace (c =? 34)%Z with false by lia.
    simpl. rewrite IH; auto.
Qed.
Lemma token_end_quoted : forall v e, Forall (fun c => c <> 34%Z) v -> stop e ->
  token_end (v ++ 34%Z :: e) true = (S (length v), false).
Proof.
  induction v as [|c v IH]; intros e F S.
  - simpl. pose proof (token_end_word [] e) as H. simpl in H. rewrite H; auto; constructor.
  - inversion F; subst. simpl. rewrite orb_true_r. replace (c =? 34)%Z with false by lia. now rewrite IH.
Qed.
Lemma token_item : forall t v e, item t v -> stop e -> token (t ++ e) = Some t.
Proof.
  intros t v e I St. unfold token. inversion I; subst.
  - destruct H as [N V]. rewrite token_end_word by auto. destruct v; [congruence|]. simpl.
    now rewrite firstn_app, firstn_all, Nat.sub_diag, app_nil_r.
  - cbn [app token_end]. simpl. rewrite <- app_assoc. cbn [app]. rewrite token_end_quoted by auto.
    cbn [Nat.eqb andb]. f_equal.
    replace (S (S (length v))) with (length (34%Z :: v ++ [34%Z])) by (simpl; rewrite app_length; simpl; lia).
    replace (34%Z :: v ++ 34%Z :: e) with ((34%Z :: v ++ [34%Z]) ++ e) by (simpl; now rewrite <- app_assoc).
    now rewrite firstn_app, firstn_all, Nat.sub_diag, app_nil_r.
Qed.
Lemma token_comma : forall s, token (44%Z :: s) = Some [44%Z].
Proof. reflexivity. Qed.
Lemma item_trim : forall t v e, item t v -> trim (t ++ e) = t ++ e /\ t ++ e <> [].
Proof. intros t v e I. inversion I; subst; [split; [now apply trim_word|]; destruct H; destruct v; [congruence|discriminate]|split; [reflexivity|discriminate]]. Qed.
Lemma stop_blanks : forall e, blanks e -> stop e.
Proof. intros e B. destruct e; simpl; auto. inversion B; auto. Qed.
Lemma stop_comma : forall b s, blanks b -> stop (b ++ 44%Z :: s).
Proof. intros b s B. destruct b; simpl; auto. inversion B; auto. Qed.
Lemma skipn_length_app : forall (t e : text), skipn (length t) (t ++ e) = e.
Proof. intros. now rewrite skipn_app, skipn_all, Nat.sub_diag. Qed.

(** The line after a list does not begin with a comma or with open quotes. *)
Definition next_line (r : list text) : Prop :=
  match r with [] => True | l :: _ => exists u, token l = Some u /\ u <> [44%Z] end.

Section Values.
Context {T : Type}.
Variable value : text -> option T.
Definition reads (t : text) (a : T) : Prop := (exists v, item t v) /\ value t = Some a.

Lemma get_item_token : forall x t a e r, wf x -> view x = (t ++ e) :: r -> reads t a -> stop e ->
  exists y, get_token x = Ok (Some t, y) /\ at_text y x (norm e r) /\ value t = Some a.
Proof.
  intros x t a e r W V [[v I] R] S. destruct (get_token_found x (t ++ e) r t W V (token_item t v e I S)) as (y & E & A).
  rewrite skipn_length_app in A. eauto.
Qed.

(** A list of values, the first one being next. *)
Lemma get_valueE : forall x key y t z a, handle_key x key = Ok (true, y) -> get_token y = Ok (Some t, z) -> value t = Some a ->
  get_value value x key = Ok (Some a, z).
Proof. intros x key y t z a H G E. unfold get_value. rewrite H. cbn [bind]. rewrite G. cbn [bind]. now rewrite E. Qed.

(** What follows a value in a list. *)
Inductive tail : list text -> text -> list text -> Prop :=
| tail_last : forall e, blanks e -> tail [] e []
| tail_more : forall b g t ts e ls, blanks b -> blanks g -> tail ts e ls -> tail (t :: ts) (b ++ 44%Z :: g ++ t ++ e) ls
| tail_next : forall b g t ts e ls, blanks b -> blanks g -> tail ts e ls -> tail (t :: ts) (b ++ 44%Z :: g) ((t ++ e) :: ls).
Lemma listed_tail : forall ts ls, listed ts ls -> exists t ts' e ls', ts = t :: ts' /\ ls = (t ++ e) :: ls' /\ tail ts' e ls'.
Proof.
  induction 1.
  - exists t, [], e, []. repeat split; auto. now constructor.
  - destruct IHlisted as (t' & ts' & e' & ls' & -> & E & Tl). inversion E; subst.
    exists t, (t' :: ts'), (b ++ 44%Z :: g ++ t' ++ e'), ls'. repeat split; auto. now apply tail_more.
  - destruct IHlisted as (t' & ts' & e' & ls' & -> & E & Tl). inversion E; subst.
    exists t, (t' :: ts'), (b ++ 44%Z :: g), ((t' ++ e') :: ls'). repeat split; auto. now apply tail_next.
Qed.
Lemma tail_stop : forall ts e ls, tail ts e ls -> stop e.
Proof. destruct 1; [now apply stop_blanks|now apply stop_comma|now apply stop_comma]. Qed.
(** The text before and after the comma. *)
Lemma tail_comma : forall t ts e ls r a, tail (t :: ts) e ls -> reads t a ->
  exists s r' e' ls', norm e (ls ++ r) = (44%Z :: s) :: r' /\ norm s r' = (t ++ e') :: ls' ++ r /\ tail ts e' ls' /\
    (Forall plain (e :: ls) -> plain s /\ Forall plain (e' :: ls')).
Proof.
  intros t ts e ls r a H [[v I] _]. inversion H; subst.
  - destruct (item_trim t v e0 I) as [Ti Ni].
    exists (g ++ t ++ e0), (ls ++ r), e0, ls. split; [|split; [|split]]; auto.
    + unfold norm. rewrite trim_blanks by auto. reflexivity.
    + unfold norm. rewrite trim_blanks by auto. rewrite Ti. destruct (t ++ e0); [now elim Ni|reflexivity].
    + intros P. apply Forall_cons_iff in P as [Pe Pls]. apply plain_app in Pe as [_ Pe]. apply Forall_cons_iff in Pe as [_ Pe].
      split; auto. apply plain_app in Pe as [_ Pe]. apply plain_app in Pe as [_ Pe]. constructor; auto.
  - destruct (item_trim t v e0 I) as [Ti Ni].
    exists g, (((t ++ e0) :: ls0) ++ r), e0, ls0. split; [|split; [|split]]; auto.
    + unfold norm. rewrite trim_blanks by auto. reflexivity.
    + now rewrite norm_blanks.
    + intros P. apply Forall_cons_iff in P as [Pe Pls]. apply plain_app in Pe as [_ Pe]. apply Forall_cons_iff in Pe as [_ Pe].
      split; auto. apply Forall_cons_iff in Pls as [P1 Pls]. apply plain_app in P1 as [_ P1]. constructor; auto.
Qed.

Lemma get_moreP : forall ts n x e ls r l, tail ts e ls -> Forall2 reads ts l -> wf x -> view x = norm e (ls ++ r) -> quiet x [] ->
  next_line r -> length ts < n ->
  exists y, get_more value n x = Ok (Some l, y) /\ at_text y x r.
Proof.
  induction ts as [|t ts IH]; intros n x e ls r l Tl F W V Q Nx Hn; (destruct n as [|n]; [simpl in Hn; lia|]); cbn [get_more]; inversion F; subst.
  - inversion Tl; subst. rewrite norm_blanks in V by auto. simpl in V.
    destruct (match_token_other x (str ",") W) as (y & -> & A).
    { rewrite V. destruct r; auto. }
    cbn [bind]. exists y. split; auto. now rewrite V in A.
  - destruct (tail_comma t ts e ls r _ Tl H1) as (s & r' & e' & ls' & E1 & E2 & Tl' & _).
    rewrite E1 in V. destruct (match_token_found x _ _ (str ",") W V (token_comma s)) as (x1 & -> & A1). cbn [bind].
    simpl skipn in A1. rewrite E2 in A1. assert (A1' := A1). destruct A1' as (W1 & S1 & V1).
    destruct (handle_nokey x1 W1 (same_eff_quiet _ _ _ S1 Q)) as (x2 & E & A2). assert (A2' := A2). destruct A2' as (W2 & S2 & V2).
    rewrite V1 in V2. destruct (get_item_token x2 t y e' _ W2 V2 H1 (tail_stop _ _ _ Tl')) as (x3 & E3 & A3 & Et).
    rewrite (get_valueE _ _ _ _ _ _ E E3 Et). cbn [bind]. assert (A3' := A3). destruct A3' as (W3 & S3 & V3).
    assert (S30 : same_eff x3 x) by (eapply same_eff_trans; [exact S3|]; eapply same_eff_trans; eauto).
    destruct (IH n x3 e' ls' r l' Tl' H3 W3 V3 (same_eff_quiet _ _ _ S30 Q) Nx ltac:(simpl in Hn; lia)) as (x4 & -> & A4).
    cbn [bind]. exists x4. split; auto. eapply at_trans; [exact A4|]. split; [exact W3|]. split; [exact S30|reflexivity].
Qed.
Lemma get_restP : forall ts x e ls r l, tail ts e ls -> Forall2 reads ts l -> wf x -> view x = norm e (ls ++ r) -> quiet x (str ",") ->
  Forall plain (e :: ls) ->
  exists y, get_rest value (length ts) x = Ok (Some l, y) /\ at_text y x r.
Proof.
  induction ts as [|t ts IH]; intros x e ls r l Tl F W V Q P; cbn [length get_rest]; inversion F; subst.
  - inversion Tl; subst. rewrite norm_blanks in V by auto. simpl in V. exists x. split; auto. split; auto. split; auto. split; auto.
  - destruct (tail_comma t ts e ls r _ Tl H1) as (s & r' & e' & ls' & E1 & E2 & Tl' & P').
    rewrite E1 in V. destruct (P' P) as [Ps Pl].
    destruct (handle_key_found x (str ",") [str ","] _ _ s W V) as (x1 & E & A1); auto.
    { constructor; [discriminate|exact Ps]. }
    { constructor; [discriminate|constructor]. }
    { apply (spelled_last [] (str ",") []); [constructor| |constructor]. split; [discriminate|]. constructor; [reflexivity|constructor]. }
    { discriminate. }
    { split; [apply (begins_last (str ",") s)|]. right. exists []. reflexivity. }
    rewrite E2 in A1. assert (A1' := A1). destruct A1' as (W1 & S1 & V1).
    destruct (get_item_token x1 t y e' _ W1 V1 H1 (tail_stop _ _ _ Tl')) as (x3 & E3 & A3 & Et).
    rewrite (get_valueE _ _ _ _ _ _ E E3 Et). cbn [bind]. assert (A3' := A3). destruct A3' as (W3 & S3 & V3).
    assert (S30 : same_eff x3 x) by (eapply same_eff_trans; eauto).
    destruct (IH x3 e' ls' r l' Tl' H3 W3 V3 (same_eff_quiet _ _ _ S30 Q) Pl) as (x4 & -> & A4).
    cbn [bind]. exists x4. split; auto. eapply at_trans; [exact A4|]. split; [exact W3|]. split; [exact S30|reflexivity].
Qed.

End Values.
