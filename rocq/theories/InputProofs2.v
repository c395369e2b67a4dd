(** Readers with the same text to read give the same results. *)
From Coq Require Import String.
From Verif Require Import Common SrcbufModel WordsModel WordsProofs1 CmdargsModel DecimalModel InputModel InputSpec InputProofs1.
Open Scope list_scope.
Open Scope nat_scope.

Definition eqv (x y : input) : Prop := view x = view y /\ same_args x y /\ wf x /\ wf y /\ paired x.
Definition eqr (x y : input) : Prop :=
  rest x = rest y /\ significant (i_file x) = significant (i_file y) /\ same_args x y /\ wf x /\ wf y /\ paired x.
Definition rel {A : Type} (P : input -> input -> Prop) (r1 r2 : res (A * input)) : Prop :=
  match r1, r2 with
  | Ok (a, x), Ok (b, y) => a = b /\ P x y
  | Leave, Leave => True
  | _, _ => False
  end.

Lemma eqr_eqv : forall x y, eqr x y -> eqv x y.
Proof. intros x y (R & S & A & W & W' & Pa). repeat split; auto; try apply A. unfold view. now rewrite R, S. Qed.
#[export] Hint Resolve eqr_eqv : core.
Lemma rel_weaken : forall A (P Q : input -> input -> Prop) (r1 r2 : res (A * input)),
  (forall x y, P x y -> Q x y) -> rel P r1 r2 -> rel Q r1 r2.
Proof. intros A P Q r1 r2 H. destruct r1 as [[a x]| | |], r2 as [[b y]| | |]; simpl; intuition auto. Qed.
Lemma rel_bind : forall A B (P Q : input -> input -> Prop) (r1 r2 : res (A * input)) (f g : A * input -> res (B * input)),
  rel P r1 r2 -> (forall a x y, P x y -> rel Q (f (a, x)) (g (a, y))) -> rel Q (bind r1 f) (bind r2 g).
Proof.
  intros A B P Q r1 r2 f g H K. destruct r1 as [[a x]| | |], r2 as [[b y]| | |]; simpl in *; try contradiction; auto.
  destruct H as [-> H]. auto.
Qed.

Lemma rest_advance : forall x k, rest (set_start x (i_start x + k)) = skipn k (rest x).
Proof. intros. unfold rest at 1. cbn [set_start set_line i_start i_line]. now rewrite <- skipn_skipn. Qed.
Lemma rest_length : forall x, length (rest x) = length (i_line x) - i_start x.
Proof. intros. unfold rest. now rewrite skipn_length. Qed.
Lemma wf_advance : forall x k, wf x -> k <= length (rest x) -> wf (set_start x (i_start x + k)).
Proof. intros x k W. rewrite rest_length. unfold wf in *. simpl. lia. Qed.
Lemma eqr_advance : forall x y k, eqr x y -> k <= length (rest x) ->
  eqr (set_start x (i_start x + k)) (set_start y (i_start y + k)).
Proof.
  intros x y k (R & S & A & W & W' & Pa) Hk. unfold eqr. rewrite !rest_advance, R.
  split; [reflexivity|]. split; [exact S|]. split; [exact A|]. split; [|split; [|exact Pa]]; apply wf_advance; auto. now rewrite <- R.
Qed.

Lemma paired_same : forall x y, same_args y x -> paired x -> paired y.
Proof. intros x y (A & _ & C). unfold paired, eff. now rewrite A, C. Qed.
Lemma make_eqr : forall x y x1 y1, same_args x y -> paired x -> same_args x1 x -> same_args y1 y -> rest x1 = rest y1 ->
  significant (i_file x1) = significant (i_file y1) -> wf x1 -> wf y1 -> eqr x1 y1.
Proof.
  intros x y x1 y1 A P A1 A2 R S W W'. pose proof (paired_same _ _ A1 P). unfold eqr, same_args in *. intuition congruence.
Qed.
Lemma remove_rel : forall x y, eqv x y -> rel eqr (remove_whitespace x) (remove_whitespace y).
Proof.
  intros x y (V & A & W & W' & Pa). pose proof (remove_whitespaceP x W) as H. pose proof (remove_whitespaceP y W') as H'.
  rewrite <- V in H'. destruct (view x) as [|l r].
  - destruct H as (x1 & -> & ? & ? & ? & ?), H' as (y1 & -> & ? & ? & ? & ?). simpl. split; auto. apply (make_eqr x y); auto; congruence.
  - destruct H as (x1 & -> & ? & ? & ? & ? & _), H' as (y1 & -> & ? & ? & ? & ? & _). simpl. split; auto. apply (make_eqr x y); auto; congruence.
Qed.

Lemma skip_equal_length : forall p q last sp p1 q1 last1 sp1,
  skip_equal p q last sp = (p1, q1, last1, sp1) -> length p1 <= length p /\ length q1 <= length q.
Proof.
  induction p as [|a p IH]; intros q last sp p1 q1 last1 sp1 H.
  - destruct q; simpl in H; inversion H; subst; simpl; auto.
  - destruct q as [|b q]; simpl in H; [inversion H; subst; simpl; auto|].
    destruct ((a =? b)%Z && negb (isspace b)).
    + apply IH in H. simpl. lia.
    + inversion H; subst. auto.
Qed.
Lemma char_isspace0 : isspace 0 = false. Proof. reflexivity. Qed.
Lemma word_loop_length : forall n p q last sp r, word_loop n p q last sp = Some r ->
  length (fst (fst (fst r))) <= length p.
Proof.
  induction n; intros p q last sp r H; [discriminate|]. cbn [word_loop] in H.
  destruct p as [|a p]; [inversion H; subst; auto|]. destruct q as [|b q]; [inversion H; subst; auto|].
  destruct (skip_equal (a :: p) (b :: q) last sp) as [[[p1 q1] last1] sp1] eqn:E.
  pose proof (skip_equal_length _ _ _ _ _ _ _ _ E) as [L _]. pose proof (trim_length p1) as Lt. rewrite <- trimE in Lt.
  cbv zeta in H.
  destruct (_ =? _)%Z in H.
  - apply IHn in H. destruct (_ && _) in H; lia.
  - inversion H; subst. cbn [fst]. destruct (_ && _); lia.
Qed.
Lemma word_loop_ends : forall n p q last sp, length p < n -> word_loop n p q last sp <> None.
Proof.
  induction n; intros p q last sp Hn; [lia|]. cbn [word_loop].
  destruct p as [|a p]; [discriminate|]. destruct q as [|b q]; [discriminate|].
  destruct (skip_equal (a :: p) (b :: q) last sp) as [[[p1 q1] last1] sp1] eqn:E. cbv zeta.
  pose proof (skip_equal_length _ _ _ _ _ _ _ _ E) as [L _]. pose proof (trim_length p1) as Lt.
  change skip_space with trim.
  destruct (isspace (char_at q1) && isspace (char_at p1)) eqn:B.
  - destruct (_ =? _)%Z; [|discriminate]. apply IHn.
    destruct p1 as [|c p1]; [simpl in B; rewrite andb_false_r in B; discriminate|].
    simpl in B. apply andb_true_iff in B as [_ B]. simpl. rewrite B.
    pose proof (trim_length p1). simpl in *. lia.
  - destruct (char_at p1 =? char_at q1)%Z eqn:C; [|discriminate]. apply IHn.
    simpl in E. destruct ((a =? b)%Z && negb (isspace b)) eqn:D.
    + apply skip_equal_length in E as [E _]. simpl in Hn. lia.
    + inversion E; subst. simpl in B, C, D. apply Z.eqb_eq in C. subst.
      rewrite Z.eqb_refl in D. simpl in D. apply negb_false_iff in D. rewrite D in B. discriminate.
Qed.

Lemma c_str_length : forall s, length (c_str s) <= length s.
Proof. induction s; simpl; auto. destruct (a =? 0)%Z; simpl; lia. Qed.

(** The place after the key in the text [s]: how many characters to skip. *)
Definition key_skip (s key : text) : option nat :=
  let l := c_str s in
  match word_loop (S (length l)) (skip_space l) (skip_space (c_str key)) 0%Z false with
  | None => None
  | Some (p, q, last, sp) =>
      match skip_space q with
      | [] =>
          if sp || (char_at p =? 0)%Z || isspace (char_at p) || (last =? 44)%Z || (char_at p =? 44)%Z
          then Some (length l - length (skip_space p)) else None
      | _ => None
      end
  end.
Lemma has_wordsE : forall x key, wf x ->
  has_words x key = match key_skip (rest x) key with
                    | Some k => Ok (true, set_start x (i_start x + k))
                    | None => Ok (false, x)
                    end.
Proof.
  intros x key W. unfold has_words, key_skip. fold (rest x).
  replace (length (i_line x) <? i_start x) with false by (unfold wf in W; symmetry; apply Nat.ltb_ge; lia).
  cbv zeta. destruct (word_loop _ _ _ _ _) as [[[[p q] last] sp]|] eqn:E.
  - destruct (skip_space q); [|reflexivity]. destruct (_ || _); reflexivity.
  - exfalso. revert E. apply word_loop_ends. rewrite trimE. pose proof (trim_length (c_str (rest x))). lia.
Qed.
Lemma key_skip_le : forall s key k, key_skip s key = Some k -> k <= length s.
Proof.
  intros s key k H. unfold key_skip in H. cbv zeta in H.
  destruct (word_loop _ _ _ _ _) as [[[[p q] last] sp]|]; [|discriminate].
  destruct (skip_space q); [|discriminate]. destruct (_ || _); [|discriminate].
  inversion H. pose proof (c_str_length s). lia.
Qed.
Lemma has_words_rel : forall x y key, eqr x y -> rel eqr (has_words x key) (has_words y key).
Proof.
  intros x y key H. assert (H' := H). destruct H' as (R & S & A & W & W' & Pa). rewrite !has_wordsE, R by auto.
  destruct (key_skip (rest y) key) as [k|] eqn:E; simpl; auto.
  split; auto. apply eqr_advance; auto. rewrite R. eapply key_skip_le; eauto.
Qed.

Lemma token_end_le : forall s q k q', token_end s q = (k, q') -> k <= length s.
Proof.
  induction s; simpl; intros q k q' H; [inversion H; auto|].
  destruct ((negb (isspace a) && negb (a =? 44)%Z) || q); [|inversion H; lia].
  destruct (token_end s _) as [j r] eqn:E. inversion H; subst. apply IHs in E. lia.
Qed.

(** The first token of a text; [None] if the quotes do not match. *)
Definition token (s : text) : option text :=
  let '(k, quotes) := token_end s false in
  if quotes : bool then None else Some (firstn (if (k =? 0) && (char_at s =? 44)%Z then 1 else k) s).
Lemma token_le : forall s t, token s = Some t -> length t <= length s.
Proof.
  intros s t H. unfold token in H. destruct (token_end s false) as [k q]. destruct q; [discriminate|].
  inversion H. rewrite firstn_length. lia.
Qed.
Lemma token_prefix : forall s t, token s = Some t -> s = t ++ skipn (length t) s.
Proof.
  intros s t H. unfold token in H. destruct (token_end s false) as [k q]. destruct q; [discriminate|].
  inversion H. subst. set (m := if (k =? 0) && (char_at s =? 44)%Z then 1 else k). rewrite firstn_length.
  rewrite <- (firstn_skipn m s) at 1. f_equal. destruct (Nat.le_gt_cases m (length s)).
  - now rewrite Nat.min_l.
  - rewrite Nat.min_r by lia. rewrite !skipn_all2 by lia. reflexivity.
Qed.

Lemma peek_tokenP : forall x, wf x ->
  match view x with
  | [] => exists y, peek_token x = Ok (None, y) /\ same_args y x /\ rest y = [] /\ wf y /\ significant (i_file y) = []
  | l :: r => trim l = l /\ l <> [] /\
      match token l with
      | None => peek_token x = Leave
      | Some t => exists y, peek_token x = Ok (Some t, y) /\ same_args y x /\ rest y = l /\ wf y /\ significant (i_file y) = r
      end
  end.
Proof.
  intros x W. pose proof (remove_whitespaceP x W) as H. unfold peek_token. destruct (view x) as [|l r].
  - destruct H as (y & -> & H). exists y. split; [reflexivity|exact H].
  - destruct H as (y & E & A & R & W' & S & T & N). rewrite E. split; [exact T|]. split; [exact N|].
    cbn [bind]. replace (length (i_line y) <? i_start y) with false by (unfold wf in W'; symmetry; apply Nat.ltb_ge; lia).
    fold (rest y). rewrite R. unfold token. cbv zeta. destruct (token_end l false) as [k q].
    destruct q; [reflexivity|]. exists y. auto.
Qed.
Lemma peek_rel : forall x y, eqv x y -> rel eqr (peek_token x) (peek_token y).
Proof.
  intros x y (V & A & W & W' & Pa). pose proof (peek_tokenP x W) as H. pose proof (peek_tokenP y W') as H'.
  rewrite <- V in H'. destruct (view x) as [|l r].
  - destruct H as (x1 & -> & ? & ? & ? & ?), H' as (y1 & -> & ? & ? & ? & ?). simpl. split; auto. apply (make_eqr x y); auto; congruence.
  - destruct H as (_ & _ & H), H' as (_ & _ & H'). destruct (token l) as [t|].
    + destruct H as (x1 & -> & ? & ? & ? & ?), H' as (y1 & -> & ? & ? & ? & ?). simpl. split; auto. apply (make_eqr x y); auto; congruence.
    + rewrite H, H'. exact I.
Qed.
(** A token found is the beginning of the text. *)
Lemma peek_prefix : forall x t y, wf x -> peek_token x = Ok (Some t, y) -> token (rest y) = Some t /\ rest y <> [] /\ trim (rest y) = rest y.
Proof.
  intros x t y W H. pose proof (peek_tokenP x W) as P. destruct (view x) as [|l r].
  - destruct P as (z & E & _). congruence.
  - destruct P as (T & N & P). destruct (token l) as [t'|] eqn:Et.
    + destruct P as (z & E & _ & R & _). rewrite E in H. inversion H; subst. auto.
    + congruence.
Qed.

Lemma get_token_rel : forall x y, eqv x y -> rel eqr (get_token x) (get_token y).
Proof.
  intros x y H. pose proof (peek_rel x y H) as P. destruct H as (V & A & W & W' & Pa). unfold get_token.
  destruct (peek_token x) as [[[t|] x1]| | |] eqn:E, (peek_token y) as [[t' y1]| | |] eqn:E'; simpl in P |- *; try contradiction; auto.
  - destruct P as [<- P]. split; auto. apply eqr_advance; auto.
    apply peek_prefix in E as [E _]; auto. now apply token_le.
  - destruct P as [<- P]. simpl. auto.
Qed.
Lemma match_token_rel : forall x y s, eqv x y -> rel eqr (match_token x s) (match_token y s).
Proof.
  intros x y s H. pose proof (peek_rel x y H) as P. destruct H as (V & A & W & W' & Pa). unfold match_token.
  destruct (peek_token x) as [[[t|] x1]| | |] eqn:E, (peek_token y) as [[t' y1]| | |] eqn:E'; simpl in P |- *; try contradiction; auto.
  - destruct P as [<- P]. destruct (same_text t s) eqn:Es; simpl; auto. split; auto. apply eqr_advance; auto.
    apply peek_prefix in E as [E _]; auto. apply same_text_iff in Es. subst. now apply token_le.
  - destruct P as [<- P]. simpl. auto.
Qed.

Definition rel1 (P : input -> input -> Prop) (r1 r2 : res input) : Prop :=
  match r1, r2 with Ok x, Ok y => P x y | Leave, Leave => True | _, _ => False end.
Lemma override_even : forall l key, Nat.even (length l) = true -> exists r a, override l key = Ok (r, a) /\ length a = length l.
Proof.
  enough (H : forall n l key, length l <= n -> Nat.even (length l) = true -> exists r a, override l key = Ok (r, a) /\ length a = length l)
    by (intros; eapply H; eauto).
  induction n; intros l key Hn E.
  - destruct l; simpl in *; [eauto|lia].
  - destruct l as [|k [|v t]]; simpl.
    + eauto.
    + discriminate.
    + destruct (same_text k key); eauto.
      destruct (IHn t key) as (r & a & Eo & L); [simpl in Hn; lia|exact E|]. rewrite Eo. simpl. do 2 eexists. split; [reflexivity|]. simpl. lia.
Qed.
Lemma scan_rel : forall x y key, eqr x y -> rel1 eqr (scan_cmdline x key) (scan_cmdline y key).
Proof.
  intros x y key (R & S & (A & F & C) & W & W' & Pa). unfold scan_cmdline. rewrite <- F, <- A, <- C.
  destruct (i_first x) eqn:Ef.
  2:{ simpl. unfold eqr, same_args. intuition congruence. }
  cbv zeta. fold (eff x). destruct (override_even (eff x) key Pa) as (r & a & Eo & L). rewrite Eo. simpl.
  assert (Pz : forall z, i_args z = a -> i_cmd z = i_cmd x -> paired z).
  { intros z Ez Ec. unfold paired. unfold paired in Pa. rewrite <- L in Pa. unfold eff at 1. rewrite Ez, Ec. destruct a; auto.
    destruct (eff x) eqn:El; [|discriminate]. unfold eff in El. destruct (i_args x); [|discriminate].
    destruct (i_cmd x) as [l|]; subst; auto. }
  destruct r as [v|]; simpl; unfold eqr, same_args, rest, wf in *; simpl; rewrite ?app_length; simpl; repeat split; auto; try congruence; try lia;
    apply Pz; auto.
Qed.
Lemma handle_rel : forall x y key, eqv x y -> rel eqr (handle_key x key) (handle_key y key).
Proof.
  intros x y key H. unfold handle_key. eapply rel_bind; [apply remove_rel, H|]. intros _ x1 y1 H1.
  eapply rel_bind with (P := eqr).
  - destruct (0 <? length key); [now apply has_words_rel|]. simpl. auto.
  - intros b x2 y2 H2. destruct b.
    + pose proof (scan_rel x2 y2 key H2) as P.
      destruct (scan_cmdline x2 key), (scan_cmdline y2 key); simpl in *; try contradiction; auto.
    + simpl. auto.
Qed.

Lemma view_wf : forall x y, eqv x y -> wf x /\ wf y.
Proof. intros x y (_ & _ & W & W' & _). auto. Qed.

Section Values.
Context {T : Type}.
Variable value : text -> option T.
Lemma get_value_rel : forall x y key, eqv x y -> rel eqr (get_value value x key) (get_value value y key).
Proof.
  intros x y key H. unfold get_value. eapply rel_bind; [apply handle_rel, H|]. intros b x1 y1 H1. destruct b.
  - eapply rel_bind; [apply get_token_rel; auto|]. intros t x2 y2 H2. simpl. auto.
  - simpl. auto.
Qed.
Lemma get_number_rel : forall x y, eqv x y -> rel eqr (get_number value x) (get_number value y).
Proof. intros x y H. unfold get_number. eapply rel_bind; [apply get_token_rel, H|]. intros t x2 y2 H2. simpl. auto. Qed.
Lemma get_complex_rel : forall x y key, eqv x y -> rel eqr (get_complex value x key) (get_complex value y key).
Proof.
  intros x y key H. unfold get_complex. eapply rel_bind; [apply handle_rel, H|]. intros b x1 y1 H1. destruct b; [|simpl; auto].
  eapply rel_bind; [apply match_token_rel; auto|]. intros b x2 y2 H2. destruct b; [|simpl; auto].
  eapply rel_bind; [apply get_number_rel; auto|]. intros [re|] x3 y3 H3; [|simpl; auto].
  eapply rel_bind; [apply match_token_rel; auto|]. intros b x4 y4 H4. destruct b; [|simpl; auto].
  eapply rel_bind; [apply get_number_rel; auto|]. intros [im|] x5 y5 H5; [|simpl; auto].
  eapply rel_bind; [apply match_token_rel; auto|]. intros b x6 y6 H6. simpl. auto.
Qed.
Lemma get_rest_rel : forall n x y, eqv x y -> rel eqv (get_rest value n x) (get_rest value n y).
Proof.
  induction n; intros x y H; [simpl; auto|]. cbn [get_rest].
  eapply rel_bind; [apply get_value_rel, H|]. intros [v|] x1 y1 H1; [|simpl; auto].
  eapply rel_bind; [apply IHn; auto|]. intros l x2 y2 H2. simpl. auto.
Qed.
Lemma get_vector_rel : forall n x y key, eqv x y -> rel eqv (get_vector value n x key) (get_vector value n y key).
Proof.
  intros n x y key H. unfold get_vector. eapply rel_bind; [apply get_value_rel, H|]. intros [v|] x1 y1 H1; [|simpl; auto].
  eapply rel_bind; [apply get_rest_rel; auto|]. intros l x2 y2 H2. simpl. auto.
Qed.
End Values.

Lemma find_item_rel : forall dbl tok items k x y, eqr x y -> rel eqr (find_item dbl x tok items k) (find_item dbl y tok items k).
Proof.
  intros dbl tok. induction items as [|i items IH]; intros k x y H; [simpl; auto|]. cbn [find_item].
  destruct (_ || _ || _); [simpl; auto|].
  eapply rel_bind; [apply has_words_rel, H|]. intros b x1 y1 H1. destruct b; [simpl; auto|]. now apply IH.
Qed.
Lemma get_item_rel : forall dbl x y key items, eqv x y -> rel eqr (get_item dbl x key items) (get_item dbl y key items).
Proof.
  intros dbl x y key items H. unfold get_item. eapply rel_bind; [apply handle_rel, H|]. intros b x1 y1 H1. destruct b; [|simpl; auto].
  eapply rel_bind; [apply peek_rel; auto|]. intros [t|] x2 y2 H2; [|simpl; auto]. now apply find_item_rel.
Qed.
