(** C36: the source rewriting buffer behaves like an edited text. *)
From Coq Require Import String.
From Verif Require Import Common RandomModel SrcbufModel SrcbufSpec SrcbufProofs1 SrcbufProofs2 SrcbufProofs3 SrcbufProofs4.
Open Scope nat_scope.

(** Any sequence of edits fails exactly when an edit is outside the text.  Otherwise every part
    of the text is read as edited, the places touched are reported, and the original text is
    unchanged.  [dump] shows the prepended text, the edited text and [surplus]. *)
Theorem C36_edits : forall (t : text) (es : list edit),
  match apply_all (fresh t) es with
  | Some d => exists st, obey_all (create t) es = Some st /\
      dump st = Some (d_front d ++ shown d ++ surplus d) /\
      (forall i1 i2, get st i1 i2 = if (i1 <=? i2) && (i2 <? size d) then Some (shown_part d i1 i2) else None) /\
      (forall i, i <= List.length (d_text d) -> is_edited st i = Some (match nth_error (d_cells d) i with Some (mkCell None true) => false | _ => true end)) /\
      buf st = d_text d ++ [blank; blank] /\ original_size st = List.length (d_text d) /\
      (forall i, get_original st i = nth_error (d_text d) i)
  | None => obey_all (create t) es = None
  end.
Proof.
  intros t es. pose proof (obey_all_rep es (create t) (fresh t) (create_rep t)) as H. destruct (apply_all (fresh t) es) as [d|]; [|exact H].
  destruct H as [st [A R]]. exists st. split; [exact A|]. split; [exact (rep_dump st d R)|].
  split; [intros i1 i2; exact (rep_get st d i1 i2 R)|]. split; [intros i Hi; exact (rep_edited st d i R Hi)|].
  split; [apply (r_buf _ _ R)|]. split; [apply (r_n _ _ R)|]. intros i. exact (rep_original st d i R).
Qed.
Print Assumptions C36_edits.

(** Without prepended text, or with the last place still showing something, nothing is added. *)
Theorem C36_dump : forall (t : text) (es : list edit) (d : doc),
  apply_all (fresh t) es = Some d -> (d_front d = [] \/ last_gone d = false) ->
  exists st, obey_all (create t) es = Some st /\ dump st = Some (d_front d ++ shown d).
Proof.
  intros t es d Hd Hs. pose proof (obey_all_rep es (create t) (fresh t) (create_rep t)) as H. rewrite Hd in H. destruct H as [st [A R]].
  exists st. split; [exact A|]. rewrite (rep_dump st d R). f_equal. f_equal. unfold surplus. destruct Hs as [->| ->]; [apply app_nil_r|].
  destruct (d_front d); apply app_nil_r.
Qed.
Print Assumptions C36_dump.

(** The original text is only replaced by taking a copy of a part. *)
Theorem C36_original : forall (t : text) (es : list edit) (d : doc),
  apply_all (fresh t) es = Some d -> (forall a n, ~ In (Copy a n) es) -> d_text d = t.
Proof.
  intros t es d. change t with (d_text (fresh t)) at 2. generalize (fresh t) as d0. induction es as [|e es IH]; intros d0 H Hn; cbn [apply_all] in H.
  - injection H as <-. reflexivity.
  - destruct (apply d0 e) as [d1|] eqn:E; [|discriminate]. rewrite (IH d1 H) by (intros a n Hin; apply (Hn a n); right; exact Hin).
    clear IH H. assert (I : forall d0 i s f x d1, apply_insert d0 i s f x = Some d1 -> d_text d1 = d_text d0).
    { intros d2 i s f x d3. unfold apply_insert. destruct (d_on d2); [|congruence]. destruct (i <=? List.length (d_text d2)); [|discriminate]. intros H. injection H as <-. reflexivity. }
    assert (J : forall d0 i1 i2 d1, apply_remove d0 i1 i2 = Some d1 -> d_text d1 = d_text d0).
    { intros d2 i1 i2 d3. unfold apply_remove. destruct ((i1 <=? i2) && (i2 <? size d2)); [|discriminate]. destruct (d_on d2); intros H; injection H as <-; reflexivity. }
    destruct e as [i s first indent|i1 i2|i1 i2 s|s indent|s| | |a n]; cbn [apply] in E.
    + exact (I _ _ _ _ _ _ E).
    + exact (J _ _ _ _ E).
    + destruct (apply_remove d0 i1 i2) as [d2|] eqn:E2; [|discriminate]. rewrite (I _ _ _ _ _ _ E). exact (J _ _ _ _ E2).
    + exact (I _ _ _ _ _ _ E).
    + injection E as <-. destruct (d_on d0); reflexivity.
    + injection E as <-. reflexivity.
    + injection E as <-. reflexivity.
    + exfalso. apply (Hn a n). left. reflexivity.
Qed.
Print Assumptions C36_original.

(** The full claim for [dump] is false: after a prepend, a text whose end was removed is
    followed by a blank nobody inserted. *)
Theorem C36_dump_refuted : exists (t : text) (es : list edit) (d : doc) (st : srcbuf),
  apply_all (fresh t) es = Some d /\ obey_all (create t) es = Some st /\
  d_front d ++ shown d = codes "x=a" /\ dump st = Some (codes "x=a ").
Proof.
  exists (codes "a;"), [Prepend (codes "x="); Remove 1 1]. eexists. eexists. split; [reflexivity|]. split; [reflexivity|]. split; reflexivity.
Qed.
Print Assumptions C36_dump_refuted.

(** Insertions before and after each other, a recycled slot, an indented insertion at the end
    and a copy. *)
Definition ex_edits : list edit :=
  [Insert 4 (codes "cat") false false; Insert 4 (codes "fat ") true false; Remove 3 5; Insert 7 (codes "dog") false false;
   Replace 0 1 (codes "AB"); Insert 2 (codes "q") false false; Remove 2 2; Insert 9 (codes "mouse") false false; Prepend (codes ">")].

Example C36_edits_example :
  match apply_all (fresh (codes "0123456789")) ex_edits, obey_all (create (codes "0123456789")) ex_edits with
  | Some d, Some st => shown d = codes "AB6dog78mouse9" /\ surplus d = [] /\ dump st = Some (codes ">AB6dog78mouse9") /\
      get st 3 7 = Some (codes "6dog7") /\ get st 4 5 = Some [] /\ is_edited st 6 = Some false /\ is_edited st 7 = Some true /\
      get_original st 4 = Some 52%Z /\ List.length (extents st) = 3 /\
      obey st (Insert 11 [] false false) = None /\ get st 3 10 = None
  | _, _ => False
  end.
Proof. vm_compute. repeat split; try reflexivity; try lia; try discriminate. Qed.

Example C36_indent_example :
  obey_all (create (codes "  a;
    b;")) [Append (codes "
c
d") true; Insert 2 (codes "e
") false true; Copy 2 8; Append (codes "!") false] <> None /\
  match obey_all (create (codes "  a;
    b;")) [Append (codes "
c
d") true; Insert 2 (codes "e
") false true] with
  | Some st => dump st = Some (codes "  e
  a;
    b;
    c
    d")
  | None => False
  end.
Proof. vm_compute. split; [discriminate|reflexivity]. Qed.
