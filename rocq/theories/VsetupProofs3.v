From Coq Require Import Znumtheory.
From Verif Require Import Common LayoutModel LayoutSpec LayoutProofs1 LayoutProofs2 LayoutProofs3 SetupModel SetupProofs1 SetupProofs2
  VlayoutModel VlayoutSpec VsetupModel VsetupProofs1 VsetupProofs2.

(** *** Outcomes that do not occur *)
Lemma no_inner_loop : forall fuel ls nodes nsub, ls <> [] -> Forall (fun x => 0 < x) ls -> 0 < nodes -> 2 <= nsub ->
  vsetup_layout fuel ls nodes nsub <> VSubLoopsOn /\ vsetup_layout fuel ls nodes nsub <> VNoMerged.
Proof.
  intros fuel ls nodes nsub Hl Hls Hnn Hns. unfold vsetup_layout. destruct (existsb _ _); [split; discriminate|].
  set (nn := nodes * nsub). assert (Hn : 0 < nn) by (unfold nn; nia).
  destruct (factorize nn) as [fs|] eqn:Ef; [|split; discriminate].
  destruct (factor_rev nn fs Hn Ef) as [P1 P2].
  assert (X : forall fuel gh b, vlayout_loop fuel ls nn nsub (rev fs) gh b <> VSubLoopsOn /\ vlayout_loop fuel ls nn nsub (rev fs) gh b <> VNoMerged).
  { induction fuel0 as [|k IH]; intros gh b; cbn [vlayout_loop]; [split; discriminate|].
    assert (Q := vattempt_ok ls nn nsub (rev fs) (choose_gdir ls nn gh) Hls Hn P1 P2 (fun k => choose_lt ls nn gh k Hl) ltac:(lia)).
    destruct (vattempt _ _ _ _ _) as [sz dv sd m| | |]; [|destruct b, (choose_gdir ls nn gh); try (split; discriminate); apply IH|split; discriminate|contradiction].
    destruct Q as (_ & (_ & _ & _ & _ & Hm) & _). destruct b; [apply IH|]. destruct m; [split; discriminate|lia]. }
  apply X.
Qed.

(** *** Two turns or never *)
Lemma second_turn : forall ls nn nsub fs gh,
  (forall fuel, vlayout_loop (S fuel) ls nn nsub fs gh true = vlayout_loop 1 ls nn nsub fs gh true /\
                vlayout_loop (S fuel) ls nn nsub fs gh true <> VLoopsOn) \/
  (forall fuel, vlayout_loop fuel ls nn nsub fs gh true = VLoopsOn).
Proof.
  intros ls nn nsub fs gh. destruct (vattempt ls nn nsub fs (choose_gdir ls nn gh)) as [sz dv sd m| | |] eqn:E.
  - right. induction fuel as [|k IH]; cbn [vlayout_loop]; auto. rewrite E. auto.
  - left. intros fuel. cbn [vlayout_loop]. rewrite E. split; [auto|discriminate].
  - left. intros fuel. cbn [vlayout_loop]. rewrite E. split; [auto|discriminate].
  - left. intros fuel. cbn [vlayout_loop]. rewrite E. split; [auto|discriminate].
Qed.

Lemma vtwo_turns_or_never : forall ls nodes nsub,
  (forall fuel, (2 <= fuel)%nat -> vsetup_layout fuel ls nodes nsub = vsetup_layout 2 ls nodes nsub /\
                                   vsetup_layout fuel ls nodes nsub <> VLoopsOn) \/
  (forall fuel, vsetup_layout fuel ls nodes nsub = VLoopsOn).
Proof.
  intros ls nodes nsub. unfold vsetup_layout. destruct (existsb _ _); [left; intros; split; [auto|discriminate]|].
  set (nn := nodes * nsub). destruct (factorize nn) as [fs|]; [|left; intros; split; [auto|discriminate]].
  set (gh := ghosts ls nn). set (g := choose_gdir ls nn gh).
  assert (X : forall k, vlayout_loop (S k) ls nn nsub (rev fs) gh false =
    match vattempt ls nn nsub (rev fs) g with
    | Stuck => VCannotHappen | StillRunning => VSubLoopsOn
    | Rejected => match g with Some j => vlayout_loop k ls nn nsub (rev fs) (fun d => if Nat.eqb d j then 2 ^ 62 else gh d) true | None => VFail end
    | Accepted sz dv sd m => match m with Some j => VLayout g sz dv sd j | None => VNoMerged end end) by reflexivity.
  destruct (vattempt ls nn nsub (rev fs) g) as [sz dv sd m| | |].
  - left. intros [|[|k]] Hk; try lia. rewrite !X. split; [auto|destruct m; discriminate].
  - destruct g as [j|].
    + destruct (second_turn ls nn nsub (rev fs) (fun d => if Nat.eqb d j then 2 ^ 62 else gh d)) as [S|S].
      * left. intros [|[|k]] Hk; try lia. rewrite !X. apply S.
      * right. intros [|k]; [reflexivity|]. rewrite X. apply S.
    + left. intros [|[|k]] Hk; try lia. rewrite !X. split; [auto|discriminate].
  - left. intros [|[|k]] Hk; try lia. rewrite !X. split; [auto|discriminate].
  - left. intros [|[|k]] Hk; try lia. rewrite !X. split; [auto|discriminate].
Qed.

(** *** Volumes divisible by the number of virtual nodes *)
Lemma nth_map_seq : forall ls nn, Forall (fun x => 0 < x) ls -> 0 < nn -> zprod ls mod nn = 0 ->
  map (nsize ls nn) (seq 0 (length ls)) = ls.
Proof.
  intros ls nn Hls Hn H. apply list_eq_nth; [rewrite map_length, seq_length; auto|].
  rewrite map_length, seq_length. intros j Hj. rewrite (nth_indep _ 0 (nsize ls nn 0)) by (rewrite map_length, seq_length; auto).
  rewrite map_nth, seq_nth by auto. apply nsize_even; auto.
Qed.
Lemma choose_none : forall ls nn gh, Forall (fun x => 0 < x) ls -> 0 < nn -> zprod ls mod nn = 0 -> choose_gdir ls nn gh = None.
Proof.
  intros ls nn gh Hls Hn H. unfold choose_gdir. rewrite nth_map_seq by auto. rewrite Z.gtb_ltb, Z.ltb_irrefl. auto.
Qed.

Lemma vdivisible : forall ls nodes nsub fuel, Forall (fun x => 0 < x) ls -> 0 < nodes -> 0 < nsub ->
  zprod ls mod (nodes * nsub) = 0 -> (1 <= fuel)%nat ->
  vsetup_layout fuel ls nodes nsub <> VLoopsOn /\ vsetup_layout fuel ls nodes nsub <> VCannotHappen /\
  (forall g sz dv sd m, vsetup_layout fuel ls nodes nsub = VLayout g sz dv sd m -> g = None).
Proof.
  intros ls nodes nsub fuel Hls Hnn Hns H Hf. unfold vsetup_layout.
  destruct (existsb _ _); [repeat split; discriminate|].
  set (nn := nodes * nsub) in *. assert (Hn : 0 < nn) by (unfold nn; nia).
  destruct (factorize nn) as [fs|] eqn:Ef; [|repeat split; discriminate].
  destruct (factor_rev nn fs Hn Ef) as [P1 P2].
  destruct fuel as [|k]; [lia|]. cbn [vlayout_loop]. rewrite (choose_none ls nn) by auto. unfold vattempt.
  assert (Hst : vstart_sizes ls nn None = ls).
  { apply list_eq_nth; [apply vstart_length|]. rewrite vstart_length. intros j Hj. rewrite vstart_nth by auto. reflexivity. }
  destruct (vslice_some (rev fs) ls (map (fun _ => 1) ls)) as ((sz & dv) & E); auto.
  { rewrite P1. apply Z.mod_divide; auto. lia. }
  rewrite Hst, E. destruct (existsb _ _); [repeat split; discriminate|].
  destruct (subdivide _ _ _ _ _ _ _ _) as [[[sd ns] m]|]; [|repeat split; discriminate].
  destruct (negb _ || _); [repeat split; discriminate|]. destruct m as [m|]; [|repeat split; discriminate].
  repeat split; try discriminate. intros. congruence.
Qed.
