(** The model and the operators: violation, correction, one step. *)
Set Warnings "-notation-overridden,-ambiguous-paths".
From Coq Require Import ZArith List.
From mathcomp Require Import all_ssreflect all_algebra.
From Verif Require Import LinalgSpec AlgebraModel AlgebraSpec AlgebraProofs5 AlgebraProps
  GaugeModel GaugeSpec GaugeMatrix GaugeProofs1 MatrixSpec ForceModel ForceSpec
  ForceProofs1 ForceProofs2 ForceProofs3 ForceProofs4 ForceProofs5 ForceProofs10 GaussModel GaussSpec GaussProofs1 GaussProofs2.
Set Implicit Arguments.
Unset Strict Implicit.
Unset Printing Implicit Defensive.
Import Order.TTheory GRing.Theory Num.Theory.
Local Open Scope ring_scope.

Lemma fold_set (A : Type) (l : list nat) (h : nat -> A -> site -> A) (E : nat -> site -> A) d x : NoDup l ->
  fold_left (fun (E : nat -> site -> A) dir => fun d' x => if Nat.eqb d' dir then h dir (E dir x) x else E d' x) l E d x
  = if existsb (Nat.eqb d) l then h d (E d x) x else E d x.
Proof.
elim: l E => [//|e l IH] E H; have [He Hl] : ~ In e l /\ NoDup l by inversion H.
cbn [fold_left existsb]; rewrite IH //.
case: (Nat.eqb_spec d e) => [->|ne]; last by [].
rewrite orTb; have -> : existsb (Nat.eqb e) l = false; last by [].
apply/negbTE/negP => /existsb_exists [z [hz /PeanoNat.Nat.eqb_eq ez]]; apply: He; by rewrite ez.
Qed.

Lemma directions_NoDup L : NoDup (directions L).
Proof. exact: seq_NoDup. Qed.

Lemma directions_exists L d : existsb (Nat.eqb d) (directions L) = (d < length L)%N.
Proof.
apply/idP/idP => [/existsb_exists [z [hz /PeanoNat.Nat.eqb_eq ->]]|h]; first exact: directions_lt.
apply/existsb_exists; exists d; split; last exact: PeanoNat.Nat.eqb_refl.
by apply/in_seq; split; [exact: PeanoNat.Nat.le_0_l|apply/ssrnat.ltP].
Qed.

Lemma int_of_nat (k : nat) : int_of_Z (Z.of_nat k) = Posz k.
Proof. by case: k => //= k; rewrite SuccNat2Pos.id_succ. Qed.

Lemma length_flat (A B : Type) (f : A -> list B) m (l : list A) : (forall a, length (f a) = m) ->
  length (flat_map f l) = (length l * m)%N.
Proof. by move=> H; elim: l => [//|a l IH]; cbn [flat_map]; rewrite app_length H IH mulSn. Qed.

Lemma sites_size L : sizes L -> Z.of_nat (length (sites L)) = Common.zprod L.
Proof.
elim: L => [//|l L IH] H; have [hl HL] : (Z.lt Z0 l) /\ sizes L by inversion H.
rewrite Common.zprod_cons -IH //; cbn [sites].
rewrite (length_flat (m := length (sites L))); last by move=> a; rewrite map_length.
rewrite Common.zrange_length Nat2Z.inj_mul Z2Nat.id //.
by apply: Z.lt_le_incl.
Qed.

Section Model.
Variables (C : numClosedFieldType) (n : nat) (L : list Z) (ex : (nat -> C) -> 'M[C]_n).
Hypotheses (n0 : (0 < n)%N) (HL : sizes L).
Notation CM := (complex_matrices C n).
Notation SU := (su_algebra C n).
Notation PG := (su_gauss ex).
Notation N := (n * n - 1)%N.
Notation Ex := (@algebra_matrix C n).
Notation rc := (real_components (n * n - 1)).
Notation down := (GaugeModel.down L).
Implicit Types (U : links C n) (E : moments C).

Lemma fold_fields (l : list nat) (f : nat -> site -> nat -> C) g x k :
  fold_left (fun (gauss : site -> nat -> C) d => fun x => aadd CM SU (gauss x) (f d x)) l g x k
  = g x k + \sum_(d <- l) f d x k.
Proof.
elim: l g => [|d l IH] g; first by rewrite big_nil addr0.
by cbn [fold_left]; rewrite IH big_cons addrA.
Qed.

Lemma gauss_value U E x k : get_gauss_violation CM SU PG L U E x k = DV L U E x k.
Proof. by rewrite /get_gauss_violation fold_fields add0r. Qed.

Lemma fix_value U E v mag d x k : gauss_fix_step CM SU PG L U E v mag d x k
  = if (d < length L)%N then E d x k - mag * DT L U v d x k else E d x k.
Proof.
rewrite /gauss_fix_step /set_dir.
rewrite (fold_set (fun dir e x => asub CM SU e (ascale CM SU PG mag (asub CM SU (v x)
  (to_algebra CM SU PG (GaugeModel.mul CM (GaugeModel.mul CM (U dir x) (to_matrix CM SU PG (v (up L dir x)))) (dagger CM (U dir x)))))))
  E d x (directions_NoDup L)) directions_exists.
by case: ifP.
Qed.

Lemma fix_eq U E v mag : eqm n L (gauss_fix_step CM SU PG L U E v mag) (fun d x k => E d x k + (- mag) * DT L U v d x k).
Proof. by move=> d h x k hx hk; rewrite fix_value h mulNr. Qed.

Lemma realm_of E : real_momenta n L E <-> realm n L E.
Proof. by split=> R d; [move=> h x hx k hk|move=> x k h hx hk]; [apply: R|apply: (R d h x hx)]. Qed.

Lemma eqm_real E F : eqm n L E F -> realm n L F -> realm n L E.
Proof. by move=> Q R d h x hx k hk; rewrite (Q d h x k hx hk); apply: (R d h x hx). Qed.
Lemma eqf_real (v w : site -> nat -> C) : eqf n L v w -> realf n L w -> realf n L v.
Proof. by move=> Q R x hx k hk; rewrite (Q x k hx hk); apply: (R x hx). Qed.

Lemma norm_value (v : site -> nat -> C) : realf n L v -> total_squarenorm CM SU L v = ip n L v v.
Proof.
move=> R; rewrite /total_squarenorm (fold_sum (f := fun x => dot n (v x) (v x))) ?add0r //.
move=> x s /sites_In hx; congr (_ + _); apply: eq_bigr => k _.
by rewrite real_normK; [rewrite expr2|apply: (R x hx)].
Qed.

Lemma volumeE : (int_of_Z (Common.zprod L))%:~R = volume C L.
Proof. by rewrite -(sites_size HL) int_of_nat. Qed.
Lemma volume_gt0 : 0 < volume C L.
Proof.
rewrite /volume ltr0n lt0n; apply/negP => /eqP Z.
have := sites_size HL; have := Common.zprod_pos L HL.
by rewrite -[length _]/(size (sites L)) Z => P Q; move: P; rewrite -Q.
Qed.

(** The matrix of the violation. *)
Lemma Ex0 : Ex (fun _ => 0) = 0.
Proof. exact: (expand0 (fun x : C => x) 0 (C73_hypotheses C)). Qed.
Lemma Ex_sum (l : list nat) (f : nat -> nat -> C) : Ex (fun k => \sum_(d <- l) f d k) = \sum_(d <- l) Ex (f d).
Proof.
elim: l => [|d l IH].
  rewrite big_nil -Ex0; apply: Ex_ext => k _; by rewrite big_nil.
rewrite big_cons -IH -[X in _ = _ + X]scale1r -Ex_lin ?real1 //; apply: Ex_ext => k _.
by rewrite big_cons mul1r.
Qed.
Lemma Ex_sub (a b : nat -> C) : Ex (fun k => a k - b k) = Ex a - Ex b.
Proof.
rewrite -[X in _ = _ + X]scaleN1r -Ex_lin ?rpredN ?real1 //; apply: Ex_ext => k _.
by rewrite mulN1r.
Qed.

Lemma divergenceE U E x : unitary_links L U -> realm n L E -> on_lattice L x ->
  Ex (DV L U E x) = divergence L U E x.
Proof.
move=> HU R hx; rewrite /DV Ex_sum; apply: big_In => d /directions_lt h.
rewrite Ex_sub Ex_pull //; first by apply: (R d h); apply: down_on.
by apply: (unit_r HU h); apply: down_on.
Qed.

Lemma violationE U E : unitary_links L U -> realm n L E -> total_violation L U E = ip n L (DV L U E) (DV L U E).
Proof.
move=> HU R; apply: sum_sites => x hx; rewrite -divergenceE // -dot_norm //.
by apply: (DV_real n0 U R hx).
Qed.

Lemma divergence_zero U E : unitary_links L U -> realm n L E ->
  (forall x, on_lattice L x -> divergence L U E x = 0) <-> eqf n L (DV L U E) (fun _ _ => 0).
Proof.
move=> HU R; split=> H x.
  move=> k hx hk; rewrite -(toalg_Ex n0 (DV_real n0 U R hx) hk) (divergenceE HU R hx) H //.
  rewrite -[0 in LHS]Ex0 toalg_Ex // => j _; exact: real0.
move=> hx; rewrite -(divergenceE HU R hx) -Ex0; apply: Ex_ext => k hk; exact: H.
Qed.
End Model.
