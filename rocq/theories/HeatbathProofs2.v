(** The sweep over the subgroups. *)
Set Warnings "-notation-overridden,-ambiguous-paths".
From mathcomp Require Import all_ssreflect all_algebra.
From Verif Require Import FieldTac LinalgModel LinalgSpec LinalgProofs1 MatrixModel MatrixSpec MatrixProofs1 MatrixProofs2 EigenSpec EigenProofs1 EigenProofs2
  SuModel SuSpec SuProofs2 AlgebraModel AlgebraSpec AlgebraProofs3 AlgebraProofs4 Su2Model Su2Spec Su2Proofs1 Su2Proofs2 Su2Proofs3
  OverrelaxProofs1 OverrelaxProofs2 OverrelaxProofs3 OverrelaxProofs4 HeatbathModel HeatbathSpec HeatbathProofs1.
Set Implicit Arguments.
Unset Strict Implicit.
Unset Printing Implicit Defensive.
Import Order.TTheory GRing.Theory Num.Theory.
Local Open Scope ring_scope.

Section Sweep.
Variables (F : numFieldType) (f : F -> F) (u : F) (cj : {rmorphism F -> F}) (re im root log exp sin cos : F -> F) (I pi2 : F).
Hypothesis P : complex_parts cj re im root I.
Hypothesis R : real_functions log exp sin cos.
Hypothesis pi_real : pi2 \is Num.real.
Variable rnd : nat -> F.
Hypothesis D : random_numbers rnd.
Notation FS := (field_scalars f u).
Notation FT := (mc_field F).
Notation M q := (mxr 2 2 (su2_matrix FS I q)).
Notation project := (project_from_matrix FS re im).
Notation mtx := (nat -> nat -> F).
Notation Hit := (heat_hit FS re im root log exp sin cos I pi2 rnd).
Notation Sweep := (heat_sweep FS cj re im root log exp sin cos I pi2 rnd).
Notation Choose := (choose FS log exp cos pi2 rnd).
Notation Direction := (direction FS root sin cos pi2 rnd).

Lemma heat_stapleE A p q : heat_staple FS re im A p q = su2_scale FS (su2_dagger FS (project A p q)) (2%:R : F).
Proof.
have h : half FS * 2%:R = 1 :> F by rewrite halfE mulVf // pnatr_eq0.
by apply: su2_ext; rewrite /= ?mulNr -mulrA h mulr1.
Qed.

Lemma det_scale q (r : F) : su2_det FS (su2_scale FS q r) = su2_det FS q * (r * r).
Proof. by rewrite /su2_det /= !mulrDl; do !congr (_ + _); rewrite mulrACA. Qed.

Lemma real_scale q (r : F) : real_su2 q -> r \is Num.real -> real_su2 (su2_scale FS q r).
Proof. by case=> ra rb rc rd rr; split; exact: realM. Qed.

Definition unit_staple (A : mtx) p q : su2 FS := su2_normalize FS root (heat_staple FS re im A p q).
Definition strength (b3 : F) (A : mtx) p q : F := b3 * root (su2_det FS (heat_staple FS re im A p q)).

Lemma heat_hitE n (b3 : F) p q (U A : mtx) t h pos ok : Hit n b3 p q (mkHeat FS U A t h pos ok) =
  let al := strength b3 A p q in
  if al == 0 then None else
  let '(d, k, p', ok') := Choose al pos in
  let X := su2_matrix FS I (su2_mul FS (Direction d p') (unit_staple A p q)) in
  Some (mkHeat FS (mult_by_2x2_left FS n p q X U) (mult_by_2x2_left FS n p q X A) (t + k)%N h.+1 (p' + 2)%N (ok && ok')).
Proof. by []. Qed.

Lemma staple_real A p q : real_su2 (heat_staple FS re im A p q).
Proof. by rewrite heat_stapleE; apply: real_scale; [apply: real_dagger; exact: (project_real P)|exact: realn]. Qed.

Lemma staple_det A p q : su2_det FS (heat_staple FS re im A p q) = su2_det FS (project A p q) * 4%:R.
Proof. by rewrite heat_stapleE det_scale det_dagger -natrM. Qed.

Lemma strengthP b3 A p q : 0 < b3 -> su2_det FS (project A p q) != 0 -> 0 < strength b3 A p q.
Proof.
move=> b0 d0; have d1 : su2_det FS (heat_staple FS re im A p q) != 0 by rewrite staple_det mulf_neq0 // pnatr_eq0.
by have [r0 _ _ _] := su2_scaled P (staple_real A p q) d1; apply: mulr_gt0.
Qed.

Lemma strength0 b3 A p q : su2_det FS (project A p q) = 0 -> strength b3 A p q = 0.
Proof.
move=> d0; rewrite /strength staple_det d0 mul0r; case: P => C _ _.
by have := rootK C (lexx (0 : F)); move/eqP; rewrite expf_eq0 /= => /eqP ->; rewrite mulr0.
Qed.

Lemma heat_hitP n (b3 : F) p q (U A : mtx) t h pos ok : (p < n)%N -> (q < n)%N -> p != q -> 0 < b3 ->
  match Hit n b3 p q (mkHeat FS U A t h pos ok) with
  | Some st => exists V k ok', [/\ real_su2 V, (0 < k <= 40)%N, if ok' then su2_det FS V = 1 else k = 40%N &
      mxr n n (h_U FS st : mtx) = embed2 n p q (su2_matrix FS I V) *m mxr n n U] /\
      [/\ mxr n n (h_action FS st : mtx) = embed2 n p q (su2_matrix FS I V) *m mxr n n A,
          h_try FS st = (t + k)%N, h_hit FS st = h.+1 & h_ok FS st = ok && ok']
  | None => su2_det FS (project A p q) = 0
  end.
Proof.
move=> pn qn pq b0; rewrite heat_hitE; cbv zeta.
case: (boolP (su2_det FS (project A p q) == 0)) => [/eqP d0|d0]; first by rewrite strength0 // eqxx.
have a0 := strengthP b0 d0; rewrite gt_eqF //.
have := chooseP f u R pi_real D pos a0; case: (Choose _ _) => [[[d k] p'] ok'] [g0 g1 g2 _].
have d1 : su2_det FS (heat_staple FS re im A p q) != 0 by rewrite staple_det mulf_neq0 // pnatr_eq0.
have [_ _ rv dv] := su2_scaled P (staple_real A p q) d1.
have [ra _ _] := directionP f u P R pi_real D p' (ger0_real g0).
have dV : ok' -> su2_det FS (su2_mul FS (Direction d p') (unit_staple A p q)) = 1.
  move=> o; rewrite o in g2; rewrite (su2_det_mul FT) [X in _ * X]dv.
  by rewrite (direction_unit f u P R pi_real D p' g0 g2) mulr1.
have rV : real_su2 (su2_mul FS (Direction d p') (unit_staple A p q)) by apply: real_mul.
move: (su2_mul FS _ _) dV rV => V dV rV.
exists V, k, ok'; rewrite /= !leftE //; split=> //; split=> //.
by case: (ok') g2 dV => // _; apply.
Qed.

Definition heat_inv n (st : heat FS) : Prop :=
  [/\ (h_hit FS st <= h_try FS st <= 40 * h_hit FS st)%N,
      h_ok FS st -> special_unitary cj (mxr n n (h_U FS st : mtx)) &
      ~~ h_ok FS st -> (h_hit FS st + 39 <= h_try FS st)%N].

Lemma heat_hit_inv n b3 p q st : (p < n)%N -> (q < n)%N -> p != q -> 0 < b3 -> heat_inv n st ->
  match Hit n b3 p q st with Some st' => heat_inv n st' /\ h_hit FS st' = (h_hit FS st).+1 | None => True end.
Proof.
case: st => [U A t h pos ok] pn qn pq b0 [/= /andP [i0 i1] i2 i3].
have := heat_hitP U A t h pos ok pn qn pq b0.
case: (Hit n b3 p q _) => [[U' A' t' h' pos' ok']|] //.
move=> [V [k [o [[rV /andP [k0 k1] oV eU] [eA /= et eh eo]]]]].
split=> //; rewrite /heat_inv /= et eh eo; rewrite /= in eU; split.
- by rewrite -[h.+1]addn1 leq_add // mulnDr muln1 leq_add.
- case: (ok) i2 => //= /(_ isT) sU o1; rewrite o1 in oV; rewrite eU.
  by apply: specialM => //; apply: (special_embed P).
case: (ok) i3 => /= [_ | /(_ isT) h39 _]; last by rewrite addSn -addn1 leq_add.
by case: (o) oV => // -> _; rewrite addSnnS leq_add.
Qed.

Lemma heat_sweepP n beta U S : (0 < n)%N -> 0 < beta -> special_unitary cj (mxr n n U) ->
  match Sweep n beta U S with Some st => heat_inv n st /\ h_hit FS st = 'C(n, 2) | None => True end.
Proof.
move=> n0 b0 sU; rewrite /heat_sweep; set b3 := div FS _ _; set A := op_mul FS n n n U _.
have b30 : 0 < b3 by rewrite /b3 (of_natE f u) divr_gt0 // ltr0n.
have binE k : 'C(k.+1, 2) = (k + 'C(k, 2))%N by rewrite binS bin1 addnC.
pose Q i (st : heat FS) := heat_inv n st /\ (h_hit FS st + 'C(n - i, 2) = 'C(n, 2))%N.
have := @loopoP (heat FS) Q True 0%N n.-1 (fun i st => loopo i.+1 n (fun j st => Hit n b3 i j st) st) (mkHeat FS U A 0 0 0 true) isT.
have q0 : Q 0%N (mkHeat FS U A 0 0 0 true) by split; rewrite ?subn0.
have step : forall i st, (0 <= i < n.-1)%N -> Q i st ->
    (match loopo i.+1 n (fun j st => Hit n b3 i j st) st with Some st' => Q i.+1 st' | None => True end : Prop).
  move=> i st /andP [_ hi] [Is Es].
  have hin : (i.+1 < n)%N by rewrite -ltn_predRL.
  have := loopoP (P := fun j st => heat_inv n st /\ (h_hit FS st + (n - j) + 'C(n - i.+1, 2) = 'C(n, 2))%N) (Q := True)
    (a := i.+1) (b := n) (body := fun j st => Hit n b3 i j st) (s := st) (ltnW hin).
  have q1 : heat_inv n st /\ (h_hit FS st + (n - i.+1) + 'C(n - i.+1, 2) = 'C(n, 2))%N.
    split=> //; rewrite -addnA -binE -subSn ?subSS //; exact: ltnW.
  move=> /(_ q1); case: loopo => // st' G; case: G => [j t /andP [ij jn] [It Et]|I' e]; last first.
    by split=> //; rewrite -e subnn addn0.
  have := heat_hit_inv (ltn_trans ij jn) jn _ b30 It; rewrite neq_ltn ij => /(_ isT).
  case: (Hit _ _ _ _ _) => // t' [It' eh]; split=> //.
  by rewrite -Et eh addSnnS -subSn // subSS.
move=> /(_ q0 step); case: loopo => // st [Is]; rewrite -subn1 subKn // bin_small // addn0; by split.
Qed.

End Sweep.
