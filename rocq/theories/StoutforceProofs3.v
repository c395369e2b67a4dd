(** One step: the force on the links before smearing. *)
Set Warnings "-notation-overridden,-ambiguous-paths".
From Coq Require Import ZArith List.
From mathcomp Require Import all_ssreflect all_fingroup all_algebra.
From Verif Require Import LinalgSpec FieldTac AlgebraModel AlgebraSpec AlgebraProofs2 AlgebraProofs4 AlgebraProofs5 AlgebraProps
  GaugeModel GaugeSpec GaugeMatrix GaugeProofs1 GaugeProofs2 MatrixSpec ForceModel ForceSpec
  ForceProofs1 ForceProofs2 ForceProofs3 ForceProofs4 ForceProofs5 ForceProofs7 ForceProofs10 ForceProps
  ForceProofs9 GaussModel GaussSpec GaussProofs1 GaussProofs2 GaussProofs3
  StoutModel StoutSpec StoutProofs1 StoutforceModel StoutforceSpec StoutforceProofs1 StoutforceProofs2.
Set Implicit Arguments.
Unset Strict Implicit.
Unset Printing Implicit Defensive.
Import Order.TTheory GRing.Theory Num.Theory.
Local Open Scope ring_scope.

(** Finitely many choices. *)
Lemma choose_list (A B : Type) (eqd : forall x y : A, {x = y} + {x <> y}) (P : A -> B -> Prop) (b0 : B) (l : list A) :
  (forall x, In x l -> exists y, P x y) -> exists f, forall x, In x l -> P x (f x).
Proof.
elim: l => [|a l IH] H; first by exists (fun _ => b0).
have [f Hf] := IH (fun x h => H x (or_intror h)); have [y Hy] := H a (or_introl (erefl a)).
exists (fun x => if eqd x a then y else f x) => x hx; destruct (eqd x a) as [e|ne]; first by subst x.
by apply: Hf; case: hx => // e; case: ne.
Qed.

Lemma choose_links (B : Type) (L : list Z) (P : nat -> site -> B -> Prop) (b0 : B) :
  (forall d x, (d < length L)%N -> on_lattice L x -> exists y, P d x y) ->
  exists f, forall d x, (d < length L)%N -> on_lattice L x -> P d x (f d x).
Proof.
move=> H; have eqd (x y : nat * site) : {x = y} + {x <> y}.
  by decide equality; [exact: (list_eq_dec Z.eq_dec)|exact: Nat.eq_dec].
have H' p : In p (list_prod (directions L) (sites L)) -> exists y, P p.1 p.2 y.
  case: p => d x /in_prod_iff [/in_seq [_ /ssrnat.ltP h1] /sites_In h2]; exact: H.
have [f Hf] := @choose_list _ B eqd (fun p y => P p.1 p.2 y) b0 _ H'.
exists (fun d x => f (d, x)) => d x hd hx; apply: (Hf (d, x)); apply: in_prod; last exact/sites_In.
by apply/in_seq; split; [exact: Nat.le_0_l|exact/ssrnat.ltP].
Qed.

Section Step.
Variables (C : numClosedFieldType) (n : nat) (L : list Z) (ex : (nat -> C) -> 'M[C]_n) (dexp : (nat -> C) -> (nat -> C) -> 'M[C]_n).
Hypotheses (n0 : (0 < n)%N) (HL : sizes L).
Notation CM := (complex_matrices C n).
Notation LM := (complex_linear C n).
Notation SU := (su_algebra C n).
Notation PG := (su_gauss ex).
Notation dn := (GaugeModel.down L).
Notation Ex := (@algebra_matrix C n).
Notation toalg := (@algebra_components C n).
Notation rc := (real_components (n * n - 1)).
Notation prod := (product n L).
Notation part := (@ForceSpec.algebra_part C n).

Lemma mderiv_part (f : C -> 'M[C]_n) A B : mderiv f A B -> mderiv (fun t => part (f t)) (part A) (part B).
Proof.
move=> H; have H1 := mderiv_scale 2%:R^-1 (mderiv_sub H (mderiv_dag H)).
have H2 : @mderiv C n (fun t => (\tr (2%:R^-1 *: (f t - dg (f t))) / n%:R)%:M) (\tr (2%:R^-1 *: (A - dg A)) / n%:R)%:M (\tr (2%:R^-1 *: (B - dg B)) / n%:R)%:M.
  have := deriv_scale n%:R^-1 (deriv_trace H1); rewrite ![_^-1 * \tr _]mulrC => H3.
  have {}H3 : derivative (fun t => \tr (2%:R^-1 *: (f t - dg (f t))) / n%:R) (\tr (2%:R^-1 *: (A - dg A)) / n%:R) (\tr (2%:R^-1 *: (B - dg B)) / n%:R).
    by apply: deriv_ext H3 => t _; rewrite mulrC.
  exact: (@mderiv_scalar C n _ _ _ H3).
exact: (mderiv_sub H1 H2).
Qed.

Lemma part_swap (A B : 'M[C]_n) : 'Re (\tr (A *m part B)) = 'Re (\tr (part A *m B)).
Proof.
rewrite cyc -(part_pairing A (part_anti B) (part_trace n0 B)) cyc.
exact: (part_pairing B (part_anti A) (part_trace n0 A)).
Qed.

Hypothesis HE : exponential_derivative ex dexp.
Hypothesis HQ : forall a, rc a -> ex a *m dg (ex a) = 1%:M.
Variables (V : links C n) (E K : moments C) (U : C -> links C n) (c : C).
Hypotheses (RE : real_momenta n L E) (RK : real_momenta n L K) (HU : links_move L U V E) (cr : c \is Num.real).
Notation S := (staples L V).
Notation Em d x := (Ex (E d x)).
Notation N := (fun d x => kappa dexp V S c K d x *m V d x).

Lemma link_step d x : (d < length L)%N -> on_lattice L x -> exists e,
  [/\ rc e, mderiv (fun t => smear L ex (U t) c d x) (smear L ex V c d x) (Ex e *m smear L ex V c d x) &
      'Re (\tr (Ex e *m Ex (K d x))) = rt E d x (first_matrix ex dexp V S c K d x) - 'Re (\tr (N d x *m rate L E V d x))].
Proof.
move=> hd hx; have Re1 : rc (E d x) by move=> k hk; exact: RE.
have Rk : rc (K d x) by move=> k hk; exact: RK.
have nr : - c \is Num.real by rewrite realN.
have HP := plaquettes_move n0 HL RE HU hd hx.
have LR := link_rate HU hd hx.
rewrite /first_matrix /rt /kappa /q_arg /smear.
move: (rate L E V d x) HP => R HP.
set dP := _ + _ in HP.
set P := V d x *m S d x.
have [Ra Ea] := @components_ok C n n0 (- c) P nr.
have [Rb Eb] := @components_ok C n n0 (- c) dP nr.
have [D [HD [e Rd De] HT]] := HE Ra Rb.
have {}HD : mderiv (fun t => ex (components (- c) (U t d x *m staples L (U t) d x))) (ex (components (- c) P)) D.
  apply: HD => [t|]; first exact: (@components_ok C n n0 (- c) _ nr).1.
  apply: mderiv_val (mderiv_scale (- c) (mderiv_part HP)) => [t||].
  - by rewrite (@components_ok C n n0 (- c) _ nr).2.
  - by rewrite Ea.
  by rewrite Eb.
have q1 := HQ Ra; have q2 := mulmx1C q1.
have {HT} T := HT _ Rk.
have {}T : \tr (dexp (components (- c) P) (K d x) *m Ex (components (- c) dP)) = \tr (dg (ex (components (- c) P)) *m Ex (K d x) *m D) by exact: T.
have [_ Ek] := @components_ok C n n0 c (dexp (components (- c) P) (K d x)) cr.
rewrite Ek; rewrite Eb in T.
move: (dexp _ _) T => M T; move: (ex (components (- c) P)) HD De q1 q2 T => Q HD De q1 q2 T.
exists (fun k => e k + 1 * push Q (E d x) k).
have F : Ex (fun k => e k + 1 * push Q (E d x) k) = Ex e + Q *m Em d x *m dg Q.
  by rewrite (Ex_lin n e _ (real1 _)) scale1r (Ex_push n0 Re1 q2).
split.
- by move=> k hk; rewrite mul1r realD ?Rd //; exact: toalg_real.
- apply: mderiv_val (mderiv_mul HD LR) => [t||] //.
  rewrite F De mulmxDl addrC; congr (_ + _); first by rewrite mulmxA.
  by rewrite !mulmxA -(mulmxA _ (dg Q) Q) q2 mulmx1.
rewrite F; clear F HD Ra Ea Rb Eb Ek HP LR Re1 Rk; rewrite /P /dP in T *; clear P dP.
move: (Ex (K d x)) (Em d x) (V d x) (S d x) T De => k em v s T De.
rewrite mulmxDl re_trD mulmxBr re_trB.
have -> : 'Re (\tr (Q *m em *m dg Q *m k)) = 'Re (\tr (em *m (dg Q *m k *m Q))) by rewrite -!mulmxA cyc -!mulmxA.
rewrite addrC -[RHS]addrA; congr (_ + _); rewrite -opprD.
have -> : 'Re (\tr (Ex e *m k)) = 'Re (\tr (dg Q *m k *m D)).
  by rewrite De [RHS]cyc -!mulmxA (mulmxA Q) q1 mul1mx.
rewrite -T -scalemxAr re_trZ // part_swap mulNr; congr (- _).
rewrite mulmxDr re_trD mulrDr addrC -!re_trZ // !scalemxAl; congr (_ + _).
  by move: (c *: part M) => m; rewrite [LHS]cyc !mulmxA.
by move: (c *: part M) => m; rewrite mulmxA.
Qed.
End Step.
