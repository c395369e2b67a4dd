(** C95: stout smearing. *)
Set Warnings "-notation-overridden,-ambiguous-paths".
From Coq Require Import ZArith List.
From mathcomp Require Import all_ssreflect all_algebra.
From Verif Require Import LinalgSpec AlgebraModel AlgebraSpec
  GaugeModel GaugeSpec GaugeMatrix GaugeProofs1 GaugeProofs2 MatrixSpec ForceModel ForceSpec ForceProps ForceProofs7
  GaussModel GaussSpec FlowModel FlowSpec FlowProofs9 FlowProps FlowstepSpec FlowstepProofs3 FlowstepProofs5 FlowstepProps
  StoutModel StoutSpec StoutProofs1 StoutProofs2 StoutProofs3 StoutProofs4.
Set Implicit Arguments.
Unset Strict Implicit.
Unset Printing Implicit Defensive.
Import Order.TTheory GRing.Theory Num.Theory.
Local Open Scope ring_scope.

Section Props.
Variables (C : numClosedFieldType) (n : nat).
(** The exponential function. *)
Variable ex : (nat -> C) -> 'M[C]_n.
Notation CM := (complex_matrices C n).
Notation SU := (su_algebra C n).
Notation PG := (su_gauss ex).
Notation smear1 L := (stout_smear1 CM SU PG L).
Notation smear L := (stout_smear CM SU PG L).
Notation smear_all L := (stout_smear_list CM SU PG L).

(** The result of iter >= 0 steps is the field smeared iter times, whatever the
    field for the result and the scratch field held before.  For iter < 0 the field
    is copied if iter is even and smeared once if it is odd. *)
Theorem C95_smear : forall L U S T (c : C) iter, (0 < n)%N -> sizes L -> c \is Num.real ->
  (Z.le Z0 iter -> smeared_times L ex c (Z.to_nat iter) U (smear L U S T c iter)) /\
  (Z.lt iter Z0 -> if Z.even iter then same_links L U (smear L U S T c iter) else smeared L ex c U (smear L U S T c iter)).
Proof.
move=> L U S T c iter n0 HL rc; split=> h; first exact: smear_nonneg.
exact: smear_negative.
Qed.

(** With lists of m+1 and of at least m fields, the fields after 0, 1, .., m steps
    and the sums of the staples of all but the last are kept.  With shorter lists
    there is an access out of range. *)
Theorem C95_list : forall L U sl pl (c : C), (0 < n)%N -> sizes L -> c \is Num.real ->
  ((0 < length sl)%N -> (length sl <= (length pl).+1)%N -> exists sl' pl',
     [/\ smear_all L U sl pl c = Some (sl', pl'), length sl' = length sl, length pl' = length pl,
         forall i, (i < length sl)%N -> smeared_times L ex c i U (List.nth i sl' U) &
         forall i d x, (i.+1 < length sl)%N -> (d < length L)%N -> on_lattice L x ->
           List.nth i pl' U d x = \sum_(d2 <- directions L | d2 != d)
             (upper_staple L (List.nth i sl' U) d d2 x + lower_staple L (List.nth i sl' U) d d2 x)]) /\
  (length sl = 0%N \/ ((length pl).+1 < length sl)%N -> smear_all L U sl pl c = None).
Proof.
move=> L U sl pl c n0 HL rc; split.
  case: sl => [//|S sl] _ hl.
  have [sl' [pl' [E l1 l2 [K1 K2]]]] := @list_ok C n L ex n0 HL c rc U sl pl hl.
  exists (U :: sl'), pl'; rewrite /stout_smear_list E; split=> //=; [by rewrite l1| |].
    by case=> [|i] hi //; apply: K1; rewrite l1.
  move=> i d x hi hd hx; rewrite -(staples_two HL _ _ hx); apply: K2 => //; by rewrite l1.
case: sl => [//|S sl] [//|hl]; by rewrite /stout_smear_list list_none.
Qed.

(** Links in SU(n) stay there.  Smearing a field in another gauge gives the smeared
    field in that gauge. *)
Theorem C95_covariant : forall L g U W S T S' T' (c : C) iter, (0 < n)%N -> sizes L -> c \is Num.real -> Z.le Z0 iter ->
  matrix_exponential ex -> (forall x, on_lattice L x -> special (g x)) -> special_links L U -> in_gauge L g U W ->
  special_links L (smear L U S T c iter) /\ in_gauge L g (smear L U S T c iter) (smear L W S' T' c iter).
Proof.
move=> L g U W S T S' T' c iter n0 HL rc h HE Hg HU I.
have H := @smear_nonneg C n L ex n0 HL c rc U S T iter h; have H' := @smear_nonneg C n L ex n0 HL c rc W S' T' iter h.
by split; [exact: (times_special HE HU H)|exact: (times_gauge HL Hg HE I H H')].
Qed.

(** A small step lowers the plaquette action: its derivative with respect to the
    coefficient is minus the sum of the squared lengths of the algebra parts of the
    plaquettes, over n. *)
Theorem C95_action : forall L V S, (0 < n)%N -> sizes L -> (1 < length L)%N -> matrix_exponential ex -> exponential_at_0 ex ->
  derivative (fun t => measure_s_wplaq CM L (smear1 L V S t)) (measure_s_wplaq CM L V)
    (- ((\sum_(d <- directions L) \sum_(x <- sites L) \sum_i \sum_j
           `|ForceSpec.algebra_part (plaquette_sum L V d x) i j| ^+ 2) / n%:R)).
Proof. by move=> L V S n0 HL hL HE H0; exact: smear_action. Qed.

(** The staples around the link in direction d: with r the rank of d2 among the
    other directions, the upper one has the number r and the lower one the number
    2(D-1) - 1 - r.  The sums have all of them. *)
Theorem C95_staples : forall L U S0 Sm0 d d2 x, (1 < length L)%N -> sizes L -> (d < length L)%N -> (d2 < length L)%N -> d2 <> d ->
  on_lattice L x ->
  let '(S1, Sm) := get_stout_staples CM L U S0 Sm0 in
  let r := if (d2 < d)%N then d2 else d2.-1 in
  [/\ S1 (Z.of_nat r) d x = upper_staple L U d d2 x,
      S1 (Z.of_nat (2 * (length L).-1 - 1 - r)) d x = lower_staple L U d d2 x &
      Sm d x = \sum_(d2 <- directions L | d2 != d) (upper_staple L U d d2 x + lower_staple L U d d2 x)].
Proof.
move=> L U S0 Sm0 d d2 x hL HL hd h2 nd hx.
have Q := sums_two HL U S0 Sm0 hL hd hx.
have [u l] := staples_placed CM L U S0 Sm0 d d2 x (ssrnat.ltP hd) (ssrnat.ltP h2) nd.
case: (get_stout_staples CM L U S0 Sm0) Q u l => S1 Sm; cbn [fst snd] => Q u l.
split; last exact: Q.
  by rewrite -(upperE HL U d d2 hx) -u rank_nat.
rewrite -(lowerE HL U d d2 hx) -l; apply: (f_equal (fun z => S1 z d x)).
exact: back_nat.
Qed.
End Props.
Print Assumptions C95_smear.
Print Assumptions C95_list.
Print Assumptions C95_covariant.
Print Assumptions C95_action.
Print Assumptions C95_staples.

(** For SU(2) on 2 x 2 sites, with all links but one equal to 1: all hypotheses are
    met, and smearing changes that link: the algebra part of its plaquettes is not 0. *)
Example C95_example (C : numClosedFieldType) :
  let L := square2 in let V := @one_link (complex_matrices C 2) (root1 C) in
  [/\ sizes L, matrix_exponential (@cayley C), exponential_at_0 (@cayley C), special_links L V &
    ForceSpec.algebra_part (plaquette_sum L V 0 origin) <> 0].
Proof.
move=> L V; split; [exact: square2_sizes|exact: cayley_exponential|exact: cayley_at_0| |].
  have [_ _ [HS _] _ _] := C94_example (0 : C) (fun _ _ _ _ => 0) (fun _ _ _ _ => 0) (fun _ => 0) (fun _ _ _ => 0).
  exact: HS.
exact: one_link_part.
Qed.
