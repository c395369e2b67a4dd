(** C45: the table of the Levi-Civita symbol. *)
From Coq Require Import ZArith List Arith Lia Permutation Factorial.
From Verif Require Import LeviModel LeviSpec LeviProofs1.
Import ListNotations.
Open Scope nat_scope.

(** For every N >= 1 the table is built without leaving its arrays, has N!
    rows, and its rows are the permutations of 0..N-1, each exactly once and
    followed by its sign. *)
Theorem C45_table : forall n, 1 <= n ->
  exists ps : list (list Z),
    table n = Some (map (fun p => p ++ [sign p]) ps) /\
    length ps = fact n /\ NoDup ps /\
    forall p, In p ps <-> permutation_of n p.
Proof.
  intros [|n] Hn; [lia|]. exists (map (entry (S n)) (seq 0 (fact (S n)))).
  split; [|split; [|split]].
  - rewrite table_spec, map_map. reflexivity.
  - rewrite map_length, seq_length. reflexivity.
  - assert (G : forall c j, j + c <= fact (S n) -> NoDup (map (entry (S n)) (seq j c))).
    { induction c as [|c IH]; intros j H; [constructor|]. cbn [seq map]. constructor; [|apply IH; lia].
      intros F. apply in_map_iff in F. destruct F as (i & E & Hi). apply in_seq in Hi.
      apply unrank_inj in E; [|apply identity_NoDup|rewrite !digits_length; reflexivity|
        rewrite identity_length; apply digits_valid; lia..].
      apply digits_inj in E; lia. }
    apply G. lia.
  - intros p. unfold permutation_of. fold (identity (S n)). split; intros H.
    + apply in_map_iff in H. destruct H as (j & <- & Hj). apply in_seq in Hj.
      apply unrank_perm. rewrite identity_length. apply digits_valid. lia.
    + destruct (unrank_surj _ _ H) as (ds & A & B & C). rewrite identity_length in A, B.
      destruct (digits_surj (S n) ds A B) as (j & Hj & E).
      apply in_map_iff. exists j. split; [|apply in_seq; lia].
      unfold entry. rewrite E. exact C.
Qed.
Print Assumptions C45_table.

Example table_three :
  table 3 = Some [[0; 1; 2; 1]; [0; 2; 1; -1]; [1; 0; 2; -1]; [1; 2; 0; 1];
                  [2; 1; 0; -1]; [2; 0; 1; 1]]%Z.
Proof. reflexivity. Qed.

(** The sign distinguishes: exchanging two values of a permutation changes it,
    and the identity has sign 1; so the last column is the Levi-Civita symbol. *)
Theorem C45_sign : forall l1 x mid y l2,
  NoDup (l1 ++ x :: mid ++ y :: l2) ->
  sign (l1 ++ y :: mid ++ x :: l2) = (- sign (l1 ++ x :: mid ++ y :: l2))%Z.
Proof. exact swap_sign. Qed.
Print Assumptions C45_sign.

Theorem C45_sign_identity : forall n, sign (map Z.of_nat (seq 0 n)) = 1%Z.
Proof. exact (sign_identity 0). Qed.
Print Assumptions C45_sign_identity.

Example sign_example : NoDup [2; 0; 1]%Z /\ sign [2; 0; 1]%Z = 1%Z.
Proof. split; [|reflexivity]. repeat (constructor; [cbn; lia|]). constructor. Qed.
