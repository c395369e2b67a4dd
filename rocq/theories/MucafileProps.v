(** C41: the weight files. *)
From Coq Require Import QArith Qabs String Lqa.
From Verif Require Import Common SrcbufModel WordsModel WordsSpec CmdargsModel MucaModel DecimalModel MucafileModel MucafileSpec MucafileProofs1.
Open Scope list_scope.
Open Scope nat_scope.

Lemma midpoints_nth : forall l i a b, nth_error l i = Some a -> nth_error l (S i) = Some b -> nth_error (midpoints l) i = Some ((b + a) / 2)%Q.
Proof.
  induction l as [|x l IH]; intros i a b Ha Hb; [destruct i; discriminate Ha|]. destruct l as [|y l]; [destruct i; discriminate Hb|].
  destruct i as [|i]; [cbn [nth_error] in *; injection Ha as <-; injection Hb as <-; reflexivity|].
  change (midpoints (x :: y :: l)) with (((y + x) / 2)%Q :: midpoints (y :: l)). apply IH; [exact Ha|exact Hb].
Qed.
Lemma midpoints_length : forall l, List.length (midpoints l) = List.length l - 1.
Proof.
  induction l as [|x l IH]; [reflexivity|]. destruct l as [|y l]; [reflexivity|].
  change (midpoints (x :: y :: l)) with (((y + x) / 2)%Q :: midpoints (y :: l)). cbn [List.length] in *. lia.
Qed.

(** Writing a table and reading it back behind any header gives limits and weights with at most one
    part in a million changed, and the midpoints of the limits read as centres. *)
Theorem C41_round_trip : forall header limits centers weights,
  List.length limits = S (List.length centers) -> List.length weights = List.length centers ->
  Forall fits limits -> Forall fits centers -> Forall fits weights -> Forall header_line header ->
  exists body limits' centers' weights', write_weight_function limits centers weights = Some body /\
    read_weight_function (as_text header ++ body) = Some (Some (limits', centers', weights')) /\
    Forall2 close limits limits' /\ Forall2 close weights weights' /\ List.length centers' = List.length centers /\
    (forall i a b, nth_error limits' i = Some a -> nth_error limits' (S i) = Some b -> nth_error centers' i = Some ((b + a) / 2)%Q).
Proof.
  intros header lim cen wei H1 H2 H3 H4 H5 H6.
  destruct (file_round_trip header lim cen wei H1 H2 H3 H4 H5 H6) as [body [lim' [wei' [W [R [C1 C2]]]]]].
  exists body, lim', (midpoints lim'), wei'. split; [exact W|]. split; [exact R|]. split; [exact C1|]. split; [exact C2|]. split.
  - rewrite midpoints_length. assert (List.length lim' = List.length lim) by (clear - C1; induction C1; cbn [List.length]; congruence). lia.
  - apply midpoints_nth.
Qed.
Print Assumptions C41_round_trip.

(** So centres that were midpoints are kept up to one part in a million of the neighbouring limits. *)
Theorem C41_centres : forall a b a' b', close a a' -> close b b' ->
  (Qabs ((b' + a') / 2 - (b + a) / 2) <= (1 # 1000000) * ((Qabs a + Qabs b) / 2))%Q.
Proof.
  intros a b a' b' Ha Hb. unfold close in *. apply Qabs_Qle_condition in Ha. apply Qabs_Qle_condition in Hb. apply Qabs_Qle_condition.
  assert (E : ((b' + a') / 2 - (b + a) / 2 == ((b' - b) + (a' - a)) * (1 # 2))%Q) by field. rewrite E.
  assert (E2 : ((1 # 1000000) * ((Qabs a + Qabs b) / 2) == ((1 # 1000000) * Qabs a + (1 # 1000000) * Qabs b) * (1 # 2))%Q) by field. rewrite E2.
  lra.
Qed.
Print Assumptions C41_centres.

Definition read_limits (r : option (option (list Q * list Q * list Q))) : list Q :=
  match r with Some (Some (l, _, _)) => map Qred l | _ => [] end.

(** The precision is that of seven printed digits and of a float, although all values are doubles:
    increasing limits can come back equal, and then the table cannot be interpolated. *)
Theorem C41_exact_refuted : exists limits centers weights body,
  increasing_three limits /\ Forall fits limits /\ write_weight_function limits centers weights = Some body /\
  (exists a, read_limits (read_weight_function body) = [a; a; a]) /\
  (match read_weight_function body with Some (Some (l, c, w)) => c = midpoints l | _ => False end).
Proof.
  exists [1000000; 4000001 # 4; 2000001 # 2]%Q, [8000001 # 8; 8000003 # 8]%Q, [1; 2]%Q.
  eexists. split; [split; reflexivity|]. split.
  { repeat (constructor; [right; split; apply Qle_bool_iff; vm_compute; reflexivity|]). constructor. }
  split; [reflexivity|]. split; [exists 1000000%Q; vm_compute; reflexivity|vm_compute; reflexivity].
Qed.
Print Assumptions C41_exact_refuted.

(** The conditions on the header are needed: a header line with the keyword makes reading fail, and a
    file without the keyword, or one whose lines end with carriage returns, raises an exception. *)
Theorem C41_header_needed :
  (exists header, Forall (fun l => ~ In newline l) header /\ exists body, write_weight_function [0; 1; 2]%Q [1 # 2; 3 # 2]%Q [5; 6]%Q = Some body /\
     read_weight_function (as_text header ++ body) = Some None) /\
  (forall ls, Forall (fun l => ~ In newline l /\ keyword_line l = false) ls -> read_weight_function (as_text ls) = None) /\
  keyword_line (column_line ++ [13%Z]) = false /\ keyword_line column_line = true.
Proof.
  split; [|split; [|split; vm_compute; reflexivity]].
  - exists [str "OP_value of run 7"]. split.
    + constructor; [|constructor]. intros G. vm_compute in G. repeat (destruct G as [G|G]; [discriminate G|]). exact G.
    + eexists. split; [reflexivity|]. vm_compute. reflexivity.
  - intros ls H. unfold read_weight_function.
    rewrite getlines_text by (apply Forall_forall; intros l Hl; apply (proj1 (Forall_forall _ _) H l Hl)).
    rewrite count_header by (apply Forall_forall; intros l Hl; apply (proj1 (Forall_forall _ _) H l Hl)). reflexivity.
Qed.
Print Assumptions C41_header_needed.

(** A table with two bins behind a header of two lines. *)
Example C41_example : exists body,
  write_weight_function [0; 1 # 3; 2]%Q [1 # 6; 7 # 6]%Q [-5; 6]%Q = Some body /\
  body = as_text [column_line; str "0.000000e+00" ++ [tab] ++ str "1.666667e-01" ++ [tab] ++ str "-5.000000e+00";
                  str "3.333333e-01" ++ [tab] ++ str "1.166667e+00" ++ [tab] ++ str "6.000000e+00"; str "2.000000e+00"] /\
  (exists l c w, read_weight_function (as_text [str "# run 7"; []] ++ body) = Some (Some (l, c, w)) /\
     map Qred l = [0; 5592405 # 16777216; 2]%Q /\ map Qred w = [-5; 6]%Q) /\
  Forall fits [0; 1 # 3; 2]%Q /\ Forall header_line [str "# run 7"; []].
Proof.
  eexists. split; [reflexivity|]. split; [vm_compute; reflexivity|]. split.
  { eexists _, _, _. split; [vm_compute; reflexivity|]. split; vm_compute; reflexivity. }
  split.
  - constructor; [left; reflexivity|]. repeat (constructor; [right; split; apply Qle_bool_iff; vm_compute; reflexivity|]). constructor.
  - assert (K : forall l, ~ In 79%Z l -> ~ In newline l -> header_line l).
    { intros l A B. split; [exact B|]. intros i [a [b [E _]]]. apply A. rewrite E. apply in_or_app. right. apply in_or_app. left. left. reflexivity. }
    constructor; [|constructor; [|constructor]]; apply K; intros G; vm_compute in G; repeat (destruct G as [G|G]; [discriminate G|]); exact G.
Qed.
