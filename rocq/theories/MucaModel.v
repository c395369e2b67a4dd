(** Model of the multicanonical tools, /repo/libraries/tools/multicanonical.cpp and multicanonical.h
    (marked h).  Doubles are rational numbers with exact arithmetic (no rounding, no NaN); infinity
    appears only as a weight.  What is modelled runs on rank 0; [None] is an access outside a
    vector, a division of integers by zero, or the use of an uninitialised value. *)
From Coq Require Import QArith.
From Verif Require Import Common RandomModel SrcbufModel.
Open Scope nat_scope.

(** a < b and a <= b on doubles. *)
Definition qlt (a b : Q) : bool := negb (Qle_bool b a).
Definition qle (a b : Q) : bool := Qle_bool a b.

(** std::lower_bound (library, bisection): the index of the first entry that is not less than [x],
    if the entries that are less than [x] come first. *)
Fixpoint bisect (n : nat) (l : list Q) (first len : nat) (x : Q) : option nat :=
  match len with
  | O => Some first
  | _ =>
      match n with
      | O => None
      | S n' =>
          let half := len / 2 in
          do m <- nth_error l (first + half);
          if qlt m x then bisect n' l (first + half + 1) (len - half - 1) x else bisect n' l first half x
      end
  end.
Definition lower_bound (l : list Q) (x : Q) : option nat := bisect (length l) l 0 (length l) x.

Definition front {A : Type} (l : list A) : option A := nth_error l 0.
Definition back {A : Type} (l : list A) : option A := match l with [] => None | _ => nth_error l (length l - 1) end.

(** 410-421 find_OP_bin_index: [Some None] is -1. *)
Definition find_OP_bin_index (OP : Q) (limits : list Q) : option (option nat) :=
  do f <- front limits;
  do b <- back limits;
  if qle OP f then Some None
  else if qle b OP then Some None
  else do it <- lower_bound limits OP; match it with O => None | S i => Some (Some i) end.

(** v[i] += d on a vector. *)
Definition add_at (i : nat) (d : Z) (v : list Z) : option (list Z) :=
  do x <- nth_error v i; Some (put i (x + d)%Z v).

(** 430-441 bin_hit_OP_value, on OP_bin_hits. *)
Definition bin_hit_OP_value (limits : list Q) (hits : list Z) (OP : Q) : option (list Z) :=
  do f <- front limits;
  do b <- back limits;
  if qle OP f then Some hits
  else if qle b OP then Some hits
  else do it <- lower_bound limits OP; match it with O => None | S i => add_at i 1 hits end.

(** A weight: a number or infinity. *)
Inductive weight := Fin (q : Q) | Inf.

(** 273-311 weight_function on rank 0. *)
Definition weight_function (hard_walls : bool) (centers weights : list Q) (OP : Q) : option weight :=
  do f <- front centers;
  do b <- back centers;
  if qle OP f then if hard_walls then Some Inf else do w <- front weights; Some (Fin w)
  else if qle b OP then if hard_walls then Some Inf else do w <- back weights; Some (Fin w)
  else
    do it <- lower_bound centers OP;
    match it with
    | O => None
    | S i =>
        do w1 <- nth_error weights (i + 1);
        do w0 <- nth_error weights i;
        do c1 <- nth_error centers (i + 1);
        do c0 <- nth_error centers i;
        let dy := (w1 - w0)%Q in
        let dx := (c1 - c0)%Q in
        if Qeq_bool dx 0 then None
        else
          let slope := (dy / dx)%Q in
          let xdiff := (OP - c0)%Q in
          Some (Fin (w0 + xdiff * slope)%Q)
    end.

(** 371-380 accept_reject: log(rval) < -(W_new - W_old).  [logr] is log(rval), [None] for minus
    infinity; the difference of two infinities is NaN, which compares false. *)
Definition accept (logr : option Q) (w_new w_old : weight) : bool :=
  match w_new, w_old with
  | Fin a, Fin b => match logr with None => true | Some r => qlt r (- (a - b))%Q end
  | Inf, Fin _ => false
  | Fin _, Inf => true
  | Inf, Inf => false
  end.

(** 452-460 all_visited, 469-472 first_last_visited. *)
Definition all_visited (totals : list Z) : option bool := Some (forallb (fun n => negb (n =? 0)%Z) totals).
Definition first_last_visited (totals : list Z) : option bool :=
  do f <- front totals; do b <- back totals; Some (negb ((f =? 0)%Z || (b =? 0)%Z)).

(** 500-507 get_equidistant_bin_limits; [None]: a division of doubles by zero, which makes the limits
    NaN. *)
Definition get_equidistant_bin_limits (min max : Q) (N_bins : nat) : option (list Q) :=
  let d := inject_Z (Z.of_nat N_bins - 1) in
  if Qeq_bool d 0 then None
  else let diff := ((max - min) / d)%Q in
       Some (map (fun i => min - diff / 2 + diff * inject_Z (Z.of_nat i))%Q (seq 0 (N_bins + 1))).

(** 518-521, 217-219: the centres. *)
Fixpoint midpoints (limits : list Q) : list Q :=
  match limits with
  | a :: ((b :: _) as t) => ((b + a) / 2)%Q :: midpoints t
  | _ => []
  end.

(** The data of a Muca struct that the direct methods use (h 154-193). *)
Record muca := mkMuca {
  limits : list Q;
  centers : list Q;
  weights : list Q;
  hits : list Z;
  hits_total : list Z;
  count : Z;
  C : Q;
  C_min : Q;
  sample_size : Z;
  single_check_interval : Z;
  finish_check : list Z -> option bool }.

Definition with_hits (m : muca) (h : list Z) : muca :=
  mkMuca (limits m) (centers m) (weights m) h (hits_total m) (count m) (C m) (C_min m) (sample_size m) (single_check_interval m) (finish_check m).
Definition with_count (m : muca) (n : Z) : muca :=
  mkMuca (limits m) (centers m) (weights m) (hits m) (hits_total m) n (C m) (C_min m) (sample_size m) (single_check_interval m) (finish_check m).
Definition with_weights (m : muca) (w : list Q) (t : list Z) : muca :=
  mkMuca (limits m) (centers m) w (hits m) t (count m) (C m) (C_min m) (sample_size m) (single_check_interval m) (finish_check m).
Definition with_C (m : muca) (c : Q) : muca :=
  mkMuca (limits m) (centers m) (weights m) (hits m) (hits_total m) (count m) c (C_min m) (sample_size m) (single_check_interval m) (finish_check m).

(** *std::min_element(begin, end): the first least entry; dereferencing end() is an error. *)
Fixpoint min_from (x : Q) (l : list Q) : Q :=
  match l with [] => x | y :: t => min_from (if qlt y x then y else x) t end.
Definition min_element (l : list Q) : option Q := match l with [] => None | x :: t => Some (min_from x t) end.

(** Loops "for m < N" over parallel vectors, where N is weights.size(). *)
Fixpoint zip_with {A B D : Type} (f : A -> B -> D) (a : list A) (b : list B) : option (list D) :=
  match a, b with
  | [], _ => Some []
  | x :: a', y :: b' => do r <- zip_with f a' b'; Some (f x y :: r)
  | _ :: _, [] => None
  end.

(** The entries that such a loop leaves alone. *)
Definition beyond {A B : Type} (a : list A) (b : list B) : list B := skipn (length a) b.

(** 590-598, 656-664, 717-725: zero the totals and decrease C if the condition holds. *)
Definition check_finish (m : muca) : option muca :=
  do ok <- finish_check m (hits_total m);
  if ok then
    Some (with_C (with_weights m (weights m)
                    (map (fun _ => 0%Z) (firstn (length (weights m)) (hits_total m)) ++ beyond (weights m) (hits_total m))) (C m / (3 # 2))%Q)
  else Some m.

(** 602-607, 666-671, 729-734. *)
Definition goes_on (m : muca) : bool := negb (qlt (C m) (C_min m)).

(** 581-587, 643-649: subtract the least weight and clear the hits. *)
Definition rebase (m : muca) : option muca :=
  do base <- min_element (weights m);
  if length (hits m) <? length (weights m) then None
  else Some (with_hits (with_weights m (map (fun w => (w - base)%Q) (weights m)) (hits_total m))
               (map (fun _ => 0%Z) (weights m) ++ beyond (weights m) (hits m))).

(** 573-576, 704-707: [f w h] is the new weight. *)
Definition update_weights (f : Q -> Z -> Q) (m : muca) : option muca :=
  do w <- zip_with f (weights m) (hits m);
  do t <- zip_with (fun a b => (a + b)%Z) (firstn (length (weights m)) (hits_total m)) (hits m);
  if length (hits_total m) <? length (weights m) then None
  else Some (with_weights m w (t ++ beyond (weights m) (hits_total m))).

(** 563-611 iterate_weight_function_direct without output: the new state and the answer. *)
Definition iterate_direct (m : muca) (OP : Q) : option (muca * bool) :=
  do h <- bin_hit_OP_value (limits m) (hits m) OP;
  let m := with_count (with_hits m h) (count m + 1) in
  do m <- (if (sample_size m <=? count m)%Z then
             if (sample_size m =? 0)%Z then None
             else
               do m <- update_weights (fun w h => (w + C m * inject_Z h * inject_Z (Z.of_nat (length (weights m))) / inject_Z (sample_size m))%Q) m;
               do m <- rebase m;
               check_finish (with_count m 0)
           else Some m);
  Some (m, goes_on m).

(** 625-678 iterate_weight_function_direct_single: the answer is [None] if continue_iteration was
    not assigned. *)
Definition iterate_direct_single (m : muca) (OP : Q) : option (muca * option bool) :=
  do b <- find_OP_bin_index OP (limits m);
  do m <- match b with
          | None => Some m
          | Some i =>
              do t <- add_at i 1 (hits_total m);
              do w <- nth_error (weights m) i;
              Some (with_weights m (put i (w + C m)%Q (weights m)) t)
          end;
  let m := with_count m (count m + 1) in
  if (single_check_interval m =? 0)%Z then None
  else if (Z.rem (count m) (single_check_interval m) =? 0)%Z then
    do m <- rebase m;
    do m <- check_finish m;
    Some (m, Some (goes_on m))
  else Some (m, None).

(** 693-697 the five counters around bin [i] of [N]. *)
Definition smooth_hits (N i : nat) (h : list Z) : option (list Z) :=
  do h <- (if 2 <=? i then add_at (i - 2) 1 h else Some h);
  do h <- (if 1 <=? i then add_at (i - 1) 3 h else Some h);
  do h <- add_at i 5 h;
  do h <- (if (Z.of_nat i <? Z.of_nat N - 1)%Z then add_at (i + 1) 3 h else Some h);
  (if (Z.of_nat i <? Z.of_nat N - 2)%Z then add_at (i + 2) 1 h else Some h).

(** 680-738 iterate_weight_function_direct_smooth. *)
Definition iterate_direct_smooth (m : muca) (OP : Q) : option (muca * bool) :=
  let N := length (weights m) in
  do b <- find_OP_bin_index OP (limits m);
  do h <- match b with None => Some (hits m) | Some i => smooth_hits N i (hits m) end;
  let m := with_count (with_hits m h) (count m + 1) in
  do m <- (if (sample_size m <=? count m)%Z then
             do h0 <- front (hits m);
             do m <- update_weights (fun w h => (w + C m * inject_Z (h - h0) / inject_Z (Z.of_nat N))%Q) m;
             check_finish (with_count (with_hits m (map (fun _ => 0%Z) (weights m) ++ beyond (weights m) (hits m))) 0)
           else Some m);
  Some (m, goes_on m).

(** 743-834 iterate_weight_function_canonical: the counters and the answer only; the weights and
    histograms of this method are in [canonical_update]. *)
Definition canonical_status (count weight_update_count sample_size max_iters : Z) : option (Z * Z * bool) :=
  let count := (count + 1)%Z in
  if (sample_size <=? count)%Z then
    let weight_update_count := (weight_update_count + 1)%Z in
    let continue_iteration := negb (max_iters <? weight_update_count)%Z in
    if (Z.quot max_iters 100 =? 0)%Z then None
    else Some (0%Z, weight_update_count, continue_iteration)
  else Some (count, weight_update_count, true).

(** 767-770 the division by the bin widths: the last entry is not divided. *)
Fixpoint normalise (can_hist limits : list Q) : list Q :=
  match can_hist, limits with
  | h :: ((_ :: _) as t), a :: ((b :: _) as l) => (h / (b - a))%Q :: normalise t l
  | _, _ => can_hist
  end.

(** 776-794 the loop over the bins from the second, [ln] is the logarithm.  The entries of the
    previous bin are passed along: hits, histogram, old weight and new weight. *)
Fixpoint canonical_loop (ln : Q -> Q) (min_hits : Z) (h0 : Z) (c0 p0 w0 : Q) (hits gsum : list Z) (can w_prev : list Q) : option (list Q * list Z) :=
  match hits, gsum, can, w_prev with
  | [], [], [], [] => Some ([], [])
  | h :: hits', g :: gsum', c :: can', p :: w_prev' =>
      let '(w, g1) :=
        if ((min_hits <=? h) && (min_hits <=? h0))%Z then
          let gi := (h + h0)%Z in
          ((w0 + ((p - p0) * inject_Z g + - inject_Z gi * ln (c0 / c)) / inject_Z (g + gi))%Q, (g + gi)%Z)
        else ((p - p0 + w0)%Q, g) in
      do r <- canonical_loop ln min_hits h c p w hits' gsum' can' w_prev';
      Some (w :: fst r, g1 :: snd r)
  | _, _, _, _ => None
  end.

(** 763-794: the new (not overcorrected) weights and gsum, from the weights of the last update. *)
Definition canonical_update (ln : Q -> Q) (min_hits : Z) (limits : list Q) (hits gsum : list Z) (can_hist w_prev : list Q) : option (list Q * list Z) :=
  match hits, gsum, normalise can_hist limits, w_prev with
  | h :: hits', g :: gsum', c :: can', p :: w_prev' =>
      do r <- canonical_loop ln min_hits h c p p hits' gsum' can' w_prev';
      Some (p :: fst r, g :: snd r)
  | _, _, _, _ => None
  end.
