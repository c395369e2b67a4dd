(** Model of the automatic division of the lattice among the ranks:
    /repo/libraries/plumbing/setup_layout_generic.cpp (line numbers below refer
    to that file).  Integers are unbounded: the C++ [int] / [int64_t] overflow
    for lattices with more than 2^63 sites is not modelled. *)
From Verif Require Import Common LayoutModel.

(** Lines 11-13. *)
Definition primes : list Z := [2; 3; 5; 7; 11; 13; 17; 19; 23; 29; 31; 37].

(** Lines 43-47: dividing [i] by [p] as long as it goes; the number of
    divisions is at most log2 i. *)
Fixpoint divide_out (fuel : nat) (p i : Z) : Z * nat :=
  match fuel with
  | O => (i, O)
  | S k => if i mod p =? 0 then let '(j, n) := divide_out k p (i / p) in (j, S n) else (i, O)
  end.

(** Lines 40-53: the multiset of prime factors, smallest prime first, or
    [None] if the factorization fails. *)
Fixpoint factor_list (ps : list Z) (i : Z) : Z * list Z :=
  match ps with
  | [] => (i, [])
  | p :: ps' =>
      let '(j, n) := divide_out (Z.to_nat (Z.log2 i) + 1) p i in
      let '(k, fs) := factor_list ps' j in (k, repeat p n ++ fs)
  end.

Definition factorize (nn : Z) : option (list Z) :=
  let '(k, fs) := factor_list primes nn in if k =? 1 then Some fs else None.

(** Lines 62-71: the smallest size n >= l_size such that n * cosize is
    divisible by the number of ranks. *)
Fixpoint ghost_size (fuel : nat) (n cosize nn : Z) : Z :=
  match fuel with
  | O => n
  | S k => if (n * cosize) mod nn =? 0 then n else ghost_size k (n + 1) cosize nn
  end.

Definition cosize (ls : list Z) (d : nat) : Z := zprod ls / nth d ls 1.
Definition nsize (ls : list Z) (nn : Z) (d : nat) : Z := ghost_size (Z.to_nat nn) (nth d ls 1) (cosize ls d) nn.
Definition ghosts (ls : list Z) (nn : Z) (d : nat) : Z := (nsize ls nn d - nth d ls 1) * cosize ls d.

(** Line 78: argmin, starting from the current [mdir]. *)
Definition min_ghost (gh : nat -> Z) (ndim mdir : nat) : nat :=
  fold_left (fun m j => if gh m >? gh j then j else m) (seq 0 ndim) mdir.

(** Lines 89-134: the slicing loop; [sz] is nodesiz, [dv] n_divisions. *)
Definition largest_divisible (p : Z) (sz : list Z) : Z :=
  fold_left (fun m s => if (s >? m) && (s mod p =? 0) then s else m) sz 1.

(** Index of the last direction (the C++ loops run from NDIM-1 down) meeting a test. *)
Definition find_last (ndim : nat) (t : nat -> bool) : option nat := find t (rev (seq 0 ndim)).

Definition pick_direction (p : Z) (sz dv : list Z) : option nat :=
  let msize := largest_divisible p sz in
  let n := length sz in
  match find_last n (fun d => (nth d sz 0 =? msize) && (nth d dv 0 >? 1) && (nth d sz 0 mod p =? 0)) with
  | Some d => Some d
  | None => find_last n (fun d => (nth d sz 0 =? msize) && (nth d sz 0 mod p =? 0))
  end.

Fixpoint update (k : nat) (f : Z -> Z) (l : list Z) : list Z :=
  match l, k with
  | [], _ => []
  | x :: l', O => f x :: l'
  | x :: l', S k' => x :: update k' f l'
  end.

(** [fs]: the prime factors in the order used (largest first).  [None] is the
    "CANNOT HAPPEN" exit. *)
Fixpoint slice (fs : list Z) (sz dv : list Z) : option (list Z * list Z) :=
  match fs with
  | [] => Some (sz, dv)
  | p :: fs' =>
      match pick_direction p sz dv with
      | None => None
      | Some d => slice fs' (update d (fun s => s / p) sz) (update d (fun s => s * p) dv)
      end
  end.

Inductive layout_result : Type :=
  | Layout (mdir : nat) (nodesiz divisions : list Z)  (* the division chosen *)
  | FactorFail      (* line 49-53, finishrun *)
  | CannotHappen    (* line 124-128, finishrun *)
  | LayoutFail      (* line 144-148, finishrun *)
  | LoopsOn.        (* the do-while loop is still running after the given number of turns *)

(** Lines 82-86. *)
Definition start_sizes (ls : list Z) (nn : Z) (mdir : nat) : list Z :=
  map (fun d => if Nat.eqb d mdir then nsize ls nn d else nth d ls 1) (seq 0 (length ls)).

(** Lines 73-150: the do-while loop, at most [fuel] turns. *)
Fixpoint layout_loop (fuel : nat) (ls : list Z) (nn : Z) (fs : list Z) (gh : nat -> Z) (mdir : nat) (second : bool)
  : layout_result :=
  match fuel with
  | O => LoopsOn
  | S k =>
      let m := min_ghost gh (length ls) mdir in
      match slice fs (start_sizes ls nn m) (map (fun _ => 1) ls) with
      | None => CannotHappen
      | Some (sz, dv) =>
          let fail := existsb (fun s => s <? 2) sz in
          if fail && negb second then
            layout_loop k ls nn fs (fun d => if Nat.eqb d m then 2 ^ 62 else gh d) m true
          else if fail then LayoutFail
          else if second then layout_loop k ls nn fs gh m second
          else Layout m sz dv
      end
  end.

Definition setup_layout (fuel : nat) (ls : list Z) (nn : Z) : layout_result :=
  match factorize nn with
  | None => FactorFail
  | Some fs => layout_loop fuel ls nn (rev fs) (ghosts ls nn) 0 false
  end.
