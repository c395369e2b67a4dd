(** Model of the division of the lattice among ranks and vector lanes for the
    vectorised layout: /repo/libraries/plumbing/setup_layout_vector.cpp (line
    numbers below refer to that file).  Integers are unbounded.  The prime
    factors and the ghost sizes are computed as in setup_layout_generic.cpp
    (SetupModel: same code), with the number of virtual nodes, ranks times
    lanes, for the number of ranks. *)
From Verif Require Import Common LayoutModel SetupModel VlayoutModel.

(** Lines 129-136 and 140-145: the first direction with the largest size above
    1 among those meeting a test. *)
Definition scan_largest (t : nat -> bool) (sz : list Z) : option nat :=
  snd (fold_left (fun (acc : Z * option nat) d =>
         if (nth d sz 0 >? fst acc) && t d then (nth d sz 0, Some d) else acc)
       (seq 0 (length sz)) (1, None)).

Definition is_dir (g : option nat) (d : nat) : bool :=
  match g with Some k => Nat.eqb d k | None => false end.

(** Lines 125-146; [g] is gdir ([None] for -1). *)
Definition vpick (g : option nat) (p : Z) (sz : list Z) : option nat :=
  match scan_largest (fun d => ((is_dir g d && (nth d sz 0 mod p =? 0)) ||
                                (negb (is_dir g d) && (nth d sz 0 mod (2 * p) =? 0))) &&
                               (nth d sz 0 / p >? 3)) sz with
  | Some d => Some d
  | None => scan_largest (fun d => negb (is_dir g d) && (nth d sz 0 mod p =? 0)) sz
  end.

(** Lines 115-160: the slicing loop.  [None] is the "CANNOT HAPPEN" exit. *)
Fixpoint vslice (g : option nat) (fs : list Z) (sz dv : list Z) : option (list Z * list Z) :=
  match fs with
  | [] => Some (sz, dv)
  | p :: fs' =>
      match vpick g p sz with
      | None => None
      | Some d => vslice g fs' (update d (fun s => s / p) sz) (update d (fun s => s * p) dv)
      end
  end.

(** Lines 179-194: one pass over the directions; the state is [subdiv],
    [n_subn], [merged_subnodes_dir] and [div_done]. *)
Definition subdivide_step (g : option nat) (nsub : Z) (sz dv : list Z)
  (s : list Z * Z * option nat * bool) (d : nat) : list Z * Z * option nat * bool :=
  let '(sd, ns, m, dn) := s in
  let x := nth d sd 0 * 2 in
  if negb (is_dir g d) && (nth d sz 0 mod 2 =? 0) && (nth d dv 0 mod x =? 0) && (ns <? nsub)
  then (update d (fun _ => x) sd, ns * 2, Some d, true)
  else s.

Definition subdivide_pass (g : option nat) (nsub : Z) (sz dv : list Z) (sd : list Z) (ns : Z) (m : option nat)
  : list Z * Z * option nat * bool :=
  fold_left (subdivide_step g nsub sz dv) (seq 0 (length sz)) (sd, ns, m, false).

(** Lines 177-195: the do-while loop; [None] if it is still running after
    [fuel] passes. *)
Fixpoint subdivide (fuel : nat) (g : option nat) (nsub : Z) (sz dv : list Z) (sd : list Z) (ns : Z) (m : option nat)
  : option (list Z * Z * option nat) :=
  match fuel with
  | O => None
  | S k =>
      let '(sd', ns', m', dn) := subdivide_pass g nsub sz dv sd ns m in
      if dn && (ns' <? nsub) then subdivide k g nsub sz dv sd' ns' m' else Some (sd', ns', m')
  end.

(** Lines 200-214: does the subdivision fail?  An undivided direction demands
    that there be an undivided direction of even size other than gdir. *)
Definition no_even_left (g : option nat) (sz sd : list Z) : bool :=
  let dirs := seq 0 (length sz) in
  existsb (fun d => nth d sd 0 =? 1) dirs &&
  negb (existsb (fun d => (nth d sd 0 =? 1) && negb (is_dir g d) && (nth d sz 0 mod 2 =? 0)) dirs).

Inductive vlayout_result : Type :=
  | VLayout (g : option nat) (nodesiz divisions subdiv : list Z) (merged : nat)
      (* sizes of the virtual nodes, numbers of virtual nodes, lanes *)
  | VOdd           (* lines 40-45, finishrun *)
  | VFactorFail    (* lines 66-70, finishrun *)
  | VCannotHappen  (* lines 148-152, finishrun *)
  | VFail          (* lines 223-240, finishrun *)
  | VNoMerged      (* accepted without setting merged_subnodes_dir *)
  | VLoopsOn       (* the outer do-while loop is still running *)
  | VSubLoopsOn.   (* the inner do-while loop is still running *)

(** Lines 99-111. *)
Definition vstart_sizes (ls : list Z) (nn : Z) (g : option nat) : list Z :=
  map (fun d => if is_dir g d then nsize ls nn d else nth d ls 1) (seq 0 (length ls)).
Definition choose_gdir (ls : list Z) (nn : Z) (gh : nat -> Z) : option nat :=
  if zprod (map (nsize ls nn) (seq 0 (length ls))) >? zprod ls
  then Some (min_ghost gh (length ls) (length ls - 1)) else None.

(** Lines 109-215: one attempt with uneven direction [g].  The inner loop is
    given [nsub] passes. *)
Inductive attempt : Type :=
  | Accepted (nodesiz divisions subdiv : list Z) (merged : option nat)
  | Rejected     (* fail *)
  | Stuck        (* "CANNOT HAPPEN" *)
  | StillRunning.

Definition vattempt (ls : list Z) (nn nsub : Z) (fs : list Z) (g : option nat) : attempt :=
  let ones := map (fun _ => 1) ls in
  match vslice g fs (vstart_sizes ls nn g) ones with
  | None => Stuck
  | Some (sz, dv) =>
      if existsb (fun s => s <? 1) sz then Rejected
      else match subdivide (Z.to_nat nsub) g nsub sz dv ones 1 None with
           | None => StillRunning
           | Some (sd, ns, m) =>
               if negb (ns =? nsub) || no_even_left g sz sd then Rejected else Accepted sz dv sd m
           end
  end.

(** Lines 93-242: the outer do-while loop, at most [fuel] turns; [gh] is
    ghosts, [second] is secondtime. *)
Fixpoint vlayout_loop (fuel : nat) (ls : list Z) (nn nsub : Z) (fs : list Z) (gh : nat -> Z) (second : bool)
  : vlayout_result :=
  match fuel with
  | O => VLoopsOn
  | S k =>
      let g := choose_gdir ls nn gh in
      match vattempt ls nn nsub fs g with
      | Stuck => VCannotHappen
      | StillRunning => VSubLoopsOn
      | Rejected =>
          match second, g with
          | false, Some j => vlayout_loop k ls nn nsub fs (fun d => if Nat.eqb d j then 2 ^ 62 else gh d) true
          | _, _ => VFail
          end
      | Accepted sz dv sd m =>
          if second then vlayout_loop k ls nn nsub fs gh second
          else match m with
               | Some j => VLayout g sz dv sd j
               | None => VNoMerged
               end
      end
  end.

(** Lines 40-242.  [nodes]: number of ranks, [nsub]: number of lanes. *)
Definition vsetup_layout (fuel : nat) (ls : list Z) (nodes nsub : Z) : vlayout_result :=
  if existsb (fun x => negb (x mod 2 =? 0)) ls then VOdd
  else
    let nn := nodes * nsub in
    match factorize nn with
    | None => VFactorFail
    | Some fs => vlayout_loop fuel ls nn nsub (rev fs) (ghosts ls nn) false
    end.

(** Lines 245-267: the division among the ranks and lanes that is installed;
    the remapping of ranks is create_remap of LayoutModel. *)
Definition installed (ls dv sd : list Z) (merged : nat) (mp inv : Z -> Z) : vlattice :=
  mkVlattice (mkLattice ls (cquot dv sd) mp inv) sd merged.

