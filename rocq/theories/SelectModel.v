(** Model of site selections, SiteSelect and SiteValueSelect (the versions for
    hosts, not for GPUs).  Line numbers refer to
    /repo/libraries/plumbing/site_select.h unless another file is named. *)
From Verif Require Import Common LayoutModel IoModel.

(** site_index.h 36-43: SiteIndex(coordinates), the sum of m * cv[d] with
    m *= size(d).  Lattices with fewer than 2^64 sites: no wrap-around.
    SiteIndex::coordinates (site_index.h 48-56) is the same computation as
    [global_coordinates]. *)
Fixpoint index_from (m : Z) (ls c : list Z) : Z :=
  match ls, c with
  | n :: ls', x :: c' => m * x + index_from (m * n) ls' c'
  | _, _ => 0
  end.
Definition SiteIndex (ls c : list Z) : Z := index_from 1 ls c.

(** SIZE_MAX and size_t subtraction. *)
Definition SIZE_MAX : Z := 2 ^ 64 - 1.
Definition size_sub (a b : Z) : Z := (a - b) mod 2 ^ 64.

(** vector::operator[] assignment; [None] outside of the vector. *)
Fixpoint set_nth {A : Type} (n : nat) (v : A) (l : list A) : option (list A) :=
  match n, l with
  | _, [] => None
  | O, _ :: t => Some (v :: t)
  | S k, h :: t => match set_nth k v t with Some t' => Some (h :: t') | None => None end
  end.

(** vector::resize; new elements have the value [d]. *)
Definition resize {A : Type} (d : A) (n : nat) (l : list A) : list A :=
  firstn n l ++ repeat d (n - length l).

Section Select.
  Variable V : Type.
  (** value of new elements of vector<T> *)
  Variable dv : V.
  (** is it a SiteValueSelect? *)
  Variable hv : bool.

  (** The members of the selection variable that differ from rank to rank
      (34-47, 261): sites, values, current_index, previous_site, n_overflow. *)
  Record rank_sel : Type := mkSel {
    s_sites : list Z; s_values : list V; s_cur : nat; s_prev : Z; s_over : Z }.

  (** setup 94-100 and 270-273; [vol] is mynode.volume. *)
  Definition setup (vol : Z) (s : rank_sel) : rank_sel :=
    mkSel (resize 0 (Z.to_nat vol) (s_sites s))
          (if hv then resize dv (Z.to_nat vol) (s_values s) else s_values s)
          0 SIZE_MAX 0.

  (** select_site 74-82.  [None]: assignment outside of the vector. *)
  Definition select_site (i : Z) (s : rank_sel) : option rank_sel :=
    if i =? s_prev s then
      match s_cur s with
      | O => None
      | S k => match set_nth k i (s_sites s) with
               | Some l => Some (mkSel l (s_values s) (s_cur s) (s_prev s) (s_over s))
               | None => None
               end
      end
    else
      match set_nth (s_cur s) i (s_sites s) with
      | Some l => Some (mkSel l (s_values s) (S (s_cur s)) i (s_over s))
      | None => None
      end.

  (** select_site_value 294-297. *)
  Definition select_site_value (i : Z) (v : V) (s : rank_sel) : option rank_sel :=
    match set_nth (s_cur s) v (s_values s) with
    | Some l => select_site i (mkSel (s_sites s) l (s_cur s) (s_prev s) (s_over s))
    | None => None
    end.

  (** One select call in the loop, as replaced by hilapp
      (hilapp/src/codegen_cpu.cpp 196-209). *)
  Definition select_call (i : Z) (v : V) (s : rank_sel) : option rank_sel :=
    if hv then select_site_value i v s else select_site i s.

  (** The select calls of one site, with values [vs]. *)
  Fixpoint site_calls (i : Z) (vs : list V) (s : rank_sel) : option rank_sel :=
    match vs with
    | [] => Some s
    | v :: vs' => match select_call i v s with Some s' => site_calls i vs' s' | None => None end
    end.

  (** A site loop over [cs]; the body calls select at site [c] once for each
      element of [calls c]. *)
  Fixpoint loop_calls (ls : list Z) (calls : list Z -> list V) (cs : list (list Z)) (s : rank_sel) : option rank_sel :=
    match cs with
    | [] => Some s
    | c :: cs' => match site_calls (SiteIndex ls c) (calls c) s with
                  | Some s' => loop_calls ls calls cs' s'
                  | None => None
                  end
    end.

  (** endloop_action 203-212 and 312-320, without the join. *)
  Definition endloop (nmax : Z) (s : rank_sel) : rank_sel :=
    let over := if nmax <? Z.of_nat (s_cur s) then size_sub (Z.of_nat (s_cur s)) nmax else s_over s in
    let cur := if nmax <? Z.of_nat (s_cur s) then Z.to_nat nmax else s_cur s in
    mkSel (resize 0 cur (s_sites s)) (if hv then resize dv cur (s_values s) else s_values s) cur (s_prev s) over.

  (** What rank n sends to rank 0 in join_data_vectors: vectors of sites (the
      last element is the overflow) and values, or only a number. *)
  Inductive reply : Type := Vectors (sites : list Z) (vals : list V) | Number (n : Z).

  (** join_data_vectors 171-194, rank n <> 0, having received [nsend]. *)
  Definition answer (nsend : Z) (s : rank_sel) : reply :=
    if 0 <? nsend then
      let size := Z.of_nat (length (s_sites s)) in
      let over := if nsend <? size then s_over s + size_sub size nsend else s_over s in
      let sites := if nsend <? size then resize 0 (Z.to_nat nsend) (s_sites s) else s_sites s in
      let sent := sites ++ [over] in
      Vectors sent (if hv then resize dv (length sent - 1) (s_values s) else s_values s)
    else Number (Z.of_nat (length (s_sites s)) + s_over s).

  (** join_data_vectors 142-169, rank 0 with the reply of one rank.  [None]:
      back() of an empty vector. *)
  Definition take_reply (a : reply) (s : rank_sel) : option rank_sel :=
    match a with
    | Vectors sent vals =>
        match rev sent with
        | [] => None
        | over :: front => Some (mkSel (s_sites s ++ rev front) (if hv then s_values s ++ vals else s_values s)
                                       (s_cur s) (s_prev s) (s_over s + over))
        end
    | Number n => Some (mkSel (s_sites s) (s_values s) (s_cur s) (s_prev s) (s_over s + n))
    end.

  (** The loop of rank 0 over the other ranks (142-169). *)
  Fixpoint collect (nmax : Z) (others : list rank_sel) (s : rank_sel) : option rank_sel :=
    match others with
    | [] => Some s
    | o :: rest => match take_reply (answer (size_sub nmax (Z.of_nat (length (s_sites s)))) o) s with
                   | Some s' => collect nmax rest s'
                   | None => None
                   end
    end.

  (** clear 102-106 (the one of SiteSelect, called at 193). *)
  Definition clear (s : rank_sel) : rank_sel := mkSel [] (s_values s) 0 SIZE_MAX (s_over s).

  (** A selection variable on all ranks: nmax, auto_join and joined have the same
      values on every rank (all ranks execute the same calls). *)
  Record selector : Type := mkSelector { x_max : Z; x_auto : bool; x_joined : bool; x_ranks : list rank_sel }.

  (** join 129-135 and 304-308 on all ranks. *)
  Definition join (x : selector) : option selector :=
    if x_joined x then Some x
    else match x_ranks x with
         | [] => None
         | s0 :: others =>
             match collect (x_max x) others s0 with
             | Some s0' => Some (mkSelector (x_max x) (x_auto x) true (s0' :: map clear others))
             | None => None
             end
         end.

  (** max_size 89-92, no_join 84-87. *)
  Definition max_size (n : Z) (x : selector) : selector := mkSelector n (x_auto x) (x_joined x) (x_ranks x).
  Definition no_join (x : selector) : selector := mkSelector (x_max x) false (x_joined x) (x_ranks x).

  Fixpoint all_some {A : Type} (l : list (option A)) : option (list A) :=
    match l with
    | [] => Some []
    | Some a :: t => match all_some t with Some t' => Some (a :: t') | None => None end
    | None :: _ => None
    end.

  (** The loop on one rank: setup, the calls, endloop_action without the join. *)
  Definition rank_loop (lat : lattice) (p : parity) (calls : list Z -> list V) (nmax : Z) (r : Z) (s : rank_sel)
    : option rank_sel :=
    let ni := nodeinfo lat r in
    match loop_calls (l_size lat) calls (map (coordinates ni) (loop_indices ni p)) (setup (volume ni) s) with
    | Some s' => Some (endloop nmax s')
    | None => None
    end.

  (** A site loop with a selection (hilapp/src/codegen.cpp 241-251 puts setup()
      before it and hilapp/src/codegen_cpu.cpp 368-372 endloop_action() after). *)
  Definition select_loop (lat : lattice) (p : parity) (calls : list Z -> list V) (x : selector) : option selector :=
    match all_some (map (fun rs => rank_loop lat p calls (x_max x) (fst rs) (snd rs))
                        (combine (zrange 0 (length (x_ranks x))) (x_ranks x))) with
    | Some rs => let x' := mkSelector (x_max x) (x_auto x) false rs in
                 if x_auto x then join x' else Some x'
    | None => None
    end.
End Select.

Arguments mkSel {V}. Arguments s_sites {V}. Arguments s_values {V}. Arguments s_cur {V}.
Arguments s_prev {V}. Arguments s_over {V}. Arguments setup {V}. Arguments select_site {V}.
Arguments select_site_value {V}. Arguments select_call {V}. Arguments site_calls {V}. Arguments loop_calls {V}.
Arguments endloop {V}. Arguments answer {V}. Arguments take_reply {V}. Arguments collect {V}. Arguments clear {V}.
Arguments x_max {V}. Arguments x_auto {V}. Arguments x_joined {V}. Arguments x_ranks {V}. Arguments mkSelector {V}.
Arguments join {V}. Arguments max_size {V}. Arguments no_join {V}. Arguments rank_loop {V}. Arguments select_loop {V}.
Arguments Vectors {V}. Arguments Number {V}.
