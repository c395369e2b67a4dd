(** Model of the column redistribution of the FFT and of reflect (the FFTW host
    version).  Line numbers: /repo/libraries/plumbing/fft.cpp, fft.h and
    fft_fftw_transform.h (transform.h below). *)
From Verif Require Import Common LayoutModel.
Open Scope Z_scope.

(** ** Buffers: size and contents, [None] where nothing was written. *)
Record buffer (V : Type) : Type := mkBuffer { b_size : Z; b_at : Z -> option V }.
Arguments mkBuffer {V}. Arguments b_size {V}. Arguments b_at {V}.

Definition fresh_buffer {V : Type} (n : Z) : buffer V := mkBuffer n (fun _ => None).

(** Reading n values at [off]: [None] outside of the buffer or where a value was never
    written. *)
Fixpoint all_some {A : Type} (l : list (option A)) : option (list A) :=
  match l with
  | [] => Some []
  | Some a :: t => match all_some t with Some r => Some (a :: r) | None => None end
  | None :: _ => None
  end.

Definition read {V : Type} (b : buffer V) (off n : Z) : option (list V) :=
  if (0 <=? off) && (0 <=? n) && (off + n <=? b_size b) then all_some (map (b_at b) (zrange off (Z.to_nat n))) else None.

Definition write {V : Type} (b : buffer V) (off : Z) (l : list V) : option (buffer V) :=
  if (0 <=? off) && (off + Z.of_nat (length l) <=? b_size b)
  then Some (mkBuffer (b_size b) (fun i => if (off <=? i) && (i <? off + Z.of_nat (length l)) then nth_error l (Z.to_nat (i - off)) else b_at b i))
  else None.

(** ** The row of ranks along a direction: init_pencil_direction, fft.cpp 56-123 *)

(** 78-83: same minima in the other directions. *)
Fixpoint same_column (dir : nat) (a b : list Z) : bool :=
  match a, b with
  | x :: a', y :: b' =>
      match dir with
      | O => forallb (fun q => fst q =? snd q) (combine a' b')
      | S dir' => (x =? y) && same_column dir' a' b'
      end
  | _, _ => true
  end.

(** 74-97: entry [i] of hila_pencil_comms[dir]: rank and size, written for the last
    fitting rank; [None] if no rank fits. *)
Definition row_entry (lat : lattice) (r : Z) (dir : nat) (i : Z) : option (Z * Z) :=
  fold_left (fun acc k =>
               let n := nodeinfo lat k in
               if same_column dir (n_min n) (n_min (nodeinfo lat r)) &&
                  (nth dir (n_min n) 0 =? divisor (nth dir (l_size lat) 0) (nth dir (n_divisions lat) 0) i)
               then Some (k, nth dir (n_siz n) 0) else acc)
            (zrange 0 (Z.to_nat (number_of_nodes lat))) None.

Record pencil : Type := mkPencil { p_node : Z; p_size : Z; p_offset : Z; p_number : Z }.

(** 99-115: columns handled by rank [i] of the row. *)
Definition make_pencil (lat : lattice) (r : Z) (dir : nat) (i : Z) : option pencil :=
  let ni := nodeinfo lat r in
  let size := nth dir (n_siz ni) 0 in
  let total_columns := volume ni / size in
  let nodes := nth dir (n_divisions lat) 0 in
  match row_entry lat r dir i with
  | Some (k, s) =>
      let offset := (i * total_columns) / nodes * size in
      Some (mkPencil k s offset (((i + 1) * total_columns) / nodes - offset / size))
  | None => None
  end.

Definition pencil_row (lat : lattice) (r : Z) (dir : nat) : option (list pencil) :=
  if nth dir (n_siz (nodeinfo lat r)) 0 =? 0 then None      (* division by zero at 99 *)
  else all_some (map (make_pencil lat r dir) (zrange 0 (Z.to_nat (nth dir (n_divisions lat) 0)))).

(** 111-113: hila_fft_my_columns[dir], 0 before it is set. *)
Definition my_columns (r : Z) (row : list pencil) : Z :=
  fold_left (fun acc p => if p_node p =? r then p_number p else acc) row 0.

(** 117-124: pencil_recv_buf_size[dir]. *)
Definition recv_buf_size (r : Z) (row : list pencil) : Z :=
  zsum (map (fun p => if p_node p =? r then 0 else my_columns r row * p_size p) row).

(** fft.h 104-111: size of the buffers. *)
Definition fft_buf_size (lat : lattice) (r : Z) : option Z :=
  match all_some (map (fun d => pencil_row lat r d) (seq 0 (length (l_size lat)))) with
  | Some rows =>
      let b := fold_left (fun acc row => Z.max acc (recv_buf_size r row)) rows 1 in
      Some (Z.max b (volume (nodeinfo lat r)))
  | None => None
  end.

(** fft.h 140-171 setup_direction: where the data of every rank of the row lies (true:
    in the send buffer) and the length of a piece of a column. *)
Fixpoint rec_ptrs (E r mycols : Z) (p : Z) (row : list pencil) : list (bool * Z * Z) :=
  match row with
  | [] => []
  | fn :: row' =>
      if p_node fn =? r then (true, p_offset fn * E, p_size fn) :: rec_ptrs E r mycols p row'
      else (false, p, p_size fn) :: rec_ptrs E r mycols (p + mycols * p_size fn * E) row'
  end.

(** ** Copies between field and buffers *)

(** fft.cpp 33-49 pencil_get_buffer_offsets: [s] is the offset of the next direction. *)
Fixpoint offsets (dir : nat) (d : nat) (s : Z) (sz : list Z) : list Z :=
  match sz with
  | [] => []
  | n :: sz' => if Nat.eqb d dir then 1 :: offsets dir (S d) s sz' else s :: offsets dir (S d) (s * n) sz'
  end.

Fixpoint dot_diff (o x mn : list Z) : Z :=
  match o, x, mn with
  | a :: o', b :: x', m :: mn' => a * (b - m) + dot_diff o' x' mn'
  | _, _, _ => 0
  end.

(** offset.dot(X.coordinates() - nmin) and the offset of the elements. *)
Definition site_offset (ni : node_info) (dir : nat) (E : Z) (x : list Z) : Z :=
  dot_diff (offsets dir 0 (nth dir (n_siz ni) 0 * E) (n_siz ni)) x (n_min ni).
Definition elem_offset (ni : node_info) (dir : nat) : Z := nth dir (n_siz ni) 0.

(** onsites(ALL) on a rank. *)
Definition rank_loop (lat : lattice) (r : Z) : list (list Z) :=
  let ni := nodeinfo lat r in map (coordinates ni) (loop_indices ni ALL).

Definition option_fold {A B : Type} (f : A -> B -> option A) (l : list B) (a : A) : option A :=
  fold_left (fun acc b => match acc with Some x => f x b | None => None end) l (Some a).

Definition site_elems (sites : list (list Z)) (E : Z) : list (list Z * Z) :=
  flat_map (fun x => map (fun e => (x, e)) (zrange 0 (Z.to_nat E))) sites.

Section Transform.
Context {V : Type}.

(** fft.h 177-206 collect_data. *)
Definition collect_data (lat : lattice) (r : Z) (dir : nat) (E : Z) (f : list Z -> Z -> V) (sb : buffer V) : option (buffer V) :=
  let ni := nodeinfo lat r in
  option_fold (fun b q => write b (site_offset ni dir E (fst q) + snd q * elem_offset ni dir) [f (fst q) (snd q)])
              (site_elems (rank_loop lat r) E) sb.

(** fft.h 208-238 save_result: the values written to the field. *)
Definition save_result (lat : lattice) (r : Z) (dir : nat) (E : Z) (rb : buffer V) : option (list (list Z * Z * V)) :=
  let ni := nodeinfo lat r in
  all_some (map (fun q => match read rb (site_offset ni dir E (fst q) + snd q * elem_offset ni dir) 1 with
                          | Some [v] => Some (q, v) | _ => None end)
                (site_elems (rank_loop lat r) E)).

(** fft.h 245-272 reshuffle_data. *)
Definition reshuffle_data (lat : lattice) (r : Z) (prev dir : nat) (E : Z) (rb sb : buffer V) : option (buffer V) :=
  let ni := nodeinfo lat r in
  option_fold (fun b q => match read rb (site_offset ni prev E (fst q) + snd q * elem_offset ni prev) 1 with
                          | Some v => write b (site_offset ni dir E (fst q) + snd q * elem_offset ni dir) v
                          | None => None end)
              (site_elems (rank_loop lat r) E) sb.

(** ** Communication.  The state of all ranks: send and receive buffers, [None] for a
    rank that failed. *)
Definition ranks : Type := Z -> option (buffer V * buffer V).

Definition entry_of (k : Z) (row : list pencil) : option pencil := find (fun p => p_node p =? k) row.

(** The entry of rank [k] with its pointer. *)
Definition ptr_of (E r : Z) (k : Z) (row : list pencil) : option (pencil * (bool * Z * Z)) :=
  find (fun q => p_node (fst q) =? k) (combine row (rec_ptrs E r (my_columns r row) 0 row)).

(** transform.h 158-211 gather_data: rank [r] receives from every other rank of the row.
    A message longer than the receive is an error. *)
Definition gather_data (lat : lattice) (dir : nat) (E : Z) (st : ranks) (r : Z) : option (buffer V * buffer V) :=
  match st r, pencil_row lat r dir with
  | Some (sb, rb), Some row =>
      let mc := my_columns r row in
      match option_fold (fun b q =>
              let '(fn, (_, p, _)) := q in
              if p_node fn =? r then Some b
              else match st (p_node fn), pencil_row lat (p_node fn) dir with
                   | Some (sb', _), Some row' =>
                       match entry_of r row' with
                       | Some me =>
                           match read sb' (p_offset me * E) (p_number me * E * nth dir (n_siz (nodeinfo lat (p_node fn))) 0) with
                           | Some msg => if Z.of_nat (length msg) <=? mc * p_size fn * E then write b p msg else None
                           | None => None
                           end
                       | None => None
                       end
                   | _, _ => None
                   end)
            (combine row (rec_ptrs E r mc 0 row)) rb with
      | Some rb' => Some (sb, rb')
      | None => None
      end
  | _, _ => None
  end.

(** transform.h 54-87 and 283-302: column [i] is put together from the pieces, [F] is
    applied to it and the pieces are written back. *)
Definition piece_read (sb rb : buffer V) (i : Z) (p : bool * Z * Z) : option (list V) :=
  let '(local, off, size) := p in read (if local then sb else rb) (off + i * size) size.

Definition piece_write (bufs : buffer V * buffer V) (i : Z) (p : bool * Z * Z) (l : list V) : option (buffer V * buffer V) :=
  let '(local, off, size) := p in
  if local : bool then match write (fst bufs) (off + i * size) l with Some sb => Some (sb, snd bufs) | None => None end
  else match write (snd bufs) (off + i * size) l with Some rb => Some (fst bufs, rb) | None => None end.

Fixpoint pieces_write (bufs : buffer V * buffer V) (i : Z) (ps : list (bool * Z * Z)) (l : list V) : option (buffer V * buffer V) :=
  match ps with
  | [] => Some bufs
  | p :: ps' =>
      let n := Z.to_nat (snd p) in
      match piece_write bufs i p (firstn n l) with
      | Some bufs' => pieces_write bufs' i ps' (skipn n l)
      | None => None
      end
  end.

Definition transform_column (F : list V -> list V) (ps : list (bool * Z * Z)) (bufs : buffer V * buffer V) (i : Z)
  : option (buffer V * buffer V) :=
  match all_some (map (piece_read (fst bufs) (snd bufs) i) ps) with
  | Some pieces => pieces_write bufs i ps (F (concat pieces))
  | None => None
  end.

Definition transform (lat : lattice) (dir : nat) (E : Z) (F : list V -> list V) (st : ranks) (r : Z) : option (buffer V * buffer V) :=
  match st r, pencil_row lat r dir with
  | Some bufs, Some row =>
      let mc := my_columns r row in
      option_fold (transform_column F (rec_ptrs E r mc 0 row)) (zrange 0 (Z.to_nat (mc * E))) bufs
  | _, _ => None
  end.

(** transform.h 216-263 scatter_data: the columns come back into the send buffer. *)
Definition scatter_data (lat : lattice) (dir : nat) (E : Z) (st : ranks) (r : Z) : option (buffer V * buffer V) :=
  match st r, pencil_row lat r dir with
  | Some (sb, rb), Some row =>
      match option_fold (fun b fn =>
              if p_node fn =? r then Some b
              else match st (p_node fn), pencil_row lat (p_node fn) dir with
                   | Some (sb', rb'), Some row' =>
                       match ptr_of E (p_node fn) r row' with
                       | Some (me, (_, p, _)) =>
                           match read rb' p (my_columns (p_node fn) row' * p_size me * E) with
                           | Some msg => if Z.of_nat (length msg) <=? p_number fn * E * nth dir (n_siz (nodeinfo lat r)) 0
                                         then write b (p_offset fn * E) msg else None
                           | None => None
                           end
                       | None => None
                       end
                   | _, _ => None
                   end) row sb with
      | Some sb' => Some (sb', rb)
      | None => None
      end
  | _, _ => None
  end.

(** fft.h 305-335: one direction: gather, transform, scatter, swap of the buffers. *)
Definition on_send (g : Z -> buffer V -> buffer V -> option (buffer V)) (st : ranks) (r : Z) : option (buffer V * buffer V) :=
  match st r with
  | Some (sb, rb) => match g r sb rb with Some sb' => Some (sb', rb) | None => None end
  | None => None
  end.

Definition swap_buffers (st : ranks) (r : Z) : option (buffer V * buffer V) :=
  match st r with Some (sb, rb) => Some (rb, sb) | None => None end.

Definition columns_step (lat : lattice) (E : Z) (F : nat -> list V -> list V) (dir : nat) (st : ranks) : ranks :=
  swap_buffers (scatter_data lat dir E (transform lat dir E (F dir) (gather_data lat dir E st))).

(** fft.h 296-341 full_transform for the active directions [dirs]: the state of all
    ranks and the last direction ([None]: none was active, `dir' has no value). *)
Fixpoint transform_dirs (lat : lattice) (E : Z) (F : nat -> list V -> list V) (f : list Z -> Z -> V)
    (prev : option nat) (dirs : list nat) (st : ranks) : ranks * option nat :=
  match dirs with
  | [] => (st, prev)
  | dir :: dirs' =>
      let st' := match prev with
                 | None => on_send (fun r sb _ => collect_data lat r dir E f sb) st
                 | Some q => on_send (fun r sb rb => reshuffle_data lat r q dir E rb sb) st
                 end in
      transform_dirs lat E F f (Some dir) dirs' (columns_step lat E F dir st')
  end.

Definition start (lat : lattice) (E : Z) : ranks := fun r =>
  match fft_buf_size lat r with
  | Some n => Some (fresh_buffer (n * E), fresh_buffer (n * E))
  | None => None
  end.

Definition full_transform (lat : lattice) (E : Z) (F : nat -> list V -> list V) (dirs : list nat)
    (f : list Z -> Z -> V) (r : Z) : option (list (list Z * Z * V)) :=
  let '(st, last) := transform_dirs lat E F f None dirs (start lat E) in
  match st r, last with
  | Some (_, rb), Some dir => save_result lat r dir E rb
  | _, _ => None
  end.

(** ** reflect, transform.h 293-295: the loop over half of the column. *)
Definition swap_at (l : list V) (i j : nat) : option (list V) :=
  match nth_error l i, nth_error l j with
  | Some a, Some b =>
      Some (map (fun q => if Nat.eqb (fst q) i then b else if Nat.eqb (fst q) j then a else snd q) (combine (seq 0 (length l)) l))
  | _, _ => None
  end.

Definition reflect_column (l : list V) : list V :=
  let length := List.length l in
  fold_left (fun b j => match swap_at b j (length - j) with Some b' => b' | None => b end)
            (seq 1 (length / 2 - 1)) l.
End Transform.

(** Field::reflect: one element per site. *)
Definition reflect {V : Type} (lat : lattice) (dirs : list nat) (f : list Z -> V) (r : Z) : option (list (list Z * Z * V)) :=
  full_transform lat 1 (fun _ => reflect_column) dirs (fun x _ => f x) r.

(** ** fft.h 512-523: FFT_complex_to_real_site *)
Fixpoint FFT_complex_to_real_site (ls cv : list Z) : Z :=
  match ls, cv with
  | L :: ls', x :: cv' =>
      if (0 <? x) && (x <? L / 2) then 1
      else if L / 2 <? x then -1
      else FFT_complex_to_real_site ls' cv'
  | _, _ => 0
  end.

(** fft.h 563-590: the symmetrised field, from the field and its reflection; a complex
    number is a pair. *)
Definition symmetrise (ls : list Z) (f rf : list Z -> Z * Z) (x : list Z) : Z * Z :=
  let type := FFT_complex_to_real_site ls x in
  if type =? 1 then f x
  else if type =? -1 then (fst (rf x), - snd (rf x))
  else (fst (f x), 0).
