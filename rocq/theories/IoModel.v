(** Model of writing and reading fields to and from files.
    Line numbers refer to /repo/libraries/plumbing.

    A file is a list of bytes (of any type B).  [ser] gives the bytes of one
    element in memory, [deser] the element with given bytes, [sz] is sizeof(T).
    Only binary files are modelled; text output differs in the formatting. *)
From Verif Require Import Common LayoutModel ElementModel.

(** lattice.h 389-396 [global_coordinates]. *)
Fixpoint global_coordinates (ls : list Z) (index : Z) : list Z :=
  match ls with
  | [] => []
  | n :: ls' => index mod n :: global_coordinates ls' (index / n)
  end.

(** Result of an operation: [Fault] is undefined behaviour of the element
    functions, [ShortFile] a read past the end of the file (the stream is then in
    the fail state, and close_file, field_io.h 58-76, ends the program), [NoFuel]
    a loop that has not ended within the given number of turns. *)
Inductive outcome (A : Type) : Type := Done (a : A) | Fault | ShortFile | NoFuel.
Arguments Done {A}. Arguments Fault {A}. Arguments ShortFile {A}. Arguments NoFuel {A}.

Section Io.
  Variables V B : Type.
  Variable ser : V -> list B.
  Variable deser : list B -> V.
  Variable sz : Z.

  Definition chunk_coords (ls : list Z) (i sites : Z) : list (list Z) :=
    map (global_coordinates ls) (zrange i (Z.to_nat sites)).

  (** field_io.h 145-163: the loop of [write]; [spw] is sites_per_write =
      WRITE_BUFFER_SIZE / sizeof(T).  Result: the bytes put to the file. *)
  Fixpoint write_loop (fuel : nat) (lat : lattice) (spw : Z) (st : rank_store V) (i : Z) : outcome (list B) :=
    match fuel with
    | O => NoFuel
    | S fuel' =>
        let vol := zprod (l_size lat) in
        if i <? vol then
          let sites := Z.min spw (vol - i) in
          match gather_elements lat 0 (chunk_coords (l_size lat) i sites) st with
          | None => Fault
          | Some buffer =>
              match write_loop fuel' lat spw st (i + spw) with
              | Done bytes => Done (flat_map ser buffer ++ bytes)
              | o => o
              end
          end
        else Done []
    end.

  (** field_io.h 128-167 [write]. *)
  Definition field_write (fuel : nat) (lat : lattice) (spw : Z) (st : rank_store V) : outcome (list B) :=
    write_loop fuel lat spw st 0.

  (** [inputfile.read(buffer, sites * sizeof(T))]: elements and rest of the file. *)
  Fixpoint read_elements (sites : nat) (bytes : list B) : option (list V * list B) :=
    match sites with
    | O => Some ([], bytes)
    | S k =>
        if Z.of_nat (length bytes) <? sz then None
        else
          match read_elements k (skipn (Z.to_nat sz) bytes) with
          | None => None
          | Some (vs, rest) => Some (deser (firstn (Z.to_nat sz) bytes) :: vs, rest)
          end
    end.

  (** [scatter_elements] on all ranks.  A coordinate outside of the lattice is
      out of range for the tables of [node_rank]. *)
  Fixpoint inside (ls c : list Z) : bool :=
    match ls, c with
    | [], [] => true
    | n :: ls', x :: c' => (0 <=? x) && (x <? n) && inside ls' c'
    | _, _ => false
    end.

  Definition is_some {A} (o : option A) : bool := match o with Some _ => true | None => false end.

  Definition scatter_all (lat : lattice) (coords : list (list Z)) (vs : list V) (st : rank_store V)
    : option (rank_store V) :=
    if forallb (inside (l_size lat)) coords &&
       forallb (fun r => is_some (scatter_elements lat 0 coords vs st r))
               (zrange 0 (Z.to_nat (number_of_nodes lat)))
    then Some (fun r => match scatter_elements lat 0 coords vs st r with Some m => m | None => st r end)
    else None.

  (** field_io.h 241-253: the loop of [read].  Result: new contents, rest of file. *)
  Fixpoint read_loop (fuel : nat) (lat : lattice) (spr : Z) (i : Z) (bytes : list B) (st : rank_store V)
    : outcome (rank_store V * list B) :=
    match fuel with
    | O => NoFuel
    | S fuel' =>
        let vol := zprod (l_size lat) in
        if i <? vol then
          let sites := Z.min spr (vol - i) in
          match read_elements (Z.to_nat sites) bytes with
          | None => ShortFile
          | Some (buffer, rest) =>
              match scatter_all lat (chunk_coords (l_size lat) i sites) buffer st with
              | None => Fault
              | Some st1 => read_loop fuel' lat spr (i + spr) rest st1
              end
          end
        else Done (st, bytes)
    end.

  (** field_io.h 222-257 [read]. *)
  Definition field_read (fuel : nat) (lat : lattice) (spr : Z) (bytes : list B) (st : rank_store V)
    : outcome (rank_store V * list B) := read_loop fuel lat spr 0 bytes st.

  (** ** Reading a configuration of another size: field_io.h 261-325 *)

  (** 280-286 [scalef]; sizes are positive so / is the C++ division. *)
  Fixpoint scale_factors (ls insize : list Z) : list Z :=
    match ls, insize with
    | n :: ls', m :: insize' => n / m :: scale_factors ls' insize'
    | _, _ => []
    end.

  (** 310-317: one coordinate of the copy number [ind]. *)
  Fixpoint copy_coord (ls insize scalef : list Z) (ind : Z) (c : list Z) : list Z :=
    match ls, insize, scalef, c with
    | n :: ls', m :: insize', f :: scalef', x :: c' =>
        (x + (ind mod f) * m) mod n :: copy_coord ls' insize' scalef' (ind / f) c'
    | _, _, _, _ => []
    end.

  (** 307-319: copies sci = 1 .. scvol-1. *)
  Fixpoint copies (lat : lattice) (insize scalef : list Z) (coords : list (list Z)) (buffer : list V)
    (scis : list Z) (st : rank_store V) : option (rank_store V) :=
    match scis with
    | [] => Some st
    | sci :: scis' =>
        match scatter_all lat (map (copy_coord (l_size lat) insize scalef sci) coords) buffer st with
        | None => None
        | Some st1 => copies lat insize scalef coords buffer scis' st1
        end
    end.

  Fixpoint read_sized_loop (fuel : nat) (lat : lattice) (insize : list Z) (spr : Z) (i : Z) (bytes : list B)
    (st : rank_store V) : outcome (rank_store V * list B) :=
    match fuel with
    | O => NoFuel
    | S fuel' =>
        let scalef := scale_factors (l_size lat) insize in
        let tvol := zprod insize in
        let scvol := zprod scalef in
        if i <? tvol then
          let sites := Z.min spr (tvol - i) in
          match read_elements (Z.to_nat sites) bytes with
          | None => ShortFile
          | Some (buffer, rest) =>
              let coords := chunk_coords insize i sites in
              match scatter_all lat coords buffer st with
              | None => Fault
              | Some st1 =>
                  match copies lat insize scalef coords buffer (zrange 1 (Z.to_nat (scvol - 1))) st1 with
                  | None => Fault
                  | Some st2 => read_sized_loop fuel' lat insize spr (i + spr) rest st2
                  end
              end
          end
        else Done (st, bytes)
    end.

  Definition field_read_sized (fuel : nat) (lat : lattice) (insize : list Z) (spr : Z) (bytes : list B)
    (st : rank_store V) : outcome (rank_store V * list B) :=
    read_sized_loop fuel lat insize spr 0 bytes st.

  (** field_io.h 182-199 [write_fields]: one field after the other. *)
  Fixpoint write_fields (fuel : nat) (lat : lattice) (spw : Z) (sts : list (rank_store V)) : outcome (list B) :=
    match sts with
    | [] => Done []
    | st :: sts' =>
        match field_write fuel lat spw st with
        | Done b1 => match write_fields fuel lat spw sts' with Done b2 => Done (b1 ++ b2) | o => o end
        | o => o
        end
    end.

  (** field_io.h 336-360 [read_fields] (as meant: it calls a member function
      read_from_stream that does not exist; [read] is used here). *)
  Fixpoint read_fields (fuel : nat) (lat : lattice) (spr : Z) (bytes : list B) (sts : list (rank_store V))
    : outcome (list (rank_store V) * list B) :=
    match sts with
    | [] => Done ([], bytes)
    | st :: sts' =>
        match field_read fuel lat spr bytes st with
        | Done (st1, rest) =>
            match read_fields fuel lat spr rest sts' with
            | Done (l, rest') => Done (st1 :: l, rest')
            | Fault => Fault | ShortFile => ShortFile | NoFuel => NoFuel
            end
        | Fault => Fault | ShortFile => ShortFile | NoFuel => NoFuel
        end
    end.
End Io.
Arguments field_write {V B}. Arguments field_read {V B}. Arguments field_read_sized {V B}.
Arguments write_fields {V B}. Arguments read_fields {V B}. Arguments write_loop {V B}.
Arguments read_loop {V B}. Arguments read_sized_loop {V B}. Arguments read_elements {V B}.
Arguments scatter_all {V}. Arguments copies {V}.
