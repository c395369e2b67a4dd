(** Specification of fields under site loops: what a sequential reader of the
    program expects, with no ranks, halos or messages. *)
From Verif Require Import Common LayoutModel LayoutSpec GatherModel.

Section Spec.
  Context {V : Type}.

  (** The content of all fields. *)
  Definition fields : Type := Z -> list Z -> V.

  Definition parityb (p : parity) (c : list Z) : bool :=
    match p with ALL => true | EVEN => Z.even (zsum c) | ODD => negb (Z.even (zsum c)) end.

  (** A site loop on parity [p] assigning [w(X)] to field [f]. *)
  Definition assign (F : fields) (f : Z) (p : parity) (w : list Z -> V) : fields :=
    fun f' c => if (f' =? f) && parityb p c then w c else F f' c.

  (** One neighbour read of a site loop: the field content at that time,
      direction and loop parity. *)
  Definition read_event : Type := (list Z -> V) * Z * parity.

  (** The program's neighbour reads in order, from initial contents [F]. *)
  Fixpoint spec_reads (h : list (api_op V)) (F : fields) : list read_event :=
    match h with
    | [] => []
    | OWrite f p w :: h' => spec_reads h' (assign F f p w)
    | ORead f ds p :: h' => map (fun d => (F f, d, p)) ds ++ spec_reads h' F
    | _ :: h' => spec_reads h' F
    end.

  (** The contents of all fields after a program. *)
  Fixpoint final_fields (h : list (api_op V)) (F : fields) : fields :=
    match h with
    | [] => F
    | OWrite f p w :: h' => final_fields h' (assign F f p w)
    | _ :: h' => final_fields h' F
    end.

  (** Rank [r]'s share of a read event: in loop order, each of its sites of the
      loop parity gets the value at its periodic neighbour. *)
  Definition read_values (lat : lattice) (r : Z) (e : read_event) (vals : list V) : Prop :=
    let '(F, d, p) := e in
    let ni := nodeinfo lat r in
    Forall2 (fun i v => exists c', periodic_neighbour (l_size lat) (coordinates ni i) d c' /\ v = F c')
            (loop_indices ni p) vals.

  (** Directions named by the program exist on the lattice. *)
  Definition op_directions (lat : lattice) (o : api_op V) : Prop :=
    match o with
    | OStart _ d _ | OWait _ d _ | OGather _ d _ => is_direction (l_size lat) d
    | ORead _ ds _ => Forall (is_direction (l_size lat)) ds
    | _ => True
    end.

  (** Explicit [wait_gather(d,p)] calls are legal if every part of the halo
      they ask for was started (by any start, gather or read) since the last
      loop that wrote to the field.  [act] lists the (field, direction, parity)
      triples started since then. *)
  Fixpoint waits_matched (h : list (api_op V)) (act : list (Z * Z * parity)) : Prop :=
    match h with
    | [] => True
    | OWrite f p _ :: h' => waits_matched h' (filter (fun k => negb (fst (fst k) =? f)) act)
    | OStart f d p :: h' => waits_matched h' ((f, d, p) :: act)
    | OWait f d p :: h' =>
        (In (f, d, p) act \/ In (f, d, ALL) act \/
         (p = ALL /\ In (f, d, EVEN) act /\ In (f, d, ODD) act)) /\ waits_matched h' act
    | OGather f d p :: h' => waits_matched h' ((f, d, p) :: act)
    | ORead f ds p :: h' => waits_matched h' (map (fun d => (f, d, p)) ds ++ act)
    | OFree f :: h' => waits_matched h' act
    end.

  (** The field an operation is about. *)
  Definition op_field (o : api_op V) : Z :=
    match o with
    | OWrite f _ _ | OStart f _ _ | OWait f _ _ | OGather f _ _ | ORead f _ _ | OFree f => f
    end.

  (** A program that ends by destroying every field it uses. *)
  Definition frees_all (h : list (api_op V)) (fs : list Z) : Prop :=
    forall o, In o h -> In (op_field o) fs.
End Spec.

(** Executions: the sequence of transitions taken from [g] to [g']. *)
Inductive execution {V} (lat : lattice) (prog : list (mop V)) : system V -> list label -> system V -> Prop :=
  | ex_nil : forall g, execution lat prog g [] g
  | ex_cons : forall g l g1 ls g2,
      is_rank lat (match l with Exec r => r | Transmit r _ => r | Deliver r _ => r end) ->
      step V lat prog g l = Some g1 -> execution lat prog g1 ls g2 -> execution lat prog g (l :: ls) g2.

Definition finished {V} (lat : lattice) (prog : list (mop V)) (g : system V) : Prop :=
  forall r, is_rank lat r -> rs_pc V (sys_rank V g r) = length prog.

(** Every direction that is divided between ranks has an even lattice size. *)
Definition even_where_split (lat : lattice) : Prop :=
  forall j, (j < length (l_size lat))%nat -> 1 < nth j (n_divisions lat) 0 ->
            Z.even (nth j (l_size lat) 0) = true.

(** The initial memory holds the fields [F] on the sites (halos arbitrary). *)
Definition initial_fields {V} (lat : lattice) (mem : Z -> Z -> Z -> V) (F : Z -> list Z -> V) : Prop :=
  forall r f c, is_rank lat r -> holds lat r c -> mem r f (site_index (nodeinfo lat r) c) = F f c.
