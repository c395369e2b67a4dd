(** Specification of element access: a field is a function from sites to values. *)
From Verif Require Import Common LayoutModel LayoutSpec ElementModel.

Section Spec.
  Context {V : Type}.

  Definition site_eq_dec : forall a b : list Z, {a = b} + {a <> b} := list_eq_dec Z.eq_dec.

  (** The field [F] with the value at [c] replaced by [v]. *)
  Definition put (F : list Z -> V) (c : list Z) (v : V) : list Z -> V :=
    fun x => if site_eq_dec x c then v else F x.

  (** Element operations on a single, global field: new field and value returned. *)
  Definition global_step (op : elem_op V) (F : list Z -> V) : (list Z -> V) * option V :=
    match op with
    | ESet c v => (put F c v, Some v)
    | ECompound c f => (put F c (f (F c)), None)
    | EGet c => (F, Some (F c))
    | EPost c f => (put F c (f (F c)), Some (F c))
    | EPre c f => (put F c (f (F c)), Some (f (F c)))
    end.

  Fixpoint global_run (ops : list (elem_op V)) (F : list Z -> V) : (list Z -> V) * list (option V) :=
    match ops with
    | [] => (F, [])
    | op :: ops' =>
        let '(F1, o) := global_step op F in
        let '(F2, os) := global_run ops' F1 in (F2, o :: os)
    end.

  Definition op_site (op : elem_op V) : list Z :=
    match op with ESet c _ | ECompound c _ | EGet c | EPost c _ | EPre c _ => c end.

  (** All values of a list of (site, value) pairs stored, in order. *)
  Fixpoint put_list (F : list Z -> V) (l : list (list Z * V)) : list Z -> V :=
    match l with
    | [] => F
    | (c, v) :: l' => put_list (put F c v) l'
    end.
End Spec.
