(** Vocabulary for properties about histories of reads, calls and indicator updates. *)

From Coq Require Import QArith Qcanon ZArith List Bool.
From Verif Require Import Val Frame Triangle A2A Base State.
Import ListNotations.
Open Scope list_scope.

(** Assignments to labels of the link ratio table (the quantifier of C18, C27; pandas
    grows the table on other labels). *)
Definition known (t : tri) (o : op) : Prop :=
  match o with
  | OSet og d _ | OSetAt og d _ => In og (m_idx (a2a (t_mat t))) /\ In d (m_cols (a2a (t_mat t)))
  | _ => True
  end.

(** Indicator updates, as opposed to reads and calls. *)
Definition is_update (o : op) : bool :=
  match o with OSet _ _ _ | OSetAt _ _ _ => true | _ => false end.

(** Reads and calls whose result has nothing to do with the indicators. *)
Definition indicator_free (o : op) : bool :=
  match o with
  | OA2aind | OA2aAvgs | OBaseCl _ _ | OMackCl _ _ | OBootCl _ _ _ | OSet _ _ _ | OSetAt _ _ _ => false
  | _ => true
  end.

(** The assignments of a history that did not raise, in order. *)
Definition assignments (h : list op) (ans : list (res obs)) : list (Z * Z * val) :=
  flat_map (fun p => match p with
                     | (OSet o d v, Ok _) | (OSetAt o d v, Ok _) => [(o, d, v)]
                     | _ => []
                     end) (combine h ans).

(** The value last assigned to a cell. *)
Fixpoint last_value (l : list (Z * Z * val)) (o d : Z) : option val :=
  match l with
  | [] => None
  | (o', d', v) :: r =>
      match last_value r o d with
      | Some w => Some w
      | None => if Z.eqb o' o && Z.eqb d' d then Some v else None
      end
  end.

(** The same assignments, made through [tri.a2aind.at[o, d] = v]. *)
Definition only_updates (l : list (Z * Z * val)) : list op :=
  map (fun a => OSetAt (fst (fst a)) (snd (fst a)) (snd a)) l.

(** The last valid rows a new triangle object works with: those left in its cache by
    [totri], or those of its cells. *)
Definition offsets (t : tri) (c0 : option (list nat)) (cl : list nat) : Prop :=
  match c0 with Some c => c = cl | None => clvi (t_mat t) = Ok cl end.
