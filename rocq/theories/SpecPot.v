(** What the potential operations should compute. *)
From Verif Require Import Py M_Node Spec.

(** [p] lists, in row-major order, one entry per combination of values of [vs], and holds the values of [f]. *)
Definition is_table (dm : Z -> list string) (vs : list Z) (f : asg -> Qc) (p : potential) : Prop :=
  List.length p = size dm vs /\
  forall a, okon dm vs a -> nth_error p (row_index dm vs a) = Some (mkPE (map (fun v => (v, a v)) vs) (f a)).

(** distinct variables with distinct values *)
Definition proper_scope (dm : Z -> list string) (vs : list Z) : Prop := NoDup vs /\ forall v, In v vs -> NoDup (dm v).

(** the variables of [vs] that are not in [ws] *)
Definition except (vs ws : list Z) : list Z := filter (fun v => negb (mem v ws)) vs.

(** [r] is [p] without the elements that do not satisfy [P] *)
Inductive selected {A : Type} (P : A -> Prop) : list A -> list A -> Prop :=
| sel_nil : selected P [] []
| sel_take x p r : P x -> selected P p r -> selected P (x :: p) (x :: r)
| sel_skip x p r : ~ P x -> selected P p r -> selected P (x :: p) r.

(** every row of every CPT sums to 1 *)
Definition stochastic (N : net) : Prop :=
  forall v a, In v (vars N) -> okon (dom N) (par N v) a -> qsum (map (fun x => cpt_entry N v (upd a v x)) (dom N v)) = 1%Qc.

(** node objects with pairwise different ids, each with pairwise different values, [dm] giving the values of each id *)
Definition proper_nodes (dm : Z -> list string) (ns : list bnode) : Prop :=
  NoDup (map n_id ns) /\ forall n, In n ns -> dm (n_id n) = n_values n /\ NoDup (n_values n).
