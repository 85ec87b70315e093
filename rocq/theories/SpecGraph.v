(** Histories of calls on the graph classes, and what the graph should be after them, said of the history alone. *)
From Verif Require Import Py M_Graph Spec.

Section Ops.
  Context {N : Type} (nid : N -> Z).

  (** the three calls that change a graph *)
  Inductive gop := AddN (n : N) | AddE (e : edge N) | Remove (i : Z).

  (** ** Running the code *)

  (** Graph and Ug *)
  Definition graph_step (g : graph N) (op : gop) : graph N :=
    match op with AddN n => add_node nid g n | AddE e => add_edge nid g e | Remove i => remove_node g i end.
  Definition graph_run (ops : list gop) : graph N := fold_left graph_step ops g_empty.

  (** Dag; every call comes with the order in which sets are iterated during it *)
  Definition dag_step (g : graph N) (op : Ord * gop) : res (graph N) :=
    match snd op with
    | AddN n => Ok (add_node nid g n) | AddE e => dag_add_edge nid (fst op) g e | Remove i => Ok (remove_node g i)
    end.
  Definition dag_run (ops : list (Ord * gop)) : res (graph N) := foldM dag_step ops g_empty.

  (** Pdag *)
  Definition pdag_step (g : graph N) (op : Ord * gop) : res (graph N) :=
    match snd op with
    | AddN n => Ok (add_node nid g n) | AddE e => pdag_add_edge nid (fst op) g e | Remove i => Ok (remove_node g i)
    end.
  Definition pdag_run (ops : list (Ord * gop)) : res (graph N) := foldM pdag_step ops g_empty.

  Definition orders_ok (ops : list (Ord * gop)) : Prop := Forall (fun op => ord_ok (fst op)) ops.

  (** ** Reading the graph *)

  (** there is an edge from [x] to [y]: directed, or undirected *)
  Definition arc (g : graph N) (x y : Z) : Prop := In y (emap g x).
  (** there is a directed edge from [x] to [y] *)
  Definition directed (g : graph N) (x y : Z) : Prop := arc g x y /\ ~ arc g y x.

  (** ** What the history says *)

  Definition ends_at (e : edge N) (x y : Z) : Prop :=
    (nid (e_i e) = x /\ nid (e_j e) = y) \/ (nid (e_i e) = y /\ nid (e_j e) = x).
  Definition leads (e : edge N) (x y : Z) : Prop :=
    (nid (e_i e) = x /\ nid (e_j e) = y) \/ (e_t e = UNDIRECTED /\ nid (e_i e) = y /\ nid (e_j e) = x).

  (** an edge between [x] and [y] was added and neither was removed later *)
  Definition joined (ops : list gop) (x y : Z) : Prop :=
    x <> y /\ exists before e after, ops = before ++ AddE e :: after /\ ends_at e x y /\ ~ In (Remove x) after /\ ~ In (Remove y) after.
  (** the same, for edges that lead from [x] to [y] *)
  Definition pointed (ops : list gop) (x y : Z) : Prop :=
    x <> y /\ exists before e after, ops = before ++ AddE e :: after /\ leads e x y /\ ~ In (Remove x) after /\ ~ In (Remove y) after.

  (** the node object kept under id [k]: the first one mentioned since the last removal *)
  Definition keep (k : Z) (kept : option N) (n : N) : option N :=
    match kept with Some _ => kept | None => if Z.eqb (nid n) k then Some n else None end.
  Fixpoint kept_from (k : Z) (kept : option N) (ops : list gop) : option N :=
    match ops with
    | [] => kept
    | AddN n :: t => kept_from k (keep k kept n) t
    | AddE e :: t => kept_from k (keep k (keep k kept (e_i e)) (e_j e)) t
    | Remove i :: t => kept_from k (if Z.eqb i k then None else kept) t
    end.
  Definition kept (ops : list gop) (k : Z) : option N := kept_from k None ops.

  Definition no_removal (ops : list gop) : Prop := forall i, ~ In (Remove i) ops.

  (** adding an edge to a Dag is allowed *)
  Definition admissible (R : Z -> Z -> Prop) (e : edge N) : Prop :=
    let p := nid (e_i e) in let c := nid (e_j e) in
    e_t e = DIRECTED /\ p <> c /\ ~ R p c /\ ~ R c p /\ ~ path R c p.
End Ops.
Arguments gop N : clear implicits.

(** ** The other graphs path detection runs on *)
From Verif Require Import M_Node M_Pptc.

(** an edge of the calls that made a Bbn *)
Definition called (ops : list bop) (x y : Z) : Prop := exists a b, In (AddEdge a b) ops /\ n_id a = x /\ n_id b = y.

(** calls on a JoinTree *)
Inductive jop := JAddNode (n : jnode) | JAddEdge (s : sepset).
Definition jt_step (j : jtree) (op : Ord * jop) : res jtree :=
  match snd op with JAddNode n => Ok (jt_add_node j n) | JAddEdge s => jt_add_edge (fst op) j s end.
Definition jt_run (h : heap) (ops : list (Ord * jop)) : res jtree := foldM jt_step ops (jt_empty h).
Definition beside (j : jtree) (x y : string) : Prop := In y (jt_neighbors j x).
