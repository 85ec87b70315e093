(** Which edges are the same link, and which edges a history of calls leaves in the list of edges. *)
From Verif Require Import Py M_Graph Spec SpecGraph.
From Verif Require Import M_Node.

Section Keys.
  Context {N : Type} (nid : N -> Z).

  (** same kind and same ends; the order of the ends counts only for directed edges *)
  Definition same_link (e f : edge N) : Prop :=
    e_t e = e_t f /\
    ((nid (e_i e) = nid (e_i f) /\ nid (e_j e) = nid (e_j f)) \/
     (e_t e = UNDIRECTED /\ nid (e_i e) = nid (e_j f) /\ nid (e_j e) = nid (e_i f))).

  (** [e] was accepted at some call, and no edge of the same link was accepted later *)
  Definition last_accepted {A : Type} (adds : A -> option (edge N)) (acc : list A -> edge N -> Prop) (ops : list A) (e : edge N) : Prop :=
    exists before op after, ops = before ++ op :: after /\ adds op = Some e /\ acc before e /\
      forall mid op' rest f, after = mid ++ op' :: rest -> adds op' = Some f -> acc (before ++ op :: mid) f -> ~ same_link e f.

  Definition added (op : gop N) : option (edge N) := match op with AddE e => Some e | _ => None end.

  (** Graph and Ug: not a loop, and not there already *)
  Definition graph_accepts (ops : list (gop N)) (e : edge N) : Prop :=
    let x := nid (e_i e) in let y := nid (e_j e) in
    x <> y /\ ~ (pointed nid ops x y /\ (e_t e = UNDIRECTED -> pointed nid ops y x)).
  (** Dag *)
  Definition dag_accepts (ops : list (Ord * gop N)) (e : edge N) : Prop :=
    exists g, dag_run nid ops = Ok g /\ admissible nid (arc g) e.
  (** Pdag *)
  Definition pdag_accepts (ops : list (Ord * gop N)) (e : edge N) : Prop :=
    let p := nid (e_i e) in let c := nid (e_j e) in
    exists g, pdag_run nid ops = Ok g /\ p <> c /\ ~ arc g p c /\ ~ arc g c p /\ ~ path (directed g) c p.
  (** no two edges of a list are the same link *)
  Definition links_once (l : list (edge N)) : Prop := ForallOrdPairs (fun e f => ~ same_link e f) l.
End Keys.

(** Bbn: everything *)
Definition arrow (op : bop) : option (edge bnode) := match op with AddEdge i j => Some (mkEdge i j DIRECTED) | AddNode _ => None end.
Definition bbn_accepts (ops : list bop) (e : edge bnode) : Prop := True.

(** some call added an edge from [x] to [y] that was accepted then *)
Definition ever_accepted {N A : Type} (nid : N -> Z) (adds : A -> option (edge N)) (acc : list A -> edge N -> Prop) (ops : list A) (x y : Z) : Prop :=
  exists before op after e, ops = before ++ op :: after /\ adds op = Some e /\ acc before e /\ nid (e_i e) = x /\ nid (e_j e) = y.
