(** Ways of linking the cliques of a join tree, what a way of linking shares and what it costs. *)
From Verif Require Import Py M_Graph M_Node M_Pptc Spec SpecNet.
Open Scope nat_scope.

(** how many variables two cliques have in common *)
Definition shared (c d : clique) : nat := List.length (filter (fun v => mem v (cl_nodes d)) (cl_nodes c)).
(** the number of joint values of the members of a clique, i.e. the length of its table *)
Definition table_size (N : net) (c : clique) : nat := fold_right Nat.mul 1 (map (fun v => List.length (dom N v)) (cl_nodes c)).

(** links between overlapping cliques, without cycles *)
Definition linking (cs : list clique) (T : list (clique * clique)) : Prop :=
  (forall c d, In (c, d) T -> In c cs /\ In d cs /\ shared c d <> 0) /\
  no_cycle (map (fun e => (cl_id (fst e), cl_id (snd e))) T).
Definition overlap (T : list (clique * clique)) : nat := list_sum (map (fun e => shared (fst e) (snd e)) T).
Definition expense (N : net) (T : list (clique * clique)) : nat :=
  list_sum (map (fun e => table_size N (fst e) + table_size N (snd e)) T).

(** the links of a join tree: the two cliques beside each separation set *)
Definition links (j : jtree) : list (clique * clique) := map (fun s => (ss_left s, ss_right s)) (jt_sepsets j).

(** [T0] is a linking of [cs] that shares most, and among those that share as much costs least *)
Definition best_linking (N : net) (cs : list clique) (T0 : list (clique * clique)) : Prop :=
  linking cs T0 /\
  forall T, linking cs T -> overlap T <= overlap T0 /\
    (overlap T = overlap T0 -> List.length T = List.length T0 /\ expense N T0 <= expense N T).
