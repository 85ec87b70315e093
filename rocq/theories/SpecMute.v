(** What apply computes when nodes carry cliques stored by an earlier call: the networks it is exact for. *)
From Verif Require Import Py M_Graph M_Node M_Pptc Spec SpecNet SpecEv SpecRe SpecAgain.

(** the network in which the CPTs of the variables in [D] are ignored: they have no parents and the factor 1 *)
Definition ignoring (D : Z -> bool) (N : net) : net :=
  mkNet (vars N) (dom N) (fun i => if D i then [] else par N i) (fun i => if D i then map (fun _ => 1%Qc) (dom N i) else cpt N i).

(** every stored clique is given by a set of variables that contains the node storing it *)
Definition housed (b : bbn) : Prop :=
  forall i n k, In (i, n) (g_nodes (b_g b)) -> n_mclq n = Some k -> exists K, NoDup K /\ In i K /\ k = cl_id (mk_clique K).
(** every stored clique is one of the tree *)
Definition present (b : bbn) (j : jtree) : Prop :=
  forall i n k, In (i, n) (g_nodes (b_g b)) -> n_mclq n = Some k -> In k (map cl_id (jt_cliques j)).
(** the variables whose stored clique is one of the tree and lacks one of their parents *)
Definition displaced (ops : list bop) (b : bbn) (j : jtree) (i : Z) : bool :=
  match dget (g_nodes (b_g b)) i with
  | Some n => match n_mclq n with
              | Some k => existsb (fun c => String.eqb (cl_id c) k && negb (forallb (fun p => mem p (cl_nodes c)) (net_par ops i))) (jt_cliques j)
              | None => false
              end
  | None => false
  end.

(** nodes that are added are given as they were made: whether they were already in an object is up to it *)
Definition plain_change (c : change) : Prop :=
  match c with Add (AddNode n) => n_mclq n = None | Add (AddEdge x y) => n_mclq x = None /\ n_mclq y = None | Assign _ => True end.
(** the network objects a caller can have: built, changed, put through apply, and seen again after evidence was entered
    into the tree that apply made from it. The calls of apply are made when the object stands for a well-shaped network. *)
Inductive obtained : bbn -> Prop :=
| ob_build ops : well_shaped ops -> obtained (build ops)
| ob_change b c : obtained b -> plain_change c -> obtained (do_change b c)
| ob_apply b ops o h b' j j' x : obtained b -> well_shaped ops -> cleared b = cleared (build ops) -> ord_ok o ->
    apply o b = Ok (b', j) -> do_calls j h = (j', x) -> obtained (shared b' j').
