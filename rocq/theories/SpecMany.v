(** Several join trees made from one network object, used in turn. *)
From Verif Require Import Py M_Graph M_Node M_Pptc Spec SpecNet SpecEv SpecRe SpecAgain.

(** The trees apply makes from a network hold its very node objects ([true]); the ones reapply makes hold copies of
    their own ([false]). *)
Record world := mkWorld { w_bbn : bbn; w_trees : list (bool * jtree) }.
(** a tree as a call on it finds it: with the node objects as they are now *)
Definition seen (w : world) (p : bool * jtree) : jtree :=
  if fst p then set_jheap (snd p) (g_nodes (b_g (w_bbn w))) else snd p.

Inductive move :=
| Tell (k : nat) (o : Ord) (c : call)                   (* an evidence call on the k-th tree *)
| Probs (cpts : list (Z * list Qc))                     (* node.probs = ... on nodes of the network *)
| Another (o : Ord)                                     (* InferenceController.apply(bbn): one more tree *)
| Copy (k : nat) (o : Ord) (cpts : list (Z * list Qc)). (* InferenceController.reapply(k-th tree, cpts): one more tree *)

Fixpoint put {A} (l : list A) (k : nat) (a : A) : list A :=
  match l, k with [], _ => [] | _ :: t, 0 => a :: t | x :: t, S k => x :: put t k a end.

Definition do_move (w : world) (m : move) : res world :=
  match m with
  | Tell k o c =>
      match nth_error (w_trees w) k with
      | None => Err IndexError
      | Some p => match do_call o (seen w p) c with
                  | (j, None) => Ok (mkWorld (if fst p then shared (w_bbn w) j else w_bbn w) (put (w_trees w) k (fst p, j)))
                  | (_, Some x) => Err x
                  end
      end
  | Probs cpts => Ok (mkWorld (assign (w_bbn w) cpts) (w_trees w))
  | Another o => bj <- apply o (w_bbn w) ;; Ok (mkWorld (fst bj) (w_trees w ++ [(true, snd bj)]))
  | Copy k o cpts =>
      match nth_error (w_trees w) k with
      | None => Err IndexError
      | Some p => j <- reapply o (seen w p) cpts ;; Ok (mkWorld (w_bbn w) (w_trees w ++ [(false, j)]))
      end
  end.
Definition moves (ops : list bop) (ms : list move) : res world := foldM do_move ms (mkWorld (build ops) []).

(** ** what each tree has to answer
    [sc_now]: the network with the CPTs its nodes hold now; [sc_used]: with those they held at the last apply.
    For each tree: whether it shares the nodes, the network it answers for, the likelihoods stored and shown. *)
Record scene := mkScene { sc_now : net; sc_used : net; sc_trees : list (bool * situation) }.
(** an evidence call on a tree; if it changes anything, a tree that shares the nodes is computed anew from the
    potentials the last apply has left in them *)
Definition told (used : net) (p : bool * situation) (c : call) : bool * situation :=
  let N := fst (snd p) in let s := snd (snd p) in
  (fst p, (if fst p && negb (forallb (quiet N (fst s)) (about N (fst s) c)) then used else N, step N s c)).
Definition ensue (s : scene) (m : move) : scene :=
  match m with
  | Tell k _ c => match nth_error (sc_trees s) k with
                  | Some p => mkScene (sc_now s) (sc_used s) (put (sc_trees s) k (told (sc_used s) p c))
                  | None => s
                  end
  | Probs cpts => mkScene (replaced (sc_now s) cpts) (sc_used s) (sc_trees s)
  | Another _ => mkScene (sc_now s) (sc_now s) (sc_trees s ++ [(true, (sc_now s, (no_evidence, no_evidence)))])
  | Copy k _ cpts =>
      match nth_error (sc_trees s) k with
      | Some p => mkScene (sc_now s) (sc_used s)
                    (sc_trees s ++ [(false, (replaced (if fst p then sc_now s else fst (snd p)) cpts, (no_evidence, no_evidence)))])
      | None => s
      end
  end.
Definition opening (ops : list bop) : scene := mkScene (net_of ops) (net_of ops) [].
(** calls name trees there are; evidence and CPTs are for the variables of the network *)
Definition move_ok (s : scene) (m : move) : Prop :=
  match m with
  | Tell k o c => k < List.length (sc_trees s) /\ ord_ok o /\ valid_call (sc_now s) c
  | Probs cpts => fitting (sc_now s) cpts
  | Another o => ord_ok o
  | Copy k o cpts => k < List.length (sc_trees s) /\ ord_ok o /\ fitting (sc_now s) cpts
  end.
Fixpoint moves_ok (s : scene) (ms : list move) : Prop :=
  match ms with [] => True | m :: t => move_ok s m /\ moves_ok (ensue s m) t end.

(** the evidence calls made on the k-th tree *)
Fixpoint told_to (k : nat) (ms : list move) : list call :=
  match ms with
  | [] => []
  | Tell k' _ c :: t => if Nat.eqb k' k then c :: told_to k t else told_to k t
  | _ :: t => told_to k t
  end.
(** no CPT is assigned to a node of the network *)
Definition untouched (ms : list move) : Prop := forall cpts, ~ In (Probs cpts) ms.

(** ** trees and edges added to the network later
    The parent_info of a tree apply makes holds the very lists of bbn.parents (inferencecontroller.py:30-34), which
    bbn.add_edge appends to (dag.py:139-144): the tree as a call on it finds it once the network object has become [b]. *)
Definition aliased (b : bbn) (j : jtree) : jtree :=
  set_jpinfo (set_jheap j (g_nodes (b_g b))) (map (fun p => (fst p, dgets (b_parents b) (fst p))) (jt_pinfo j)).
(** the parents such a tree goes by: those of the network as it is now, for a node that had any *)
Definition seen_par (ops new : list bop) (i : Z) : list Z := match net_par ops i with [] => [] | _ => net_par (ops ++ new) i end.
Definition seen_net (ops new : list bop) : net := mkNet (net_vars ops) (net_dom ops) (seen_par ops new) (net_cpt ops).
(** these are known to the tree *)
Definition known_par (ops new : list bop) : Prop := forall i, In i (net_vars ops) -> ~ In i (seen_par ops new i) /\ incl (seen_par ops new i) (net_vars ops).
(** the variables whose stored clique lacks one of these parents *)
Definition lacking (ops new : list bop) (j : jtree) (i : Z) : bool :=
  match dget (jt_heap j) i with
  | Some n => match n_mclq n with
              | Some k => existsb (fun c => String.eqb (cl_id c) k && negb (forallb (fun p => mem p (cl_nodes c)) (seen_par ops new i))) (jt_cliques j)
              | None => false
              end
  | None => false
  end.
