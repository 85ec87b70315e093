(** Serialisation to dictionaries and JSON: Bbn.to_dict/from_dict (graph/dag.py) and JoinTree.to_dict/from_dict
    (graph/jointree.py).

    Dictionaries with a fixed set of string keys are records here. Only the dictionaries keyed by node id keep explicit
    keys, because JSON turns integer keys into strings. Numbers survive JSON unchanged (json writes floats with repr,
    which reads back exactly); this is not modelled further. *)
From Coq Require Import DecimalString.
From Verif Require Import Py M_Graph M_Node M_Pptc.

Inductive pykey := KInt (z : Z) | KStr (s : string).
Definition pykey_eqb (a b : pykey) : bool :=
  match a, b with KInt x, KInt y => Z.eqb x y | KStr x, KStr y => String.eqb x y | _, _ => false end.
Lemma pykey_eqb_spec a b : reflect (a = b) (pykey_eqb a b).
Proof.
  destruct a as [x|x], b as [y|y]; simpl; try (constructor; congruence).
  - destruct (Z.eqb_spec x y); constructor; congruence.
  - destruct (String.eqb_spec x y); constructor; congruence.
Qed.
#[global] Instance EqB_pykey : EqB pykey := {| eqb := pykey_eqb; eqb_spec := pykey_eqb_spec |}.

(** node.py:72-78 BbnNode.to_dict with variable.py:38-44 Variable.to_dict *)
Record nodedict := mkND { nd_probs : list Qc; nd_id : Z; nd_name : string; nd_values : list string }.
Definition node_to_dict (n : bnode) : nodedict := mkND (n_probs n) (n_id n) (n_name n) (n_values n).
(** dag.py:258-262, jointree.py:458-462 get_variable, get_bbn_node *)
Definition node_from_dict (d : nodedict) : bnode := new_node (nd_id d) (nd_name d) (nd_values d) (nd_probs d).

(** json.loads(json.dumps(d)) on the keys of a dictionary *)
Definition json_key (k : pykey) : pykey := match k with KInt z => KStr (str_of_Z z) | KStr s => KStr s end.

(** [nodes[i] if i in nodes else nodes[str(i)]] (dag.py:273-274, jointree.py:464-470) *)
Definition get_either {V} (d : list (pykey * V)) (i : Z) : res V :=
  match dget d (KInt i) with Some v => Ok v | None => dgetE d (KStr (str_of_Z i)) end.

(** ** networks *)
Record bbndict := mkBD { bd_nodes : list (pykey * nodedict); bd_edges : list (Z * Z) }.

(** dag.py:230-247 to_dict; an edge is (pa, ch) *)
Definition bbn_to_dict (b : bbn) : bbndict :=
  mkBD (fold_left (fun d n => dset d (KInt (n_id n)) (node_to_dict n)) (get_nodes (b_g b)) [])
       (flat_map (fun p => map (fun pa => (pa, fst p)) (snd p)) (b_parents b)).
Definition json_bbn (d : bbndict) : bbndict :=
  mkBD (fold_left (fun m p => dset m (json_key (fst p)) (snd p)) (bd_nodes d) []) (bd_edges d).

(** dag.py:250-281 from_dict *)
Definition bbn_from_dict (d : bbndict) : res bbn :=
  let nodes := map (fun p => (fst p, node_from_dict (snd p))) (bd_nodes d) in
  let b := fold_left bbn_add_node (dvals nodes) bbn_empty in
  foldM (fun b e => pa <- get_either nodes (fst e) ;; ch <- get_either nodes (snd e) ;;
                    Ok (bbn_add_edge b (mkEdge pa ch DIRECTED))) (bd_edges d) b.

(** ** join trees *)
Inductive jnodedict := DClique (node_ids : list Z) | DSepset (left right : string).
Record jtdict := mkJD {
  jd_bbn : list (pykey * nodedict); jd_nodes : list (string * jnodedict); jd_edges : list string;
  jd_pinfo : list (string * list Z) }.

(** jointree.py:415-447 to_dict. [list(n.node_ids)] is in the set's order. *)
Definition jt_to_dict (o : Ord) (j : jtree) (b : bbn) : res jtdict :=
  ns <- mapM (dgetE (jt_heap j)) (jt_bbn_ids j) ;;
  Ok (mkJD (fold_left (fun d n => dset d (KInt (n_id n)) (node_to_dict n)) ns [])
           (fold_left (fun d n => dset d (j_id n)
                                    (match n with
                                     | JS s => DSepset (cl_id (ss_left s)) (cl_id (ss_right s))
                                     | JC c => DClique (zord o 0 (cl_nodes c))
                                     end)) (dvals (jt_nodes j)) [])
           (map ss_id (dvals (jt_edges j)))
           (fold_left (fun d p => dset d (str_of_Z (fst p)) (snd p)) (b_parents b) [])).
Definition json_jt (d : jtdict) : jtdict :=
  mkJD (fold_left (fun m p => dset m (json_key (fst p)) (snd p)) (jd_bbn d) []) (jd_nodes d) (jd_edges d) (jd_pinfo d).

(** [int(s)] for a string of decimal digits with an optional minus sign (what str() writes; other spellings that int()
    accepts are rejected here) *)
Definition int_of_str (s : string) : res Z :=
  match NilZero.int_of_string s with Some i => Ok (Z.of_int i) | None => Err ValueError end.

(** jointree.py:450-502 from_dict. The heap holds the node objects made by get_bbn_node, one per id (in a dictionary
    made by to_dict, different keys have different ids). *)
Definition jt_from_dict (o : Ord) (d : jtdict) : res jtree :=
  let nodes := map (fun p => (fst p, node_from_dict (snd p))) (jd_bbn d) in
  cliques <- foldM (fun m p => match snd p with
                               | DClique ids => ns <- mapM (get_either nodes) ids ;;
                                                let c := mk_clique (map n_id ns) in Ok (dset m (cl_id c) c)
                               | DSepset _ _ => Ok m
                               end) (jd_nodes d) [] ;;
  seps <- foldM (fun m p => match snd p with
                            | DSepset l r => a <- dgetE cliques l ;; c <- dgetE cliques r ;;
                                             let s := mk_sepset a c in Ok (dset m (ss_id s) s)
                            | DClique _ => Ok m
                            end) (jd_nodes d) [] ;;
  edges <- mapM (dgetE seps) (jd_edges d) ;;
  let heap := fold_left (fun h p => dset h (n_id (snd p)) (snd p)) nodes [] in
  j <- match edges with
       | [] => Ok (set_jnodes (jt_empty heap) (map (fun p => (fst p, JC (snd p))) cliques))
       | _ => foldM (jt_add_edge o) edges (jt_empty heap)
       end ;;
  pi <- foldM (fun m p => k <- int_of_str (fst p) ;; Ok (dset m k (snd p))) (jd_pinfo d) [] ;;
  Ok (set_jpinfo j pi).
