(** The functions that recurse, once more with a limit on the depth of the recursion, and the functions that call them. [d] is how many
    calls of the recursive function may be open at a time: what Python's recursion limit leaves when the function is called first.
    [Err OutOfFuel] stands for the RecursionError of the call after that. *)
From Verif Require Import Py M_Graph M_Node M_Pptc SpecGraph SpecEv SpecRe.

Section Depth.
  Context (d : nat).

  (** ** Dag and Pdag *)
  Section Graph.
    Context {N : Type} (nid : N -> Z).
    (** dag.py:59-82 Dag.__shouldadd__; the recursion is PathDetector.__find__ (dag.py:383-399) *)
    Definition dag_shouldadd_d (o : Ord) (g : graph N) (e : edge N) : res bool :=
      match e_t e with
      | UNDIRECTED => Ok false
      | DIRECTED =>
          let pa := nid (e_i e) in let ch := nid (e_j e) in
          if Z.eqb pa ch then Ok false
          else if negb (mem ch (emap g pa)) && negb (mem pa (emap g ch))
               then b <- pd_exists (get_children o g) pa d ch ;; Ok (negb b)
               else Ok false
      end.
    (** graph.py:66-87 with Dag.__shouldadd__ *)
    Definition dag_add_edge_d (o : Ord) (g : graph N) (e : edge N) : res (graph N) :=
      let g1 := add_ends nid g e in
      b <- dag_shouldadd_d o g1 e ;; Ok (if b : bool then put_edge nid g1 e else g1).
    (** a history of calls, as [dag_run] *)
    Definition dag_step_d (g : graph N) (op : Ord * @gop N) : res (graph N) :=
      match snd op with
      | AddN n => Ok (add_node nid g n) | AddE e => dag_add_edge_d (fst op) g e | Remove i => Ok (remove_node g i)
      end.
    Definition dag_run_d (ops : list (Ord * @gop N)) : res (graph N) := foldM dag_step_d ops g_empty.
    (** pdag.py:39-59 Pdag.__shouldadd__; the recursion is PathDetector.__find__ (pdag.py:115-131) *)
    Definition pdag_shouldadd_d (o : Ord) (g : graph N) (e : edge N) : res bool :=
      let pa := nid (e_i e) in let ch := nid (e_j e) in
      if Z.eqb pa ch then Ok false
      else if negb (mem ch (emap g pa)) && negb (mem pa (emap g ch))
           then b <- pd_exists (get_out_nodes o g) pa d ch ;; Ok (negb b)
           else Ok false.
    (** graph.py:66-87 with Pdag.__shouldadd__ *)
    Definition pdag_add_edge_d (o : Ord) (g : graph N) (e : edge N) : res (graph N) :=
      let g1 := add_ends nid g e in
      b <- pdag_shouldadd_d o g1 e ;; Ok (if b : bool then put_edge nid g1 e else g1).
    Definition pdag_step_d (g : graph N) (op : Ord * @gop N) : res (graph N) :=
      match snd op with
      | AddN n => Ok (add_node nid g n) | AddE e => pdag_add_edge_d (fst op) g e | Remove i => Ok (remove_node g i)
      end.
    Definition pdag_run_d (ops : list (Ord * @gop N)) : res (graph N) := foldM pdag_step_d ops g_empty.
  End Graph.

  (** ** Inference *)

  (** jointree.py:504-520 __shouldadd__; the recursion is PathDetector.__find__ (jointree.py:579-595) *)
  Definition jt_shouldadd_d (o : Ord) (j : jtree) (s : sepset) : res bool :=
    let l := cl_id (ss_left s) in let r := cl_id (ss_right s) in
    if eqb l r then Ok false
    else b <- pd_exists (fun i => sord o i (jt_neighbors j i)) r d l ;; Ok (negb b).
  (** jointree.py:219-250 add_edge *)
  Definition jt_add_edge_d (o : Ord) (j : jtree) (s : sepset) : res jtree :=
    b <- jt_shouldadd_d o j s ;;
    if b : bool then
      let l := cl_id (ss_left s) in let r := cl_id (ss_right s) in let k := ss_id s in
      let j := jt_add_node (jt_add_node (jt_add_node j (JS s)) (JC (ss_left s))) (JC (ss_right s)) in
      let nb := dsadds (dsadds (dsadds (dsadds (jt_nbrs j) l k) r k) k l) k r in
      Ok (mkJt (jt_nodes j) (dset (jt_edges j) (jt_edge_key s) s) nb (jt_pots j) (jt_evid j) (jt_listener j)
               (jt_pinfo j) (jt_heap j))
    else Ok j.
  (** transformer.py:12-29 transform *)
  Definition transform_d (o : Ord) (h : heap) (cs : list clique) : res jtree :=
    let j := fold_left (fun j c => jt_add_node j (JC c)) cs (jt_empty h) in
    foldM (jt_add_edge_d o) (get_sep_sets (h_weight h) cs) j.

  (** evidencecollector.py:37-51 start; the recursion is __walk__ (53-75) *)
  Definition collect_d (o : Ord) (j : jtree) (st : pstate) (x : clique) : res pstate :=
    let m := sadd (snd st) (cl_id x) in
    nb <- neighboring o j x ;;
    foldM (fun st p => collect_walk o j d st x (fst p) (snd p)) nb (fst st, mark_all m nb).
  (** evidencedistributor.py:43-59 start; the recursion is __walk__ (61-81) *)
  Definition distribute_d (o : Ord) (j : jtree) (st : pstate) (x : clique) : res pstate :=
    let m := sadd (snd st) (cl_id x) in
    nb <- neighboring o j x ;;
    foldM (fun st p =>
             ps <- pass_message (jt_heap j) (fst st) x (fst p) (snd p) ;;
             distribute_walk o j d (ps, snd st) (snd p)) nb (fst st, mark_all m nb).
  (** propagator.py:11-29 propagate *)
  Definition propagate_d (o : Ord) (j : jtree) : res jtree :=
    match isort cl_leb (jt_cliques j) with
    | [] => Err IndexError
    | x :: _ =>
        st <- collect_d o j (jt_pots j, []) x ;;
        st <- distribute_d o j (fst st, []) x ;;
        Ok (set_jpots j (fst st))
    end.
  (** inferencecontroller.py:18-41 apply *)
  Definition apply_d (o : Ord) (b : bbn) : res (bbn * jtree) :=
    h <- pot_init b ;;
    let g := set_graph_nodes (b_g b) h in
    ug <- moralize g ;;
    let h := moralize_meta g h in
    mc <- triangulate o ug ;;
    j <- transform_d o h (snd mc) ;;
    let j := set_jpinfo j (flat_map (fun n => match dget (b_parents b) (n_id n) with
                                              | Some l => [(n_id n, l)]
                                              | None => []
                                              end) (get_nodes g)) in
    j <- initialize j ;;
    j <- propagate_d o j ;;
    Ok (mkBbn (set_graph_nodes g (jt_heap j)) (b_parents b), set_jlistener j true).
  (** inferencecontroller.py:67-83 apply_from_serde, and the tail of reapply (57-64) *)
  Definition apply_from_serde_d (o : Ord) (j : jtree) : res jtree :=
    let j := set_jevid (set_jlistener j false) [] in
    j <- pot_reinit j ;; j <- initialize j ;; j <- propagate_d o j ;; Ok (set_jlistener j true).
  (** inferencecontroller.py:44-64 reapply *)
  Definition reapply_d (o : Ord) (j : jtree) (cpts : list (Z * list Qc)) : res jtree :=
    apply_from_serde_d o (update_bbn_cpts j cpts).

  (** ** Evidence *)

  (** jointree.py:534-545 __notify_listener__, inferencecontroller.py:85-100 *)
  Definition notify_d (o : Ord) (j : jtree) (c : change) : jtree * option exn :=
    if jt_listener j then
      match (match c with
             | CRetraction => j <- initialize j ;; propagate_d o j
             | CUpdate => propagate_d o j
             | CNone => Ok j
             end) with
      | Ok j' => (j', None)
      | Err x => (j, Some x)
      end
    else (j, None).
  (** jointree.py:361-379 update_evidences *)
  Definition update_evidences_d (o : Ord) (j : jtree) (es : list evidence) : jtree * option exn :=
    match mapM validate es with
    | Err x => (j, Some x)
    | Ok es =>
        match get_change_type j es with
        | Err x => (j, Some x)
        | Ok c =>
            match store_evidences j es with
            | (j, Some x) => (j, Some x)
            | (j, None) => notify_d o j c
            end
        end
    end.
  (** jointree.py:341-350 unobserve *)
  Definition unobserve_d (o : Ord) (j : jtree) (ns : list bnode) : jtree * option exn :=
    update_evidences_d o j (map unobserved_evidence ns).
  (** jointree.py:352-359 unobserve_all *)
  Definition unobserve_all_d (o : Ord) (j : jtree) : jtree * option exn :=
    match mapM (dgetE (jt_heap j)) (jt_bbn_ids j) with
    | Err x => (j, Some x)
    | Ok ns => unobserve_d o j ns
    end.
  (** jointree.py:381-412 set_observation *)
  Definition set_observation_d (o : Ord) (j : jtree) (e : evidence) : jtree * option exn :=
    match dget (jt_evid j) (ev_node e) with
    | None => (j, Some KeyError)
    | Some m =>
        match convert m with
        | Err x => (j, Some x)
        | Ok pv =>
            let pvalues := map fst (filter (fun p => qeqb 1%Qc (snd p)) pv) in
            let cvalues := map fst (filter (fun p => qeqb 1%Qc (snd p)) (ev_values e)) in
            match pvalues with
            | [last] =>
                match cvalues with
                | [] => (j, Some IndexError)
                | curr :: _ =>
                    if eqb last curr
                    then update_evidences_d o j
                           [mkEv (ev_node e) (ev_dom e) UNOBSERVE (fold_left (fun m v => dset m v 1%Qc) (ev_dom e) [])]
                    else update_evidences_d o j [e]
                end
            | _ => update_evidences_d o j [e]
            end
        end
    end.
  (** the four calls, histories and sessions, as in SpecEv *)
  Definition do_call_d (o : Ord) (j : jtree) (c : call) : jtree * option exn :=
    match c with
    | Update es => update_evidences_d o j es
    | Unobserve ns => unobserve_d o j ns
    | UnobserveAll => unobserve_all_d o j
    | SetObservation e => set_observation_d o j e
    end.
  Fixpoint do_calls_d (j : jtree) (h : list (Ord * call)) : jtree * option exn :=
    match h with
    | [] => (j, None)
    | (o, c) :: t => match do_call_d o j c with (j, None) => do_calls_d j t | r => r end
    end.
  Definition session_d (o : Ord) (ops : list bop) (h : history) : res jtree :=
    bj <- apply_d o (build ops) ;; match do_calls_d (snd bj) h with (j, None) => Ok j | (_, Some x) => Err x end.
  (** with reapply in between, as in SpecRe *)
  Definition do_deed_d (j : jtree) (a : deed) : res jtree :=
    match a with
    | Evidence o c => match do_call_d o j c with (j, None) => Ok j | (_, Some x) => Err x end
    | Reapply o cpts => reapply_d o j cpts
    end.
  Definition adventure_d (o : Ord) (ops : list bop) (ds : list deed) : res jtree :=
    bj <- apply_d o (build ops) ;; foldM do_deed_d ds (snd bj).
End Depth.
