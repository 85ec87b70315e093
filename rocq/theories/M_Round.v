(** Inference with rounded arithmetic: the functions of M_Node and M_Pptc that compute with probabilities, once more, with
    every product and quotient rounded and every sum taken by a given function. [exactly] is the arithmetic of M_Pptc. *)
From Verif Require Import Py M_Graph M_Node M_Pptc SpecEv.
Open Scope Qc_scope.

(** [r_rnd x]: the number stored when [x] is the exact result of an operation; [r_sum l]: what [sum(l)] returns *)
Record arith := mkArith { r_rnd : Qc -> Qc; r_sum : list Qc -> Qc }.
Definition exactly : arith := mkArith (fun x => x) qsum.

Section Rounded.
  Context (a : arith).

  (** potential.py:233-243 multiply *)
  Definition multiply_r (bigger smaller : potential) : potential :=
    fold_left (fun b e => map (fun x => if pe_matches x e then mkPE (pe_map x) (r_rnd a (pe_val x * pe_val e)) else x) b)
              smaller bigger.
  (** potential.py:201-220 divide *)
  Fixpoint divide_r (num den : potential) : res potential :=
    match num with
    | [] => Ok []
    | e :: t =>
        match den with
        | [] => Err IndexError
        | d :: ds =>
            t' <- divide_r t ds ;;
            Ok (mkPE (pe_map (pe_duplicate e))
                     (if is_zero (pe_val e) || is_zero (pe_val d) then 0 else r_rnd a (pe_val e / pe_val d)) :: t')
        end
    end.
  (** potential.py:184-198 normalize *)
  Definition normalize_r (p : potential) : potential :=
    let total := r_sum a (map pe_val p) in
    if qeqb total 0 then p else map (fun e => mkPE (pe_map e) (r_rnd a (pe_val e / total))) p.
  (** potential.py:163-181 marginalize_for *)
  Definition marginalize_r (clique_potential : potential) (ns : list (Z * list string)) : potential :=
    map (fun e => mkPE (pe_map e) (r_sum a (map pe_val (get_matching_entries clique_potential e))))
        (potential_from_nodes ns).

  (** initializer.py:25-35 *)
  Definition init_node_r (j : jtree) (i : Z) : res jtree :=
    cj <- get_clique j i ;;
    let (c, j) := (cj : string * jtree) in
    p1 <- dgetE (jt_pots j) c ;;
    n <- dgetE (jt_heap j) i ;;
    match n_pot n with
    | None => Err AttributeError
    | Some p2 => Ok (add_potential j c (multiply_r p1 p2))
    end.
  (** initializer.py:39-44 *)
  Definition init_evid_r (j : jtree) (i : Z) : res jtree :=
    n <- dgetE (jt_heap j) i ;;
    foldM (fun j v =>
             match n_mclq n with
             | None => Err KeyError
             | Some c =>
                 cp <- dgetE (jt_pots j) c ;;
                 let (j, p) := get_evidence j i v in
                 Ok (add_potential j c (multiply_r cp p))
             end) (n_values n) j.
  (** initializer.py:10-47 *)
  Definition initialize_r (j : jtree) : res jtree :=
    let j := init_pots j in
    let ids := jt_bbn_ids j in
    j <- foldM init_node_r ids j ;; foldM init_evid_r ids j.

  (** potential.py:145-160 *)
  Definition pass_message_r (h : heap) (ps : pots) (x : clique) (s : sepset) (y : clique) : res pots :=
    old <- dgetE ps (ss_id s) ;;
    match dget ps (cl_id x) with
    | None => Err AttributeError
    | Some cp =>
        let new := marginalize_r cp (h_nv h (ss_nodes s)) in
        let ps1 := dset ps (ss_id s) new in
        yp <- dgetE ps1 (cl_id y) ;;
        ratio <- divide_r new old ;;
        Ok (dset ps1 (cl_id y) (multiply_r yp ratio))
    end.
  (** evidencecollector.py:53-75 *)
  Fixpoint collect_walk_r (o : Ord) (j : jtree) (fuel : nat) (st : pstate) (x : clique) (s : sepset) (y : clique)
    : res pstate :=
    match fuel with
    | O => Err OutOfFuel
    | S f =>
        nb <- neighboring o j y ;;
        let (m, todo) := mark_new (snd st) nb in
        st' <- foldM (fun st p => collect_walk_r o j f st y (fst p) (snd p)) todo (fst st, m) ;;
        ps <- pass_message_r (jt_heap j) (fst st') y s x ;;
        Ok (ps, snd st')
    end.
  (** evidencecollector.py:37-51 *)
  Definition collect_r (o : Ord) (j : jtree) (st : pstate) (x : clique) : res pstate :=
    let m := sadd (snd st) (cl_id x) in
    nb <- neighboring o j x ;;
    foldM (fun st p => collect_walk_r o j (walk_fuel j) st x (fst p) (snd p)) nb (fst st, mark_all m nb).
  (** evidencedistributor.py:61-81 *)
  Fixpoint distribute_walk_r (o : Ord) (j : jtree) (fuel : nat) (st : pstate) (y : clique) : res pstate :=
    match fuel with
    | O => Err OutOfFuel
    | S f =>
        nb <- neighboring o j y ;;
        let (m, todo) := mark_new (snd st) nb in
        foldM (fun st p =>
                 ps <- pass_message_r (jt_heap j) (fst st) y (fst p) (snd p) ;;
                 distribute_walk_r o j f (ps, snd st) (snd p)) todo (fst st, m)
    end.
  (** evidencedistributor.py:43-59 *)
  Definition distribute_r (o : Ord) (j : jtree) (st : pstate) (x : clique) : res pstate :=
    let m := sadd (snd st) (cl_id x) in
    nb <- neighboring o j x ;;
    foldM (fun st p =>
             ps <- pass_message_r (jt_heap j) (fst st) x (fst p) (snd p) ;;
             distribute_walk_r o j (walk_fuel j) (ps, snd st) (snd p)) nb (fst st, mark_all m nb).
  (** propagator.py:11-29 *)
  Definition propagate_r (o : Ord) (j : jtree) : res jtree :=
    match isort cl_leb (jt_cliques j) with
    | [] => Err IndexError
    | x :: _ =>
        st <- collect_r o j (jt_pots j, []) x ;;
        st <- distribute_r o j (fst st, []) x ;;
        Ok (set_jpots j (fst st))
    end.

  (** jointree.py:70-81 *)
  Definition get_bbn_potential_r (j : jtree) (i : Z) : res potential :=
    n <- dgetE (jt_heap j) i ;;
    match n_mclq n with
    | None => Err KeyError
    | Some c => match dget (jt_pots j) c with
                | None => Err AttributeError
                | Some cp => Ok (normalize_r (marginalize_r cp [nv n]))
                end
    end.
  (** jointree.py:47-68 *)
  Definition get_posteriors_r (j : jtree) : res (list (string * list (string * Qc))) :=
    foldM (fun d i =>
             p <- get_bbn_potential_r j i ;;
             Ok (dset d (h_name (jt_heap j) i) (pot_to_map p))) (jt_bbn_ids j) [].

  (** inferencecontroller.py:18-41 *)
  Definition apply_r (o : Ord) (b : bbn) : res (bbn * jtree) :=
    h <- pot_init b ;;
    let g := set_graph_nodes (b_g b) h in
    ug <- moralize g ;;
    let h := moralize_meta g h in
    mc <- triangulate o ug ;;
    j <- transform o h (snd mc) ;;
    let j := set_jpinfo j (flat_map (fun n => match dget (b_parents b) (n_id n) with
                                              | Some l => [(n_id n, l)]
                                              | None => []
                                              end) (get_nodes g)) in
    j <- initialize_r j ;;
    j <- propagate_r o j ;;
    Ok (mkBbn (set_graph_nodes g (jt_heap j)) (b_parents b), set_jlistener j true).

  (** jointree.py:534-545, inferencecontroller.py:85-100 *)
  Definition notify_r (o : Ord) (j : jtree) (c : change) : jtree * option exn :=
    if jt_listener j then
      match (match c with
             | CRetraction => j <- initialize_r j ;; propagate_r o j
             | CUpdate => propagate_r o j
             | CNone => Ok j
             end) with
      | Ok j' => (j', None)
      | Err x => (j, Some x)
      end
    else (j, None).
  (** jointree.py:361-379. The sums in the comparison of evidence (772-782, 868) are exact: of hard evidence they are small
      integers. *)
  Definition update_evidences_r (o : Ord) (j : jtree) (es : list evidence) : jtree * option exn :=
    match mapM validate es with
    | Err x => (j, Some x)
    | Ok es =>
        match get_change_type j es with
        | Err x => (j, Some x)
        | Ok c =>
            match store_evidences j es with
            | (j, Some x) => (j, Some x)
            | (j, None) => notify_r o j c
            end
        end
    end.
  (** jointree.py:341-350 *)
  Definition unobserve_r (o : Ord) (j : jtree) (ns : list bnode) : jtree * option exn :=
    update_evidences_r o j (map unobserved_evidence ns).
  (** jointree.py:352-359 *)
  Definition unobserve_all_r (o : Ord) (j : jtree) : jtree * option exn :=
    match mapM (dgetE (jt_heap j)) (jt_bbn_ids j) with
    | Err x => (j, Some x)
    | Ok ns => unobserve_r o j ns
    end.
  (** jointree.py:381-412 *)
  Definition set_observation_r (o : Ord) (j : jtree) (e : evidence) : jtree * option exn :=
    match dget (jt_evid j) (ev_node e) with
    | None => (j, Some KeyError)
    | Some m =>
        match convert m with
        | Err x => (j, Some x)
        | Ok pv =>
            let pvalues := map fst (filter (fun p => qeqb 1 (snd p)) pv) in
            let cvalues := map fst (filter (fun p => qeqb 1 (snd p)) (ev_values e)) in
            match pvalues with
            | [last] =>
                match cvalues with
                | [] => (j, Some IndexError)
                | curr :: _ =>
                    if eqb last curr
                    then update_evidences_r o j
                           [mkEv (ev_node e) (ev_dom e) UNOBSERVE (fold_left (fun m v => dset m v 1) (ev_dom e) [])]
                    else update_evidences_r o j [e]
                end
            | _ => update_evidences_r o j [e]
            end
        end
    end.

  (** the calls of a history, one after the other (as in SpecEv) *)
  Definition do_call_r (o : Ord) (j : jtree) (c : call) : jtree * option exn :=
    match c with
    | Update es => update_evidences_r o j es
    | Unobserve ns => unobserve_r o j ns
    | UnobserveAll => unobserve_all_r o j
    | SetObservation e => set_observation_r o j e
    end.
  Fixpoint do_calls_r (j : jtree) (h : list (Ord * call)) : jtree * option exn :=
    match h with
    | [] => (j, None)
    | (o, c) :: t => match do_call_r o j c with (j, None) => do_calls_r j t | r => r end
    end.
  Definition session_r (o : Ord) (ops : list bop) (h : history) : res jtree :=
    bj <- apply_r o (build ops) ;; match do_calls_r (snd bj) h with (j, None) => Ok j | (_, Some x) => Err x end.
End Rounded.
