(** The sampler of M_Sampling with rounded sums: the functions that depend on numpy.cumsum, once more. [rnd x] is the number
    stored when [x] is the exact sum. *)
From Verif Require Import Py M_Graph M_Node M_Sampling.
Open Scope Qc_scope.

Section Rounded.
  Context (rnd : Qc -> Qc).
  (** numpy.cumsum (sampling.py:43, 58): the first number as it is, then one rounded addition after the other *)
  Fixpoint cumsum_from_r (acc : Qc) (l : list Qc) : list Qc :=
    match l with [] => [] | q :: t => rnd (acc + q) :: cumsum_from_r (rnd (acc + q)) t end.
  Definition cumsum_r (l : list Qc) : list Qc := match l with [] => [] | q :: t => q :: cumsum_from_r q t end.

  (** sampling.py:31-59 __init__ *)
  Definition mk_table_r (n : bnode) (parents : list bnode) : res table :=
    let sorted := isort (fun a b => Z.leb (n_id a) (n_id b)) parents in
    let pids := map n_id parents in
    match parents with
    | [] => Ok (mkTable n sorted pids (Flat (cumsum_r (n_probs n))))
    | _ =>
        let keys := map (fun vs => join "," (map (fun p => get_kv (n_id (fst p)) (snd p)) (combine sorted vs)))
                        (cartesian (map n_values sorted)) in
        let k := List.length (n_values n) in
        if Nat.eqb k 0 then Err ValueError
        else
          let rows := map cumsum_r (slices (List.length (n_probs n)) k (n_probs n)) in
          Ok (mkTable n sorted pids (Keyed (fold_left (fun d p => dset d (fst p) (snd p)) (combine keys rows) [])))
    end.
  (** sampling.py:101-114 __get_tables__ *)
  Definition get_tables_r (b : bbn) : res (list (Z * table)) :=
    foldM (fun d n =>
             ps <- mapM (get_node (b_g b)) (get_parents_ordered b (n_id n)) ;;
             t <- mk_table_r n ps ;; Ok (dset d (n_id n) t)) (get_nodes (b_g b)) [].
  (** sampling.py:86-99 LogicSampler.__init__; what it does with its tables afterwards is get_samples of M_Sampling *)
  Definition logic_sampler_r (s : sorter) (b : bbn) : res sampler :=
    t <- get_tables_r b ;; Ok (mkSampler (topological_sort s b) t).
End Rounded.
