(** Properties of the network generator. Nothing but theorems and examples. *)
From Verif Require Import Py M_Graph M_Node M_Pptc M_Nx M_Gen Spec SpecNet SpecEv SpecPot SpecNx Ex L_Base L_Check L_Gen L_Gen2 L_R5.
Open Scope nat_scope.

(** C39. Whatever the random numbers, the outcome is a connected acyclic graph on 0..n-1. The only way not to get one is
    to run out of numbers. *)
Theorem C39_connected_dag : forall n max_iter ints, n <> 0 -> Forall (below_n n) ints ->
  match multi_structure n max_iter ints with
  | Ok g => dg_nodes g = map Z.of_nat (seq 0 n) /\ (forall e, In e (dg_edges g) -> In (fst e) (dg_nodes g) /\ In (snd e) (dg_nodes g)) /\
            connected_on (dg_nodes g) (dg_edges g) /\ acyclic (arc (dg_edges g))
  | Err x => x = OutOfFuel
  end.
Proof. exact c39. Qed.
Print Assumptions C39_connected_dag.

(** Two different numbers per iteration are enough. *)
Theorem C39_progress : forall n pairs, n <> 0 -> Forall (fun e => below_n n (fst e) /\ below_n n (snd e) /\ fst e <> snd e) pairs ->
  exists g, multi_structure n (List.length pairs) (flat_map (fun e => [fst e; snd e]) pairs) = Ok g.
Proof. exact multi_progress. Qed.
Print Assumptions C39_progress.

(** For a single node no supply of numbers is enough, so the code does not terminate (also for C40). *)
Theorem C39_one_node_refuted : forall k ints units, Forall (below_n 1) ints ->
  multi_structure 1 (S k) ints = Err OutOfFuel /\ singly_structure 1 (S k) ints units = Err OutOfFuel.
Proof. exact one_node_stuck. Qed.
Print Assumptions C39_one_node_refuted.

(** 0->2 is added, 3->0 is refused, 1->2 is deleted, 2->3 cannot be deleted *)
Example C39_case : Forall (below_n 4) [0; 2; 3; 3; 0; 1; 2; 2; 3]%Z /\
  edges_of (multi_structure 4 4 [0; 2; 3; 3; 0; 1; 2; 2; 3]%Z) = [(0, 1); (0, 2); (2, 3)]%Z.
Proof. split; [apply belowb_ok; vm_compute; reflexivity|]. vm_compute. reflexivity. Qed.

(** C40. The outcome is a tree: connected, n-1 edges, no cycle whatever the directions, one path between any two nodes. *)
Theorem C40_tree : forall n max_iter ints units, n <> 0 -> Forall (below_n n) ints ->
  match singly_structure n max_iter ints units with
  | Ok g => dg_nodes g = map Z.of_nat (seq 0 n) /\ (forall e, In e (dg_edges g) -> In (fst e) (dg_nodes g) /\ In (snd e) (dg_nodes g)) /\
            NoDup (dg_edges g) /\ S (List.length (dg_edges g)) = n /\
            connected_on (dg_nodes g) (dg_edges g) /\ acyclic (arc (dg_edges g)) /\ (forall c, ~ cycle (dg_edges g) c) /\
            (forall p q x y, NoDup p -> NoDup q -> chain (sym (arc (dg_edges g))) p -> chain (sym (arc (dg_edges g))) q ->
               hd_error p = Some x -> hd_error q = Some x -> hd_error (rev p) = Some y -> hd_error (rev q) = Some y -> p = q)
  | Err x => x = OutOfFuel
  end.
Proof. exact c40. Qed.
Print Assumptions C40_tree.

Theorem C40_progress : forall n pairs units, n <> 0 -> Forall (fun e => below_n n (fst e) /\ below_n n (snd e) /\ fst e <> snd e) pairs ->
  List.length pairs <= List.length units ->
  exists g, singly_structure n (List.length pairs) (flat_map (fun e => [fst e; snd e]) pairs) units = Ok g.
Proof. exact singly_progress. Qed.
Print Assumptions C40_progress.

(** 3-1 would cut off 0 and is undone; 2->3 is replaced by 3->0; 1->2 is there already; then 1->2 is replaced by 3->2 *)
Example C40_case : Forall (below_n 4) [3; 1; 0; 3; 1; 2; 3; 2; 2]%Z /\
  edges_of (singly_structure 4 4 [3; 1; 0; 3; 1; 2; 3; 2; 2]%Z [qfrac 1 4; qfrac 1 4; qfrac 3 4]) = [(0, 1); (3, 0); (3, 2)]%Z.
Proof. split; [apply belowb_ok; vm_compute; reflexivity|]. vm_compute. reflexivity. Qed.

(** C41. The network made from generated structure and parameters is valid: every CPT has exactly the entries needed,
    every row is a distribution, edges are those of the graph; and its exact inference succeeds and is right. *)
Theorem C41_multi : forall dir n max_iter max_values ints draws, n <> 0 -> max_values <> 0 -> Forall (below_n n) ints ->
  (forall i k m, 2 <= m -> prob_vector m (dir i k m)) ->
  match generate_multi_bbn dir n max_iter max_values ints draws with
  | Ok (g, p) => exists ops, convert_for_exact_inference g p = Ok (build ops) /\ valid_net n (dg_edges g) ops /\
      forall o, ord_ok o -> exists b j t, apply o (build ops) = Ok (b, j) /\ get_posteriors j = Ok t /\ exact_table (net_of ops) (net_name ops) no_evidence t
  | Err x => x = OutOfFuel
  end.
Proof. exact c41_multi. Qed.
Print Assumptions C41_multi.

Theorem C41_singly : forall dir n max_iter max_values ints units draws, n <> 0 -> max_values <> 0 -> Forall (below_n n) ints ->
  (forall i k m, 2 <= m -> prob_vector m (dir i k m)) ->
  match generate_singly_bbn dir n max_iter max_values ints units draws with
  | Ok (g, p) => exists ops, convert_for_exact_inference g p = Ok (build ops) /\ valid_net n (dg_edges g) ops /\
      forall o, ord_ok o -> exists b j t, apply o (build ops) = Ok (b, j) /\ get_posteriors j = Ok t /\ exact_table (net_of ops) (net_name ops) no_evidence t
  | Err x => x = OutOfFuel
  end.
Proof. exact c41_singly. Qed.
Print Assumptions C41_singly.

Example C41_case : (forall i k m, 2 <= m -> prob_vector m (even_dir i k m)) /\
  (match generate_multi_bbn even_dir 4 2 3 [0; 2; 1; 3]%Z [2; 1; 0; 2] with
   | Ok (g, p) => match convert_calls g p with
                  | Ok ops => well_shapedb ops && connectedb ops && Nat.eqb (List.length (net_cpt ops 3)) 12 &&
                              match apply ord_rev (build ops) with Ok (_, j) => all_exactb ops no_evidence j | Err _ => false end
                  | Err _ => false end
   | Err _ => false end) = true.
Proof. split; [exact even_ok|]. vm_compute. reflexivity. Qed.

(** C49. The parents listed with the parameters need not be in the order in which the network reads the table. *)
Theorem C49_parent_order_refuted : exists dir n max_iter max_values ints draws g p ops i x,
  n <> 0 /\ max_values <> 0 /\ Forall (below_n n) ints /\ (forall i k m, 2 <= m -> prob_vector m (dir i k m)) /\
  generate_multi_bbn dir n max_iter max_values ints draws = Ok (g, p) /\ convert_calls g p = Ok ops /\
  dget p i = Some x /\ gp_parents x = [1; 0]%Z /\ net_par ops i = [0; 1]%Z.
Proof. exact c49_refuted. Qed.
Print Assumptions C49_parent_order_refuted.

(** They are the same parents, and the shape is that of the table. *)
Theorem C49_parent_set_partial : forall dir n max_iter max_values ints draws g p ops i x, n <> 0 -> max_values <> 0 -> Forall (below_n n) ints ->
  generate_multi_bbn dir n max_iter max_values ints draws = Ok (g, p) -> convert_calls g p = Ok ops -> dget p i = Some x ->
  Permutation (gp_parents x) (net_par ops i) /\ gp_shape x = (size (net_dom ops) (net_par ops i), List.length (net_dom ops i)).
Proof. exact c49_part. Qed.
Print Assumptions C49_parent_set_partial.
