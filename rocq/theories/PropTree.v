(** Properties of the moral graph, the cliques, the join tree and its potentials. *)
From Verif Require Import Py M_Graph M_Node M_Pptc Spec SpecNet SpecEv SpecDet L_Base L_Check L_Shape Ex L_P1 L_R1 L_Det2.
Open Scope nat_scope.

(** C47 *)
Theorem C47_moralization : forall ops, well_shaped ops -> let N := net_of ops in
  exists u, moralize (b_g (build ops)) = Ok u /\ map fst (g_nodes u) = vars N /\
    forall x y, In y (get_neighbors u x) <-> moral_edge N x y.
Proof. exact c47. Qed.
Print Assumptions C47_moralization.

Example C47_case : well_shaped diamond /\
  (match moralize (b_g (build diamond)) with Ok u => mem 1%Z (get_neighbors u 2%Z) && negb (mem 30%Z (get_neighbors u 10%Z)) | Err _ => false end) = true.
Proof. split; [exact diamond_ok|]. vm_compute. reflexivity. Qed.

(** C08. The last line: in the graph returned, two variables are neighbours exactly when they share a clique. *)
Theorem C08_triangulation : forall ops o, well_shaped ops -> ord_ok o -> let N := net_of ops in
  exists u m cs, moralize (b_g (build ops)) = Ok u /\ triangulate o u = Ok (m, cs) /\
    (forall i, In i (vars N) -> exists c, In c cs /\ incl (par N i ++ [i]) (cl_nodes c)) /\
    (forall x y, moral_edge N x y -> exists c, In c cs /\ In x (cl_nodes c) /\ In y (cl_nodes c)) /\
    (forall c d, In c cs -> In d cs -> incl (cl_nodes c) (cl_nodes d) -> c = d) /\
    (NoDup cs /\ forall c, In c cs -> NoDup (cl_nodes c) /\ incl (cl_nodes c) (vars N) /\ cl_nodes c <> []) /\
    (forall x y, In y (get_neighbors m x) <-> x <> y /\ exists c, In c cs /\ In x (cl_nodes c) /\ In y (cl_nodes c)).
Proof. exact c08. Qed.
Print Assumptions C08_triangulation.

Example C08_case : well_shaped diamond /\
  (match moralize (b_g (build diamond)) with
   | Ok u => match triangulate ord_rev u with Ok (_, cs) => Nat.eqb (List.length cs) 2 && forallb (fun c => Nat.eqb (List.length (cl_nodes c)) 3) cs | Err _ => false end
   | Err _ => false end) = true.
Proof. split; [exact diamond_ok|]. vm_compute. reflexivity. Qed.

(** C09 *)
Theorem C09_join_tree : forall ops o, well_shaped ops -> ord_ok o -> let N := net_of ops in
  exists b j, apply o (build ops) = Ok (b, j) /\
    no_cycle (map joins (jt_sepsets j)) /\
    (forall s, In s (jt_sepsets j) -> In (ss_left s) (jt_cliques j) /\ In (ss_right s) (jt_cliques j) /\ ss_nodes s <> [] /\
       forall v, In v (ss_nodes s) <-> In v (cl_nodes (ss_left s)) /\ In v (cl_nodes (ss_right s))) /\
    (forall v c d, In c (jt_cliques j) -> In d (jt_cliques j) -> In v (cl_nodes c) -> In v (cl_nodes d) ->
       path (fun a b => exists s, In s (jt_sepsets j) /\ In v (ss_nodes s) /\ (joins s = (a, b) \/ joins s = (b, a)))
            (cl_id c) (cl_id d)) /\
    (connected ops -> forall c d, In c (jt_cliques j) -> In d (jt_cliques j) ->
       path (sym (fun a b => In (a, b) (map joins (jt_sepsets j)))) (cl_id c) (cl_id d)) /\
    (forall i, In i (vars N) -> exists c, In c (jt_cliques j) /\ incl (par N i ++ [i]) (cl_nodes c)) /\
    (forall c d, In c (jt_cliques j) -> In d (jt_cliques j) -> incl (cl_nodes c) (cl_nodes d) -> c = d).
Proof. exact tree_build. Qed.
Print Assumptions C09_join_tree.

Example C09_case : well_shaped diamond /\ connected diamond /\
  (match apply ord_rev (build diamond) with Ok (_, j) => Nat.eqb (List.length (jt_cliques j)) 2 && Nat.eqb (List.length (jt_sepsets j)) 1 | Err _ => false end) = true.
Proof. split; [exact diamond_ok|]. split; [exact diamond_connected|]. vm_compute. reflexivity. Qed.

(** C10. Ids are injective on any cliques and separation sets that can arise (members listed once, non-empty overlap); *)
Theorem C10_ids_injective : forall A B C D, NoDup A -> NoDup B -> NoDup C -> NoDup D ->
  let share X Y := exists x, In x X /\ In x Y in let cl := mk_clique in
  (cl_id (cl A) = cl_id (cl B) -> same_members A B) /\
  (share A B -> share C D -> ss_id (mk_sepset (cl A) (cl B)) = ss_id (mk_sepset (cl C) (cl D)) ->
     same_members A C /\ same_members B D) /\
  (share A B -> ss_id (mk_sepset (cl A) (cl B)) <> cl_id (cl C)).
Proof. exact c10_ids. Qed.
Print Assumptions C10_ids_injective.

(** and all ids in the tree are different. *)
Theorem C10_tree_ids : forall ops o h, well_shaped ops -> ord_ok o -> valid_history (net_of ops) h ->
  exists j, session o ops h = Ok j /\ NoDup (map cl_id (jt_cliques j) ++ map ss_id (jt_sepsets j)).
Proof. exact c10_tree. Qed.
Print Assumptions C10_tree_ids.

Example C10_case : cl_id (mk_clique [12; 3]%Z) = "3-12"%string /\ cl_id (mk_clique [1; 2; 3]%Z) = "1-2-3"%string /\
  ss_id (mk_sepset (mk_clique [12; 3]) (mk_clique [3; 4]))%Z = "3-12-3-3-4"%string.
Proof. vm_compute. auto. Qed.

(** C11 *)
Theorem C11_calibrated : forall ops o h, well_shaped ops -> connected ops -> ord_ok o -> valid_history (net_of ops) h ->
  let N := net_of ops in let L := shown N (calls h) in
  exists j, session o ops h = Ok j /\
    (forall c, In c (jt_cliques j) -> exists p, dget (jt_pots j) (cl_id c) = Some p /\
       tabulates (dom N) (cl_nodes c) (marginal N L (cl_nodes c)) p) /\
    (forall s, In s (jt_sepsets j) -> exists p, dget (jt_pots j) (ss_id s) = Some p /\
       tabulates (dom N) (ss_nodes s) (marginal N L (ss_nodes s)) p).
Proof. exact c11. Qed.
Print Assumptions C11_calibrated.

(** C12. Also on networks in several parts. *)
Theorem C12_propagate_idempotent : forall ops o h o', well_shaped ops -> ord_ok o -> valid_history (net_of ops) h -> ord_ok o' ->
  exists j, session o ops h = Ok j /\ propagate o' j = Ok j.
Proof. exact c12. Qed.
Print Assumptions C12_propagate_idempotent.

Example C11_C12_case : well_shaped diamond /\ connected diamond /\ valid_history (net_of diamond) hard_history /\
  (match session ord_rev diamond hard_history with
   | Ok j => match dget (jt_pots j) "1-2-10"%string with
             | Some p => Nat.eqb (List.length p) 12 && negb (forallb (fun e => qeqb (pe_val e) 0%Qc) p)
             | None => false end
   | Err _ => false end) = true.
Proof. split; [exact diamond_ok|]. split; [exact diamond_connected|]. split; [exact hard_history_ok|]. vm_compute. reflexivity. Qed.

(** C55. Two networks with the same ids in the same order, the same numbers of values and the same parents; sets iterated in any
    two orders; any two histories of evidence. *)
Theorem C55_same_tree : forall ops ops' o o' h h', well_shaped ops -> well_shaped ops' -> ord_ok o -> ord_ok o' ->
  let N := net_of ops in let N' := net_of ops' in valid_history N h -> valid_history N' h' ->
  vars N' = vars N -> (forall i, List.length (dom N' i) = List.length (dom N i)) -> (forall i p, In p (par N' i) <-> In p (par N i)) ->
  exists j j', session o ops h = Ok j /\ session o' ops' h' = Ok j' /\ same_tree j j'.
Proof. exact c55_tree. Qed.
Print Assumptions C55_same_tree.

(** the parents of d are listed in another order, the tables differ, and the members of the second clique come in another order *)
Example C55_case : well_shaped diamond /\ well_shaped diamond_too /\ valid_history (net_of diamond) hard_history /\
  vars (net_of diamond_too) = vars (net_of diamond) /\ Forall (fun i => List.length (dom (net_of diamond_too) i) = List.length (dom (net_of diamond) i)) (vars (net_of diamond)) /\
  par (net_of diamond) 30%Z = [2; 1]%Z /\ par (net_of diamond_too) 30%Z = [1; 2]%Z /\
  (match session ord_id diamond hard_history with Ok j => map cl_nodes (jt_cliques j) | Err _ => [] end) = [[2; 1; 10]; [30; 2; 1]]%Z /\
  (match session ord_rev diamond_too [] with Ok j => map cl_nodes (jt_cliques j) | Err _ => [] end) = [[2; 1; 10]; [2; 30; 1]]%Z.
Proof.
  split; [exact diamond_ok|]. split; [apply well_shapedb_ok; vm_compute; reflexivity|]. split; [exact hard_history_ok|].
  vm_compute. repeat split; repeat constructor.
Qed.
