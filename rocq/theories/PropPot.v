(** Properties of potentials: C26, C27, C43 and C45. *)
From Verif Require Import Py M_Graph M_Node M_Pptc Spec SpecNet SpecEv SpecPot Ex L_Base L_R1 L_P4 L_R4.

(** C26. [vs] are the variables of the first table, [ws] those of the second or of the result. *)
Theorem C26_ones : forall dm vs, proper_scope dm vs ->
  is_table dm vs (fun _ => 1%Qc) (potential_from_nodes (map (fun v => (v, dm v)) vs)).
Proof. exact c26_new. Qed.
Print Assumptions C26_ones.

Theorem C26_multiply : forall dm vs ws f g p q, proper_scope dm vs -> NoDup ws -> incl ws vs ->
  is_table dm vs f p -> is_table dm ws g q -> is_table dm vs (fun a => (f a * g a)%Qc) (multiply p q).
Proof. exact c26_multiply. Qed.
Print Assumptions C26_multiply.

Theorem C26_marginalize : forall dm vs ws f p, proper_scope dm vs -> NoDup ws -> incl ws vs -> is_table dm vs f p ->
  is_table dm ws (sums dm (except vs ws) f) (marginalize p (map (fun v => (v, dm v)) ws)).
Proof. exact c26_marginalize. Qed.
Print Assumptions C26_marginalize.

Theorem C26_divide : forall dm vs f g p q, proper_scope dm vs -> is_table dm vs f p -> is_table dm vs g q ->
  exists r, divide p q = Ok r /\
    is_table dm vs (fun a => if Qc_eq_dec (f a) 0 then 0%Qc else if Qc_eq_dec (g a) 0 then 0%Qc else (f a / g a)%Qc) r.
Proof. exact c26_divide. Qed.
Print Assumptions C26_divide.

Theorem C26_normalize : forall dm vs f p, proper_scope dm vs -> is_table dm vs f p ->
  let t := sums dm vs f no_asg in
  is_table dm vs (fun a => if Qc_eq_dec t 0 then f a else (f a / t)%Qc) (normalize p).
Proof. exact c26_normalize. Qed.
Print Assumptions C26_normalize.

(** tables on two variables, of two and three values, and on the second alone *)
Definition dm23 (v : Z) : list string := if Z.eqb v 7 then ["a"; "b"]%string else ["x"; "y"; "z"]%string.
Definition p23 : potential := potential_from_nodes [(7, ["a"; "b"]); (4, ["x"; "y"; "z"])]%Z%string.
Definition p3 : potential :=
  [mkPE [(4%Z, "x"%string)] (Q2Qc (1 # 2)); mkPE [(4%Z, "y"%string)] 0%Qc; mkPE [(4%Z, "z"%string)] (Q2Qc (1 # 3))].
Example C26_case : proper_scope dm23 [7; 4]%Z /\ is_table dm23 [7; 4]%Z (fun _ => 1%Qc) p23 /\
  map (fun e => this (pe_val e)) (multiply p23 p3) = [1 # 2; 0; 1 # 3; 1 # 2; 0; 1 # 3]%Q /\
  map (fun e => this (pe_val e)) (marginalize (multiply p23 p3) [(7%Z, ["a"; "b"]%string)]) = [5 # 6; 5 # 6]%Q /\
  map (fun e => this (pe_val e)) (normalize (marginalize (multiply p23 p3) [(7%Z, ["a"; "b"]%string)])) = [1 # 2; 1 # 2]%Q.
Proof.
  assert (S : proper_scope dm23 [7; 4]%Z).
  { split; [repeat constructor; simpl; intuition discriminate|]. intros v [<-|[<-|[]]]; repeat constructor; simpl; intuition discriminate. }
  split; [exact S|]. split; [exact (c26_new dm23 [7; 4]%Z S)|]. vm_compute. auto.
Qed.

(** C27, for a node and its parents, and for all the nodes of a network (parents in the order their edges were added) *)
Theorem C27_layout : forall dm n ps, proper_nodes dm (ps ++ [n]) -> let vs := map n_id ps ++ [n_id n] in
  (size dm vs <= List.length (n_probs n) ->
     exists p, get_potential n ps = Ok p /\ is_table dm vs (fun a => nth (row_index dm vs a) (n_probs n) 0%Qc) p) /\
  (List.length (n_probs n) < size dm vs -> get_potential n ps = Err IndexError).
Proof. exact c27. Qed.
Print Assumptions C27_layout.

Theorem C27_network : forall ops, well_shaped ops -> let N := net_of ops in
  exists h, pot_init (build ops) = Ok h /\ map fst h = vars N /\
    forall i, In i (vars N) -> exists n p, dget h i = Some n /\ n_pot n = Some p /\
      is_table (dom N) (par N i ++ [i]) (cpt_entry N i) p.
Proof. exact c27_net. Qed.
Print Assumptions C27_network.

Definition n_p : bnode := new_node 7 "p"%string ["a"; "b"]%string [].
Definition n_c3 : bnode := new_node 4 "c"%string ["x"; "y"; "z"]%string (map (fun k => Q2Qc (Qmake (Z.of_nat k) 10)) (seq 0 7)).
Example C27_case : proper_nodes dm23 ([n_p] ++ [n_c3]) /\ well_shaped diamond /\
  (match get_potential n_c3 [n_p] with Ok p => map (fun e => (pe_map e, this (pe_val e))) p | Err _ => [] end) =
  [([(7%Z, "a"); (4%Z, "x")], 0); ([(7%Z, "a"); (4%Z, "y")], 1 # 10); ([(7%Z, "a"); (4%Z, "z")], 1 # 5);
   ([(7%Z, "b"); (4%Z, "x")], 3 # 10); ([(7%Z, "b"); (4%Z, "y")], 2 # 5); ([(7%Z, "b"); (4%Z, "z")], 1 # 2)]%Q%string /\
  get_potential n_p [n_c3] = Err IndexError.
Proof.
  split; [|split; [exact diamond_ok|vm_compute; auto]]. split; [repeat constructor; simpl; intuition discriminate|].
  intros n [<-|[<-|[]]]; (split; [reflexivity|]); repeat constructor; simpl; intuition discriminate.
Qed.

(** C43 *)
Theorem C43_matches : forall self that,
  pe_matches self that = true <-> forall k v, In (k, v) (pe_map that) -> dget (pe_map self) k = Some v.
Proof. exact c43_matches. Qed.
Print Assumptions C43_matches.

Theorem C43_matching_entries : forall p e,
  selected (fun x => forall k v, In (k, v) (pe_map e) -> dget (pe_map x) k = Some v) p (get_matching_entries p e).
Proof. exact c43_entries. Qed.
Print Assumptions C43_matching_entries.

Example C43_case : map (fun e => map snd (pe_map e)) (get_matching_entries p23 (mkPE [(4%Z, "y"%string)] 1%Qc)) = [["a"; "y"]; ["b"; "y"]]%string /\
  get_matching_entries p23 (mkPE [(5%Z, "y"%string)] 1%Qc) = [] /\ get_matching_entries p23 (mkPE [] 1%Qc) = p23.
Proof. vm_compute. auto. Qed.

(** C45 *)
Theorem C45_prior : forall ops, well_shaped ops -> acyclic (is_parent (net_of ops)) -> stochastic (net_of ops) ->
  total (net_of ops) no_evidence = 1%Qc /\
  (connected ops -> forall o, ord_ok o -> exists b j t, apply o (build ops) = Ok (b, j) /\ get_posteriors j = Ok t /\
     Permutation (map fst t) (map (net_name ops) (vars (net_of ops))) /\
     forall i, In i (vars (net_of ops)) ->
       dget t (net_name ops i) = Some (map (fun x => (x, mass_of (net_of ops) no_evidence i x)) (dom (net_of ops) i))).
Proof. exact c45. Qed.
Print Assumptions C45_prior.

Example C45_case : well_shaped diamond /\ connected diamond /\ acyclic (is_parent (net_of diamond)) /\ stochastic (net_of diamond).
Proof.
  split; [exact diamond_ok|]. split; [exact diamond_connected|]. split.
  - apply rankedb_ok with diamond_rank. vm_compute. reflexivity.
  - apply stochasticb_ok. vm_compute. reflexivity.
Qed.
