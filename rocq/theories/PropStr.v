(** Properties of the texts objects print as. *)
From Coq Require Import Ascii.
From Verif Require Import Py M_Graph M_Node M_Pptc M_Str Spec SpecNet SpecEv SpecStr L_Base L_Check Ex L_R6 L_Str L_Str2 L_StrEx.
Local Open Scope string_scope.
Local Open Scope list_scope.

(** C78: a number prints as a number within half a unit of its fifth digit; *)
Theorem C78_number : forall v, exists q, number (fmt5 v) = Some q /\ close q v.
Proof. exact c78_number. Qed.
Print Assumptions C78_number.

(** a row prints as its variables by increasing id, each with its value, and its number; *)
Theorem C78_entry : forall e, printable e -> exists r, read_entry (entry_str e) = Some r /\ reads r e.
Proof. exact c78_entry. Qed.
Print Assumptions C78_entry.

(** a table prints as its rows in order; *)
Theorem C78_table : forall p, p <> [] -> Forall printable p -> exists rows, read_table (potential_str p) = Some rows /\ Forall2 reads rows p.
Proof. exact c78_table. Qed.
Print Assumptions C78_table.

(** so what is printed for a variable of a join tree is its posterior to five digits. *)
Theorem C78_printed : forall ops o h i, well_shaped ops -> connected ops -> ord_ok o -> valid_history (net_of ops) h -> Forall hard_call (calls h) ->
  let N := net_of ops in let L := in_force N (calls h) in In i (vars N) -> Forall plain_value (dom N i) ->
  exists j p rows, session o ops h = Ok j /\ get_bbn_potential j i = Ok p /\ read_table (potential_str p) = Some rows /\
    map fst rows = map (fun y => [(i, y)]) (dom N i) /\ Forall2 (fun r y => close (snd r) (exact_posterior N L i y)) rows (dom N i).
Proof. exact c78_printed. Qed.
Print Assumptions C78_printed.

(** Commas in values make different rows print alike. *)
Theorem C78_commas_refuted : exists e e', NoDup (map fst (pe_map e)) /\ NoDup (map fst (pe_map e')) /\ ~ Permutation (pe_map e) (pe_map e') /\
  entry_str e = entry_str e'.
Proof. exact c78_refuted. Qed.
Print Assumptions C78_commas_refuted.

Example C78_case : In 2%Z (vars (net_of diamond)) /\ Forall plain_value (dom (net_of diamond) 2) /\
  (match session ord_rev diamond hard_history with
   | Ok j => match get_bbn_potential j 2 with
             | Ok p => String.eqb (potential_str p) (join newline ["2=x|0.17524"; "2=y|0.00000"; "2=z|0.82476"])
             | Err _ => false end
   | Err _ => false end) = true /\
  reads_as (join newline ["2=x|0.17524"; "2=y|0.00000"; "2=z|0.82476"])
    [([(2%Z, "x")], qfrac 17524 100000); ([(2%Z, "y")], 0%Qc); ([(2%Z, "z")], qfrac 82476 100000)] = true /\
  entry_str (mkPE [(10%Z, "on"); (2%Z, "a=b")] (qfrac (-1) 3)) = "2=a=b,10=on|-0.33333" /\
  reads_as "2=a=b,10=on|-0.33333" [([(2%Z, "a=b"); (10%Z, "on")], qfrac (-33333) 100000)] = true.
Proof. split; [vm_compute; tauto|]. split; [apply plain_valuesb_ok; vm_compute; reflexivity|]. vm_compute. auto. Qed.

(** C79: the texts of two cliques, and their names by members, are the same exactly when the cliques have the same members; *)
Theorem C79_text : forall h c d, named_apart h "," c d -> (clique_str h c = clique_str h d <-> Permutation (cl_nodes c) (cl_nodes d)).
Proof. exact c79_text. Qed.
Print Assumptions C79_text.
Theorem C79_sid : forall h c d, named_apart h "-" c d -> (get_sid h c = get_sid h d <-> Permutation (cl_nodes c) (cl_nodes d)).
Proof. exact c79_sid. Qed.
Print Assumptions C79_sid.

(** so in a join tree they tell the cliques apart, *)
Theorem C79_tree : forall ops o h, well_shaped ops -> ord_ok o -> valid_history (net_of ops) h -> exists j, session o ops h = Ok j /\
  ((forall i, In i (vars (net_of ops)) -> lacks "," (net_name ops i)) ->
     forall c d, In c (jt_cliques j) -> In d (jt_cliques j) -> clique_str (jt_heap j) c = clique_str (jt_heap j) d -> c = d) /\
  ((forall i, In i (vars (net_of ops)) -> lacks "-" (net_name ops i)) ->
     forall c d, In c (jt_cliques j) -> In d (jt_cliques j) -> get_sid (jt_heap j) c = get_sid (jt_heap j) d -> c = d).
Proof. exact c79_tree. Qed.
Print Assumptions C79_tree.

(** though not when names contain commas. *)
Theorem C79_commas_refuted : exists ops o j c d, well_shaped ops /\ ord_ok o /\ session o ops [] = Ok j /\ In c (jt_cliques j) /\ In d (jt_cliques j) /\ c <> d /\
  clique_str (jt_heap j) c = clique_str (jt_heap j) d.
Proof. exact c79_refuted. Qed.
Print Assumptions C79_commas_refuted.

Example C79_case : (forall i, In i (vars (net_of diamond)) -> lacks "," (net_name diamond i)) /\ (forall i, In i (vars (net_of diamond)) -> lacks "-" (net_name diamond i)) /\
  (match session ord_rev diamond hard_history with
   | Ok j => map (clique_str (jt_heap j)) (jt_cliques j) = ["(a,b,c)"; "(b,c,d)"] /\ map (get_sid (jt_heap j)) (jt_cliques j) = ["a-b-c"; "b-c-d"]
   | Err _ => False end).
Proof. split; [apply all_lackb_ok; vm_compute; reflexivity|]. split; [apply all_lackb_ok; vm_compute; reflexivity|]. vm_compute. auto. Qed.
