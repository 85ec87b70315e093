(** CSV files with their lines in any order. Nothing but theorems and examples. *)
From Verif Require Import Py M_Graph M_Node M_Pptc M_Csv Spec SpecNet SpecEv SpecRe SpecCsv SpecShuf SpecLines L_Base L_Check Ex L_R1 L_R7 L_R13 L_Lines.
Open Scope nat_scope.
Open Scope string_scope.

(** What to_csv writes is a file with the lines [file_items]. *)
Theorem C115_text : forall show b, to_csv show b = items_text show (file_items b).
Proof. exact file_text. Qed.
Print Assumptions C115_text.

(** C115. With the lines of the file in any order, from_csv gives a network with the same variables, values, CPTs and names; the
    parents of a node are in the order of the lines of the edges into it. *)
Theorem C115_described : forall show read ops l, number_format show read -> clean_texts ops -> Permutation (file_items (build ops)) l ->
  exists ops', from_csv read (items_text show l) = Ok (build ops') /\ same_with_parents ops (fun j => arrows j l) ops'.
Proof. exact c115_described. Qed.
Print Assumptions C115_described.

(** "The order of the lines does not matter" holds where the edges into each node stay in the order they were in. *)
Theorem C115_lines_partial : forall show read ops l, number_format show read -> clean_texts ops -> Permutation (file_items (build ops)) l ->
  (forall j, arrows j l = arrows j (file_items (build ops))) ->
  exists ops', from_csv read (items_text show l) = Ok (build ops') /\ same_but_order ops ops'.
Proof. exact c115. Qed.
Print Assumptions C115_lines_partial.

(** Inference on the network read is then exact for the network that was saved. *)
Theorem C115_posteriors_partial : forall show read ops l, number_format show read -> clean_texts ops -> well_shaped ops -> connected ops ->
  Permutation (file_items (build ops)) l -> (forall j, arrows j l = arrows j (file_items (build ops))) ->
  exists b', from_csv read (items_text show l) = Ok b' /\ forall o h, ord_ok o -> valid_history (net_of ops) h ->
    exists b2 j j' t, apply o b' = Ok (b2, j) /\ do_calls j h = (j', None) /\ get_posteriors j' = Ok t /\
      exact_table (net_of ops) (net_name ops) (shown (net_of ops) (calls h)) t.
Proof. exact c115_posteriors. Qed.
Print Assumptions C115_posteriors_partial.

(** Otherwise the file is read without an error and the posteriors are those of another network. *)
Theorem C115_lines_refuted : exists show read ops l b b2 j t, number_format show read /\ clean_texts ops /\ well_shaped ops /\ connected ops /\
  Permutation (file_items (build ops)) l /\ from_csv read (items_text show l) = Ok b /\ apply ord_id b = Ok (b2, j) /\ get_posteriors j = Ok t /\
  ~ exact_table (net_of ops) (net_name ops) no_evidence t.
Proof. exact c115_refuted. Qed.
Print Assumptions C115_lines_refuted.

(** The diamond network with the edges first and the nodes backwards. *)
Example C115_case : number_format show_frac read_frac /\ clean_texts diamond /\ well_shaped diamond /\ connected diamond /\
  Permutation (file_items (build diamond)) (swapped (build diamond)) /\ (forall j, arrows j (swapped (build diamond)) = arrows j (file_items (build diamond))).
Proof. split; [exact frac_format|]. split; [exact diamond_clean|]. split; [exact diamond_ok|]. split; [exact diamond_connected|]. split; [apply swapped_perm | intros; apply swapped_arrows]. Qed.
Example C115_case_lines : map (fun x => match x with ANode n => [n_id n] | AnEdge e => [n_id (e_i e); n_id (e_j e)] end) (swapped (build diamond)) =
  [[10; 2]; [10; 1]; [2; 30]; [1; 30]; [30]; [1]; [2]; [10]]%Z /\
  arrows 30 (swapped (build diamond)) = [2; 1]%Z /\ arrows 30 (rev (file_items (build diamond))) = [1; 2]%Z /\
  items_text show_frac (swapped (build diamond)) <> to_csv show_frac (build diamond).
Proof. repeat split; try (vm_compute; reflexivity). intros E. apply String.eqb_eq in E. revert E. vm_compute. discriminate. Qed.
