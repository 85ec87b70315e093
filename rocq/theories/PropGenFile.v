(** What becomes of generated networks. Nothing but theorems and examples. *)
From Coq Require Import Ascii.
From Verif Require Import Py M_Graph M_Node M_Pptc M_Nx M_Gen M_Serde M_Csv M_GenFile Spec SpecNet SpecEv SpecNx SpecSer SpecCsv L_Base L_R1 L_R5 L_R13 L_GenFile L_GenFile2.
Open Scope nat_scope.

(** C63. Whatever generate_bbn_to_file writes, CSV or JSON, is read back as the network that was generated, a valid one, and
    inference on it is exact. [show] and [read] stand for printing and reading floats. *)
Theorem C63_files : forall show read dir n path bbn_type max_iter max_values ints units draws, number_format show read -> n <> 0 -> max_values <> 0 -> Forall (below_n n) ints ->
  (forall i k m, 2 <= m -> prob_vector m (dir i k m)) ->
  match generate_bbn_to_file show dir n path bbn_type max_iter max_values ints units draws with
  | Ok f => exists g p ops ops', generate bbn_type dir n max_iter max_values ints units draws = Ok (g, p) /\ convert_calls g p = Ok ops /\ valid_net n (dg_edges g) ops /\
      bbn_from_file read f = Ok (build ops') /\ same_network ops ops' /\
      forall o h, ord_ok o -> valid_history (net_of ops) h ->
        exists b2 j j' t, apply o (build ops') = Ok (b2, j) /\ do_calls j h = (j', None) /\ get_posteriors j' = Ok t /\
          exact_table (net_of ops) (net_name ops) (shown (net_of ops) (calls h)) t
  | Err x => x = OutOfFuel
  end.
Proof. exact c63. Qed.
Print Assumptions C63_files.

(** It is a CSV file if the path ends with "csv", and a JSON file if not. *)
Theorem C63_kind : forall show dir n path bbn_type max_iter max_values ints units draws f, generate_bbn_to_file show dir n path bbn_type max_iter max_values ints units draws = Ok f ->
  ((exists text, f = CsvFile text) <-> exists stem, path = (stem ++ "csv")%string) /\ ((exists d, f = JsonFile d) <-> ~ exists stem, path = (stem ++ "csv")%string).
Proof. exact c63_kind. Qed.
Print Assumptions C63_kind.

(** The type "singly" gives a tree. *)
Theorem C63_tree : forall dir n max_iter max_values ints units draws g p, n <> 0 -> Forall (below_n n) ints -> generate "singly" dir n max_iter max_values ints units draws = Ok (g, p) ->
  S (List.length (dg_edges g)) = n /\ connected_on (dg_nodes g) (dg_edges g) /\ forall c, ~ cycle (dg_edges g) c.
Proof. exact c63_tree. Qed.
Print Assumptions C63_tree.

Example C63_case : number_format show_frac read_frac /\ (forall i k m, 2 <= m -> prob_vector m (even_dir i k m)) /\ Forall (below_n 2) [0; 1]%Z /\
  generate_bbn_to_file show_frac even_dir 2 "net.csv" "multi" 1 3 [1; 0]%Z [] [0; 2] =
    Ok (CsvFile ("0,0,state0,state1,|,1/2,1/2" ++ newline ++ "1,1,state0,state1,state2,|,1/3,1/3,1/3,1/3,1/3,1/3" ++ newline ++ "0,1,directed" ++ newline)%string) /\
  (match generate_bbn_to_file show_frac even_dir 2 "net.json" "singly" 1 3 [1; 0]%Z [qfrac 1 4] [0; 2] with
   | Ok (JsonFile d) => map fst (bd_nodes d) = [KStr "0"; KStr "1"] /\ bd_edges d = [(0, 1)]%Z
   | _ => False end).
Proof. split; [exact frac_format|]. split; [exact even_ok|]. split; [repeat constructor; unfold below_n; simpl; lia|]. split; vm_compute; auto. Qed.

(** C64. The claim that to_json serialises what was generated is false of every generated network: the shapes are numpy integers,
    and json.dumps raises. *)
Theorem C64_to_json_refuted : forall bbn_type dir n max_iter max_values ints units draws g p pretty, n <> 0 -> max_values <> 0 -> Forall (below_n n) ints ->
  (forall i k m, 2 <= m -> prob_vector m (dir i k m)) -> generate bbn_type dir n max_iter max_values ints units draws = Ok (g, p) -> gen_to_json g p pretty = Err TypeError.
Proof. exact c64. Qed.
Print Assumptions C64_to_json_refuted.

Example C64_case : (match generate "multi" even_dir 4 2 3 [0; 2; 1; 3]%Z [] [2; 1; 0; 2] with
  | Ok (g, p) => List.length p = 4 /\ gen_to_json g p true = Err TypeError /\ gen_to_json g [] true <> Err TypeError
  | Err _ => False end).
Proof. vm_compute. split; [reflexivity|]. split; [reflexivity|discriminate]. Qed.

(** C65. convert_for_drawing gives back the structure a network was generated from. *)
Theorem C65_drawing : forall bbn_type dir n max_iter max_values ints units draws, n <> 0 -> max_values <> 0 -> Forall (below_n n) ints ->
  (forall i k m, 2 <= m -> prob_vector m (dir i k m)) ->
  match generate bbn_type dir n max_iter max_values ints units draws with
  | Ok (g, p) => exists b, convert_for_exact_inference g p = Ok b /\ dg_nodes (convert_for_drawing b) = dg_nodes g /\
      NoDup (dg_edges (convert_for_drawing b)) /\ forall e, In e (dg_edges (convert_for_drawing b)) <-> In e (dg_edges g)
  | Err x => x = OutOfFuel
  end.
Proof. exact c65. Qed.
Print Assumptions C65_drawing.

(** __edge_exists__ asks for that edge, and raises for an unknown first node. *)
Theorem C65_edge_exists : forall g i j, edge_exists i j g = if mem i (dg_nodes g) then Ok (dg_has_edge g i j) else Err NetworkXError.
Proof. exact edge_exists_ok. Qed.
Print Assumptions C65_edge_exists.

Example C65_case : (match generate "singly" even_dir 4 4 2 [3; 1; 0; 3; 1; 2; 3; 2; 2]%Z [qfrac 1 4; qfrac 1 4; qfrac 3 4] [0; 0; 0; 0] with
  | Ok (g, p) => match convert_for_exact_inference g p with
                 | Ok b => dg_edges g = [(0, 1); (3, 0); (3, 2)]%Z /\ convert_for_drawing b = mkDg [0; 1; 2; 3]%Z [(0, 1); (3, 0); (3, 2)]%Z
                 | Err _ => False end
  | Err _ => False end).
Proof. vm_compute. auto. Qed.
