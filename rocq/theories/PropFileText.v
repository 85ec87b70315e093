(** The text of the files of generated networks. Nothing but theorems and examples. *)
From Coq Require Import Ascii.
From Verif Require Import Py M_Graph M_Node M_Pptc M_Nx M_Gen M_Serde M_Csv M_GenFile M_Json M_FileText Spec SpecNet SpecEv SpecNx SpecSer SpecCsv SpecJson L_Base L_R1 L_R5 L_JsonEx L_FileText.
Open Scope nat_scope.

(** C63, down to the characters of JSON files as well: the text of the file that generate_bbn_to_file writes is read back as
    the network that was generated, and inference on it is exact. *)
Theorem C63_text : forall show read dir n path bbn_type max_iter max_values ints units draws, number_format show read -> float_format show read -> n <> 0 -> max_values <> 0 -> Forall (below_n n) ints ->
  (forall i k m, 2 <= m -> prob_vector m (dir i k m)) ->
  match generate_bbn_text show dir n path bbn_type max_iter max_values ints units draws with
  | Ok s => exists g p ops ops', generate bbn_type dir n max_iter max_values ints units draws = Ok (g, p) /\ convert_calls g p = Ok ops /\ valid_net n (dg_edges g) ops /\
      bbn_from_path read path s = Ok (build ops') /\ same_network ops ops' /\
      forall o h, ord_ok o -> valid_history (net_of ops) h ->
        exists b2 j j' t, apply o (build ops') = Ok (b2, j) /\ do_calls j h = (j', None) /\ get_posteriors j' = Ok t /\
          exact_table (net_of ops) (net_name ops) (shown (net_of ops) (calls h)) t
  | Err x => x = OutOfFuel
  end.
Proof. exact c63_text. Qed.
Print Assumptions C63_text.

Example C63_text_case : number_format show_dot read_dot /\ float_format show_dot read_dot /\ (forall i k m, 2 <= m -> prob_vector m (even_dir i k m)) /\ Forall (below_n 2) [1; 0]%Z /\
  (match generate_bbn_text show_dot even_dir 2 "net.json" "singly" 1 3 [1; 0]%Z [qfrac 1 4] [0; 2] with
   | Ok s => Nat.ltb 300 (String.length s) && prefix ("{" ++ String newline "  ""nodes"": {") s
   | Err _ => false end) = true.
Proof. split; [exact dot_number|]. split; [exact dot_format|]. split; [exact even_ok|]. split; [repeat constructor; unfold below_n; simpl; lia|]. vm_compute. reflexivity. Qed.
