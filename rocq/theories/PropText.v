(** Properties of the example networks, of DNE files and of the keys of potentials. *)
From Coq Require Import Ascii.
From Verif Require Import Py M_Graph M_Node M_Pptc M_Serde M_Text M_Samples Spec SpecNet SpecEv SpecPot SpecDne SpecText SpecSamples Ex L_Base L_R1 L_R13 L_Dne L_Text L_Samples L_P15.
Open Scope nat_scope.

(** C56. Both examples are connected networks without cycles whose tables are probabilities. *)
Theorem C56_shape : well_shaped huang_graph /\ connected huang_graph /\ acyclic (is_parent (net_of huang_graph)) /\ stochastic (net_of huang_graph) /\
  well_shaped simple_graph /\ connected simple_graph /\ acyclic (is_parent (net_of simple_graph)) /\ stochastic (net_of simple_graph).
Proof. exact c56_shape. Qed.
Print Assumptions C56_shape.

(** The posteriors, exactly, for every order of iterating sets: without evidence, with a = on, with a = f = on. *)
Theorem C56_answers : forall o o1 o2, ord_ok o -> ord_ok o1 -> ord_ok o2 ->
  (exists j, session o huang_graph [] = Ok j /\ says j huang_prior) /\
  (exists j, session o huang_graph [(o1, UnobserveAll); (o2, SetObservation (observe huang_a))] = Ok j /\ says j huang_given_a) /\
  (exists j, session o huang_graph [(o1, UnobserveAll); (o2, Update [observe huang_a; observe huang_f])] = Ok j /\ says j huang_given_a_f) /\
  (exists j, session o simple_graph [] = Ok j /\ says j simple_prior).
Proof. exact c56_answers. Qed.
Print Assumptions C56_answers.

(** The join tree of the larger example. *)
Theorem C56_tree : forall o, ord_ok o -> exists b j, apply o (build huang_graph) = Ok (b, j) /\
  map fst (jt_nodes j) = huang_tree_nodes /\ map fst (jt_edges j) = huang_tree_edges.
Proof. exact c56_tree. Qed.
Print Assumptions C56_tree.

Example C56_case : ord_ok ord_id /\ ord_ok ord_rev /\ this (snd (nth 1 (snd (nth 1 huang_given_a_f (""%string, []))) (""%string, 0%Qc))) = (15445 # 18934)%Q.
Proof. split; [exact ord_id_ok|]. split; [exact ord_rev_ok|]. vm_compute. reflexivity. Qed.

(** C57. A reader of DNE files finds in the text every node with its name, values, parents in order and numbers in order, before
    and after apply. *)
Theorem C57_dne : forall ops show net_nm, wordy net_nm -> (forall q, wordy (show q)) ->
  (forall i, In i (net_vars ops) -> wordy (net_name ops i) /\ Forall wordy (net_dom ops i)) ->
  let N := net_of ops in
  let told b := exists t, to_dne show b net_nm = Ok t /\
    read_dne t = Some (mkDne net_nm [("AutoCompile", Word "TRUE"); ("autoupdate", Word "TRUE")]%string
      (map (fun i => seen_node (net_name ops i) (dom N i) (map (net_name ops) (par N i)) (map show (cpt N i))) (vars N))) in
  told (build ops) /\ forall o b j, well_shaped ops -> ord_ok o -> apply o (build ops) = Ok (b, j) -> told b.
Proof. exact c57. Qed.
Print Assumptions C57_dne.

Example C57_case : wordy "diamond" /\ (forall q, wordy (show_frac q)) /\ (forall i, In i (net_vars diamond) -> wordy (net_name diamond i) /\ Forall wordy (net_dom diamond i)) /\
  (match to_dne show_frac (build diamond) "diamond" with
   | Ok t => match read_dne t with
             | Some n => match nth_error (dne_nodes n) 3 with
                         | Some (mkDN "d" [_; (_, Words ["t"; "f"]); _; _; (_, Words ["b"; "c"]); (_, Words ("1/2" :: "1/2" :: "1/3" :: "2/3" :: l))])%string => Nat.eqb (List.length l) 8
                         | _ => false
                         end
             | None => false
             end
   | Err _ => false
   end) = true.
Proof. split; [apply wordyb_ok; reflexivity|]. split; [exact frac_wordy|]. split; [exact diamond_wordy|]. vm_compute. reflexivity. Qed.

(** Values with commas are not protected: two networks with different values have one text. *)
Theorem C57_any_text_refuted : exists ops ops' show net_nm t, (forall q, wordy (show q)) /\ wordy net_nm /\
  to_dne show (build ops) net_nm = Ok t /\ to_dne show (build ops') net_nm = Ok t /\ net_dom ops 1 <> net_dom ops' 1.
Proof. exact c57_refuted. Qed.
Print Assumptions C57_any_text_refuted.

(** C58. Keys of entries without bars are equal exactly for the same assignment. *)
Theorem C58_keys : forall e e', plain_entry e -> plain_entry e' -> (fst (get_kv e) = fst (get_kv e') <-> same_assignment e e').
Proof. exact c58_keys. Qed.
Print Assumptions C58_keys.

(** The dictionary of a table has one key for every row, and looking up an assignment gives the value there. *)
Theorem C58_table : forall dm vs f p, proper_scope dm vs ->
  (forall v x, In v vs -> In x (dm v) -> ~ In "|"%char (list_ascii_of_string x)) -> is_table dm vs f p ->
  potentials_to_dict [p] = map get_kv p /\
  forall a, okon dm vs a -> dget (potentials_to_dict [p]) (fst (get_kv (mkPE (map (fun v => (v, a v)) vs) 1%Qc))) = Some (f a).
Proof. exact c58_table. Qed.
Print Assumptions C58_table.

(** Several potentials: nothing is lost when no two entries are about the same assignment. *)
Theorem C58_potentials : forall ps, Forall plain_entry (List.concat ps) ->
  (forall i k e e', nth_error (List.concat ps) i = Some e -> nth_error (List.concat ps) k = Some e' -> same_assignment e e' -> i = k) ->
  potentials_to_dict ps = map get_kv (List.concat ps).
Proof. exact c58_dict. Qed.
Print Assumptions C58_potentials.

Example C58_case :
  let e := mkPE [(10%Z, "on"%string); (2%Z, "x"%string)] (qfrac 1 2) in let e' := mkPE [(2%Z, "x"%string); (10%Z, "on"%string)] 1%Qc in
  plain_entry e /\ plain_entry e' /\ same_assignment e e' /\ fst (get_kv e) = "2=x|10=on"%string /\ fst (get_kv e') = "2=x|10=on"%string.
Proof.
  assert (B : forall v, forallb (fun c => negb (Ascii.eqb c "|"%char)) (list_ascii_of_string v) = true -> ~ In "|"%char (list_ascii_of_string v)).
  { intros v H I. rewrite forallb_forall in H. apply H in I. discriminate. }
  cbv zeta. split; [|split; [|split; [|split; reflexivity]]].
  - split; [apply L_Check.nodupb_ok; reflexivity|]. intros k v [E|[E|[]]]; injection E as _ <-; apply B; reflexivity.
  - split; [apply L_Check.nodupb_ok; reflexivity|]. intros k v [E|[E|[]]]; injection E as _ <-; apply B; reflexivity.
  - apply perm_swap.
Qed.

(** A bar in a value: rows of one table share a key and are lost. *)
Theorem C58_bars_refuted : exists dm vs f p, proper_scope dm vs /\ is_table dm vs f p /\ List.length (potentials_to_dict [p]) < List.length p.
Proof. exact c58_refuted. Qed.
Print Assumptions C58_bars_refuted.
