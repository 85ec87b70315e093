(** Properties of exact inference: posteriors with and without evidence. Nothing but theorems and examples. *)
From Verif Require Import Py M_Graph M_Node M_Pptc Spec SpecNet SpecEv SpecPart L_Base L_Check Ex L_P1 L_R1 L_Part4.
Open Scope nat_scope.

(** C01 *)
Theorem C01_exact_marginals : forall ops o, well_shaped ops -> connected ops -> ord_ok o ->
  exists b j t, apply o (build ops) = Ok (b, j) /\ get_posteriors j = Ok t /\
    exact_table (net_of ops) (net_name ops) no_evidence t.
Proof. exact c01. Qed.
Print Assumptions C01_exact_marginals.

(** the hypotheses hold of a four-variable network with a loop, and the model run on it gives the exact numbers *)
Example C01_case : well_shaped diamond /\ connected diamond /\ ord_ok ord_rev /\
  (match apply ord_rev (build diamond) with Ok (_, j) => all_exactb diamond no_evidence j | Err _ => false end) = true.
Proof. split; [exact diamond_ok|]. split; [exact diamond_connected|]. split; [exact ord_rev_ok|]. vm_compute. reflexivity. Qed.

(** C02 *)
Theorem C02_exact_posteriors : forall ops o h, well_shaped ops -> connected ops -> ord_ok o ->
  valid_history (net_of ops) h -> Forall hard_call (calls h) ->
  exists j t, session o ops h = Ok j /\ get_posteriors j = Ok t /\
    exact_table (net_of ops) (net_name ops) (in_force (net_of ops) (calls h)) t.
Proof. exact c02. Qed.
Print Assumptions C02_exact_posteriors.

Example C02_case : valid_history (net_of diamond) hard_history /\ Forall hard_call (calls hard_history) /\
  (match session ord_rev diamond hard_history with
   | Ok j => all_exactb diamond (in_force (net_of diamond) (calls hard_history)) j && negb (all_exactb diamond no_evidence j)
   | Err _ => false end) = true.
Proof. split; [exact hard_history_ok|]. split; [exact hard_history_hard|]. vm_compute. reflexivity. Qed.

(** C03. The full claim would be: for every valid history, with any evidence,
    [exact_table (net_of ops) (net_name ops) (in_force (net_of ops) (calls h)) t]. It is false: *)
Theorem C03_virtual_evidence_refuted : exists ops o h j t, well_shaped ops /\ connected ops /\ ord_ok o /\
  valid_history (net_of ops) h /\ session o ops h = Ok j /\ get_posteriors j = Ok t /\
  ~ exact_table (net_of ops) (net_name ops) (in_force (net_of ops) (calls h)) t.
Proof. exact c03_refuted. Qed.
Print Assumptions C03_virtual_evidence_refuted.

(** It holds as long as no evidence is overlooked, that is: never do the old and the new likelihoods of a variable
    have a single 1, on the same value, while they differ elsewhere. *)
Theorem C03_virtual_evidence_partial : forall ops o h, well_shaped ops -> connected ops -> ord_ok o ->
  valid_history (net_of ops) h -> all_noticed (net_of ops) no_evidence (calls h) ->
  exists j t, session o ops h = Ok j /\ get_posteriors j = Ok t /\
    exact_table (net_of ops) (net_name ops) (in_force (net_of ops) (calls h)) t.
Proof. exact c03_noticed. Qed.
Print Assumptions C03_virtual_evidence_partial.

Example C03_case : valid_history (net_of diamond) virtual_history /\
  all_noticed (net_of diamond) no_evidence (calls virtual_history) /\
  (match session ord_rev diamond virtual_history with
   | Ok j => all_exactb diamond (in_force (net_of diamond) (calls virtual_history)) j && negb (all_exactb diamond no_evidence j)
   | Err _ => false end) = true.
Proof. split; [exact virtual_history_ok|]. split; [exact virtual_history_noticed|]. vm_compute. reflexivity. Qed.

(** What is reported after any valid history whatever: the exact posteriors for the likelihoods [shown]. *)
Theorem C03_any_evidence : forall ops o h, well_shaped ops -> connected ops -> ord_ok o -> valid_history (net_of ops) h ->
  exists j t, session o ops h = Ok j /\ get_posteriors j = Ok t /\
    exact_table (net_of ops) (net_name ops) (shown (net_of ops) (calls h)) t.
Proof. exact session_exact. Qed.
Print Assumptions C03_any_evidence.

Example C03_any_case : valid_history (net_of diamond) stale_history /\
  (match session ord_rev diamond stale_history with
   | Ok j => all_exactb diamond (shown (net_of diamond) (calls stale_history)) j &&
             negb (all_exactb diamond (in_force (net_of diamond) (calls stale_history)) j)
   | Err _ => false end) = true.
Proof. split; [exact stale_history_ok|]. vm_compute. reflexivity. Qed.

(** C04. The full claim would be C02 without [connected ops]. It is false already without evidence: *)
Theorem C04_disconnected_refuted : exists ops o b j t i, well_shaped ops /\ ord_ok o /\
  apply o (build ops) = Ok (b, j) /\ get_posteriors j = Ok t /\ In i (vars (net_of ops)) /\
  dget t (net_name ops i) <>
    Some (map (fun y => (y, exact_posterior (net_of ops) no_evidence i y)) (dom (net_of ops) i)).
Proof. exact c04_refuted. Qed.
Print Assumptions C04_disconnected_refuted.

(** It holds for the part of the network that contains the clique whose id is the smallest string. *)
Theorem C04_disconnected_partial : forall ops o h, well_shaped ops -> ord_ok o ->
  valid_history (net_of ops) h -> Forall hard_call (calls h) ->
  let N := net_of ops in let L := in_force N (calls h) in
  possible N L ->
  exists j t x, session o ops h = Ok j /\ get_posteriors j = Ok t /\ In x (jt_cliques j) /\
    (forall c, In c (jt_cliques j) -> str_leb (cl_id x) (cl_id c) = true) /\
    forall v i, In v (cl_nodes x) -> path (sym (is_parent N)) v i ->
      dget t (net_name ops i) = Some (map (fun y => (y, exact_posterior N L i y)) (dom N i)).
Proof. exact c04_part. Qed.
Print Assumptions C04_disconnected_partial.

Example C04_case : well_shaped two_chains /\ possible (net_of two_chains) (in_force (net_of two_chains) []) /\
  (match session ord_id two_chains [] with
   | Ok j => forallb (exactb two_chains no_evidence j) [1; 2; 3]%Z && negb (all_exactb two_chains no_evidence j)
   | Err _ => false end) = true.
Proof. split; [exact two_chains_ok|]. split; [apply possibleb_ok; vm_compute; reflexivity|]. vm_compute. reflexivity. Qed.

(** A part of the network whose variables are all in one clique gets exact posteriors wherever it is. *)
Theorem C04_small_parts_partial : forall ops o h, well_shaped ops -> ord_ok o -> valid_history (net_of ops) h ->
  let N := net_of ops in let L := shown N (calls h) in
  possible N L ->
  exists j t, session o ops h = Ok j /\ get_posteriors j = Ok t /\
    forall c i, In c (jt_cliques j) -> In i (vars N) -> (forall k, path (sym (is_parent N)) i k -> In k (cl_nodes c)) ->
      dget t (net_name ops i) = Some (map (fun y => (y, exact_posterior N L i y)) (dom N i)).
Proof. exact c04_alone. Qed.
Print Assumptions C04_small_parts_partial.

(** What is reported for any network and any valid history, with no proviso: see [described]. *)
Theorem C04_described : forall ops o h, well_shaped ops -> ord_ok o -> valid_history (net_of ops) h ->
  exists j t, session o ops h = Ok j /\ get_posteriors j = Ok t /\
    described (net_of ops) (net_name ops) (shown (net_of ops) (calls h)) (jt_cliques j) t.
Proof. exact c04_described. Qed.
Print Assumptions C04_described.

(** in the second chain, v6 gets what its own CPT alone says, summed over v5; v4 and v5 get what their two CPTs say *)
Example C04_described_case :
  (match session ord_rev two_chains [] with
   | Ok j => let N := net_of two_chains in
       eqlb (map cl_id (jt_cliques j)) ["1-2"; "2-3"; "4-5"; "5-6"]%string &&
       forallb (fun p => match get_posteriors j with
                | Ok t => match dget t (net_name two_chains (fst p)) with
                          | Some m => forallb (fun q => qeqb (snd q) (posterior_from N no_evidence (fst (snd p)) (snd (snd p)) (fst p) (fst q))) m
                          | None => false end
                | Err _ => false end)
               [(6, ([5; 6], [6])); (5, ([4; 5], [4; 5])); (4, ([4; 5], [4; 5])); (3, ([1; 2; 3], [1; 2; 3]))]%Z &&
       negb (qeqb (posterior_from N no_evidence [5; 6]%Z [6]%Z 6 "on"%string) (exact_posterior N no_evidence 6 "on"%string))
   | Err _ => false end) = true.
Proof. vm_compute. reflexivity. Qed.

(** C05 *)
Theorem C05_distributions : forall ops o h, well_shaped ops -> connected ops -> ord_ok o -> valid_history (net_of ops) h ->
  let N := net_of ops in let L := shown N (calls h) in
  exists j t, session o ops h = Ok j /\ get_posteriors j = Ok t /\
    Permutation (map fst t) (map (net_name ops) (vars N)) /\
    forall i, In i (vars N) -> exists m, dget t (net_name ops i) = Some m /\ map fst m = dom N i /\
      (forall q, In q (map snd m) -> (0 <= q)%Qc) /\
      (possible N L -> qsum (map snd m) = 1%Qc) /\
      (~ possible N L -> forall q, In q (map snd m) -> q = 0%Qc).
Proof. exact c05. Qed.
Print Assumptions C05_distributions.

(** On networks in any number of parts: never a negative number, and every variable's numbers add up to 1 or are all 0;
    they add up to 1 if the evidence is possible. *)
Theorem C05_any_network : forall ops o h, well_shaped ops -> ord_ok o -> valid_history (net_of ops) h ->
  let N := net_of ops in let L := shown N (calls h) in
  exists j t, session o ops h = Ok j /\ get_posteriors j = Ok t /\
    Permutation (map fst t) (map (net_name ops) (vars N)) /\
    forall i, In i (vars N) -> exists m, dget t (net_name ops i) = Some m /\ map fst m = dom N i /\
      (forall q, In q (map snd m) -> (0 <= q)%Qc) /\
      (qsum (map snd m) = 1%Qc \/ forall q, In q (map snd m) -> q = 0%Qc) /\
      (possible N L -> qsum (map snd m) = 1%Qc).
Proof. exact c05_any. Qed.
Print Assumptions C05_any_network.

(** for hard evidence the likelihoods shown are those in force *)
Theorem C05_hard_shown : forall ops h, well_shaped ops -> Forall (valid_call (net_of ops)) h -> Forall hard_call h ->
  agree (net_of ops) (shown (net_of ops) h) (in_force (net_of ops) h).
Proof. exact hard_shown. Qed.
Print Assumptions C05_hard_shown.

Example C05_case :
  possible (net_of diamond) (shown (net_of diamond) (calls hard_history)) /\
  valid_history (net_of diamond) impossible_history /\
  ~ possible (net_of diamond) (shown (net_of diamond) (calls impossible_history)).
Proof.
  split; [apply possibleb_ok; vm_compute; reflexivity|]. split; [exact impossible_history_ok|].
  apply impossibleb_ok. vm_compute. reflexivity.
Qed.

(** C06. Any two runs, the sets iterated in any orders. The network may be in several parts. *)
Theorem C06_order_independent : forall ops o1 o2 h1 h2, well_shaped ops -> ord_ok o1 -> ord_ok o2 ->
  valid_history (net_of ops) h1 -> valid_history (net_of ops) h2 -> calls h1 = calls h2 ->
  exists j1 j2 t1 t2, session o1 ops h1 = Ok j1 /\ session o2 ops h2 = Ok j2 /\
    get_posteriors j1 = Ok t1 /\ get_posteriors j2 = Ok t2 /\
    Permutation (map fst t1) (map fst t2) /\ forall k, dget t1 k = dget t2 k.
Proof. exact c06_any. Qed.
Print Assumptions C06_order_independent.

(** the two runs really differ inside: the cliques list their members differently *)
Example C06_case :
  (match apply ord_id (build diamond), apply ord_rev (build diamond) with
   | Ok (_, j1), Ok (_, j2) => all_exactb diamond no_evidence j1 && all_exactb diamond no_evidence j2 &&
       negb (forallb (fun p => if list_eq_dec Z.eq_dec (cl_nodes (fst p)) (cl_nodes (snd p)) then true else false)
                     (combine (jt_cliques j1) (jt_cliques j2)))
   | _, _ => false end) = true.
Proof. vm_compute. reflexivity. Qed.

(** C07. No connectedness assumed. *)
Theorem C07_never_fails : forall ops o h, well_shaped ops -> ord_ok o -> valid_history (net_of ops) h ->
  let N := net_of ops in
  exists j t, session o ops h = Ok j /\ get_posteriors j = Ok t /\
    Permutation (map fst t) (map (net_name ops) (vars N)) /\
    (forall i, In i (vars N) -> exists m, dget t (net_name ops i) = Some m /\ map fst m = dom N i) /\
    (forall i, In i (vars N) -> exists n c, dget (jt_heap j) i = Some n /\ n_mclq n = Some (cl_id c) /\
       In c (jt_cliques j) /\ incl (par N i ++ [i]) (cl_nodes c)).
Proof. exact c07. Qed.
Print Assumptions C07_never_fails.

Example C07_case : well_shaped two_chains /\ valid_history (net_of two_chains) [(ord_id, UnobserveAll)].
Proof. split; [exact two_chains_ok|]. split; [orders|]. apply valid_calls_ok. vm_compute. reflexivity. Qed.

(** C13. Any valid history, not only hard evidence, and any network, also one in several parts. *)
Theorem C13_unobserve_all : forall ops o h o', well_shaped ops -> ord_ok o ->
  valid_history (net_of ops) h -> ord_ok o' ->
  exists b j j' t, apply o (build ops) = Ok (b, j) /\ do_calls j (h ++ [(o', UnobserveAll)]) = (j', None) /\
    get_posteriors j = Ok t /\ get_posteriors j' = Ok t.
Proof. exact c13_any. Qed.
Print Assumptions C13_unobserve_all.

Example C13_case : valid_history (net_of diamond) stale_history /\
  (match session ord_id diamond (stale_history ++ [(ord_rev, UnobserveAll)]) with
   | Ok j => all_exactb diamond no_evidence j
   | Err _ => false end) = true.
Proof. split; [exact stale_history_ok|]. vm_compute. reflexivity. Qed.

(** C46. The network may be in several parts. *)
Theorem C46_observed_node : forall ops o h o' n v, well_shaped ops -> ord_ok o ->
  valid_history (net_of ops) h -> Forall hard_call (calls h) -> ord_ok o' ->
  node_in (net_of ops) n -> In v (n_values n) ->
  let obs := Update [build_evidence n OBSERVATION [(v, 1%Qc)]] in
  possible (net_of ops) (in_force (net_of ops) (calls h ++ [obs])) ->
  exists j t, session o ops (h ++ [(o', obs)]) = Ok j /\ get_posteriors j = Ok t /\
    dget t (net_name ops (n_id n)) = Some (map (fun w => (w, if String.eqb w v then 1%Qc else 0%Qc)) (n_values n)).
Proof. exact c46_any. Qed.
Print Assumptions C46_observed_node.

Example C46_case : node_in (net_of diamond) n_b /\ In "z"%string (n_values n_b) /\
  possible (net_of diamond) (in_force (net_of diamond) (calls hard_history ++ [Update [build_evidence n_b OBSERVATION [("z"%string, 1%Qc)]]])).
Proof.
  split; [split; [apply mem_In; vm_compute; reflexivity|vm_compute; reflexivity]|]. split; [apply mem_In; vm_compute; reflexivity|].
  apply possibleb_ok. vm_compute. reflexivity.
Qed.
