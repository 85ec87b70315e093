(** Properties of several join trees made from one network object. Nothing but theorems and examples. *)
From Verif Require Import Py M_Graph M_Node M_Pptc Spec SpecNet SpecEv SpecRe SpecAgain SpecMute SpecPart SpecMany L_Base L_Check Ex L_R1 L_R7 L_R14 L_Many3 L_Alias L_Alias2 L_Late L_LateEx.
Open Scope nat_scope.

(** C59. Any number of trees, made by apply and reapply at any time, evidence calls on any of them and CPTs assigned to the
    nodes in between: nothing is raised, and what each tree answers is given by [ensue]. *)
Theorem C59_all : forall ops ms, well_shaped ops -> moves_ok (opening ops) ms ->
  exists w, moves ops ms = Ok w /\
    Forall2 (fun q p => fst q = fst p /\ exists t, get_posteriors (seen w p) = Ok t /\
        described (fst (snd q)) (net_name ops) (snd (snd (snd q))) (jt_cliques (snd p)) t /\
        (connected ops -> exact_table (fst (snd q)) (net_name ops) (snd (snd (snd q))) t))
      (sc_trees (fold_left ensue ms (opening ops))) (w_trees w).
Proof. exact c59_all. Qed.
Print Assumptions C59_all.

(** As long as no CPT is assigned, each tree apply has made answers for the network and for the evidence calls made on that
    very tree, whatever is done with the others. *)
Theorem C59_independent_partial : forall ops ms, well_shaped ops -> connected ops -> moves_ok (opening ops) ms -> untouched ms ->
  exists w, moves ops ms = Ok w /\
    forall k j, nth_error (w_trees w) k = Some (true, j) ->
      exists t, get_posteriors (seen w (true, j)) = Ok t /\ exact_table (net_of ops) (net_name ops) (shown (net_of ops) (told_to k ms)) t.
Proof. exact c59_alone. Qed.
Print Assumptions C59_independent_partial.

(** With CPTs assigned and another tree made, the first tree no longer answers for the network it was made from. *)
Theorem C59_independent_refuted : exists ops o ms w i y q, well_shaped ops /\ connected ops /\ moves_ok (opening ops) (Another o :: ms) /\ moves ops (Another o :: ms) = Ok w /\
  In i (net_vars ops) /\ In y (net_dom ops i) /\ report w 0 (net_name ops i) y = Some q /\
  q <> exact_posterior (net_of ops) (shown (net_of ops) (told_to 0 ms)) i y.
Proof. exact c59_refuted. Qed.
Print Assumptions C59_independent_refuted.

(** the hypotheses hold, and four trees of the diamond answer as said *)
Example C59_case : moves_okb (opening diamond) diamond_moves = true /\ List.length diamond_moves = 9 /\ all_isb diamond diamond_moves = true.
Proof. repeat split; vm_compute; reflexivity. Qed.
(** two trees; v2 = on is told to the first: 5/9 before and 5/6 after the second is made with other CPTs; assigning them
    alone changes nothing *)
Example C59_refuted_case : moves_okb (opening duo) duo_moves = true /\
  report_is duo [Another ord_id; Tell 0 ord_id v2_on] 0 "v1" "on" (qfrac 5 9) = true /\
  report_is duo [Another ord_id; Probs duo_cpts; Tell 0 ord_id v2_on] 0 "v1" "on" (qfrac 5 9) = true /\
  report_is duo duo_moves 0 "v1" "on" (qfrac 5 6) = true.
Proof. repeat split; vm_compute; reflexivity. Qed.

(** C60. Nodes and edges added to the network after a tree was made: reapply on that tree stays exact as long as no node
    that had parents gets another one. *)
Theorem C60_additions_partial : forall ops o h o' cpts new, well_shaped ops -> connected ops -> ord_ok o -> ord_ok o' -> valid_history (net_of ops) h -> fitting (net_of ops) cpts ->
  (forall i, In i (net_vars ops) -> net_par ops i <> [] -> net_par (ops ++ new) i = net_par ops i) ->
  exists b j j1 j2 t, apply o (build ops) = Ok (b, j) /\ do_calls j h = (j1, None) /\
    reapply o' (aliased (fold_left bstep new (shared b j1)) j1) cpts = Ok j2 /\ get_posteriors j2 = Ok t /\ exact_table (replaced (net_of ops) cpts) (net_name ops) no_evidence t.
Proof. exact (fun ops o h o' cpts new HW => c60_kept ops HW o h o' cpts new). Qed.
Print Assumptions C60_additions_partial.

(** If a node that had parents gets one the tree does not know, reapply raises KeyError. *)
Theorem C60_raises : forall ops o h o' cpts new i p, well_shaped ops -> ord_ok o -> ord_ok o' -> valid_history (net_of ops) h ->
  In i (net_vars ops) -> net_par ops i <> [] -> In p (net_par (ops ++ new) i) -> ~ In p (net_vars ops) ->
  exists b j j1, apply o (build ops) = Ok (b, j) /\ do_calls j h = (j1, None) /\
    reapply o' (aliased (fold_left bstep new (shared b j1)) j1) cpts = Err KeyError.
Proof. exact (fun ops o h o' cpts new i p HW => c60_raises ops HW o h o' cpts new i p). Qed.
Print Assumptions C60_raises.

(** If the parents it goes by are all known to the tree, and the CPTs are long enough for them, reapply returns a tree that
    answers - also after further evidence calls - for the network with these parents in which the CPTs of the variables
    whose stored clique lacks one of them are ignored. *)
Theorem C60_whole : forall ops o h o' cpts new h', well_shaped ops -> connected ops -> ord_ok o -> ord_ok o' -> valid_history (net_of ops) h -> valid_history (net_of ops) h' ->
  known_par ops new -> fitting (seen_net ops new) cpts ->
  (forall i, In i (net_vars ops) -> size (net_dom ops) (seen_par ops new i ++ [i]) <= List.length (cpt (replaced (seen_net ops new) cpts) i)) ->
  exists b j j1 j2 j3 t, apply o (build ops) = Ok (b, j) /\ do_calls j h = (j1, None) /\
    reapply o' (aliased (fold_left bstep new (shared b j1)) j1) cpts = Ok j2 /\ do_calls j2 h' = (j3, None) /\ get_posteriors j3 = Ok t /\
    exact_table (ignoring (lacking ops new j1) (replaced (seen_net ops new) cpts)) (net_name ops) (shown (net_of ops) (calls h')) t.
Proof. exact (fun ops o h o' cpts new h' HW => c60_whole ops HW o h o' cpts new h'). Qed.
Print Assumptions C60_whole.

(** If a CPT is too short for them, it raises IndexError. *)
Theorem C60_short : forall ops o h o' cpts new, well_shaped ops -> ord_ok o -> valid_history (net_of ops) h -> known_par ops new -> NoDup (dkeys cpts) ->
  (exists i, In i (net_vars ops) /\ List.length (cpt (replaced (seen_net ops new) cpts) i) < size (net_dom ops) (seen_par ops new i ++ [i])) ->
  exists b j j1, apply o (build ops) = Ok (b, j) /\ do_calls j h = (j1, None) /\ reapply o' (aliased (fold_left bstep new (shared b j1)) j1) cpts = Err IndexError.
Proof. exact (fun ops o h o' cpts new HW => c60_short ops HW o h o' cpts new). Qed.
Print Assumptions C60_short.

(** If it gets one the tree knows, reapply may return a tree with numbers that are right neither for the old network nor
    for the new one. *)
Theorem C60_additions_refuted : exists ops new cpts ops' b j j1 t i y m q, well_shaped ops /\ connected ops /\ fitting (net_of ops) cpts /\ well_shaped ops' /\
  cleared (changed (build ops) (map Add new ++ [Assign cpts])) = cleared (build ops') /\
  apply ord_id (build ops) = Ok (b, j) /\ reapply ord_id (aliased (fold_left bstep new (shared b j)) j) cpts = Ok j1 /\ get_posteriors j1 = Ok t /\
  In i (net_vars ops) /\ In y (net_dom ops i) /\ dget t (net_name ops i) = Some m /\ dget m y = Some q /\
  q <> exact_posterior (replaced (net_of ops) cpts) no_evidence i y /\ q <> exact_posterior (net_of ops') no_evidence i y.
Proof. exact c60_refuted. Qed.
Print Assumptions C60_additions_refuted.

(** new parents for a node that had none, and a new child: the tree is not affected; a new cause for v3: KeyError *)
Example C60_case : let new := [AddEdge w_4 n_1; AddEdge n_3 n_5] in
  net_vars chain3 = [1%Z; 2%Z; 3%Z] /\ map (net_par chain3) (net_vars chain3) = [[]; [1%Z]; [2%Z]] /\ map (net_par (chain3 ++ new)) (net_vars chain3) = [[4%Z]; [1%Z]; [2%Z]] /\
  late_isb chain3 new [(1%Z, [qfrac 1 3; qfrac 2 3])] = true.
Proof. repeat split; vm_compute; reflexivity. Qed.
Example C60_raises_case : net_par (chain3 ++ [AddEdge w_4 n_3]) 3%Z = [2%Z; 4%Z] /\
  (match late chain3 [AddEdge w_4 n_3] [] with Ok _ => None | Err e => Some e end) = Some KeyError.
Proof. split; vm_compute; reflexivity. Qed.
(** v3 = on: 1/2 is reported; 109/300 with the parents of the tree and 737/3000 with those of the network *)
Example C60_refuted_case : (match late_number chain3 late_edge [(3%Z, c_3)] "v3" "on" with Some x => qeqb x (qfrac 1 2) | None => false end) = true /\
  qeqb (exact_posterior (replaced (net_of chain3) [(3%Z, c_3)]) no_evidence 3%Z "on") (qfrac 109 300) = true /\
  qeqb (exact_posterior (net_of triangle) no_evidence 3%Z "on") (qfrac 737 3000) = true.
Proof. repeat split; vm_compute; reflexivity. Qed.
(** the diamond: [c] gets a parent its clique holds, [d] one its clique lacks; the hypotheses hold, the CPT of [d] alone is
    ignored, and the tables are as said, before and after evidence. Without new CPTs: IndexError. *)
Example C60_whole_case : known_par diamond late_edges /\ fitting (seen_net diamond late_edges) late_cpts /\
  forallb (longb diamond late_edges late_cpts) (net_vars diamond) = true /\ map (net_par (diamond ++ late_edges)) (net_vars diamond) = [[]; [10%Z]; [10%Z; 2%Z]; [2%Z; 1%Z; 10%Z]] /\
  lateb diamond hard_history late_edges late_cpts [] [false; false; false; true] = true /\
  lateb diamond [] late_edges late_cpts hard_history [false; false; false; true] = true.
Proof. split; [apply known_parb_ok|split; [apply fittingb_ok|repeat split]]; vm_compute; reflexivity. Qed.
Example C60_short_case : forallb (longb diamond late_edges []) (net_vars diamond) = false /\
  (match late diamond late_edges [] with Ok _ => None | Err e => Some e end) = Some IndexError.
Proof. split; vm_compute; reflexivity. Qed.
