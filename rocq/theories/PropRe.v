(** Properties of reapply. Nothing but theorems and examples. *)
From Verif Require Import Py M_Graph M_Node M_Pptc Spec SpecNet SpecEv SpecRe SpecPart L_Base L_Check Ex L_R7 L_Reapply L_Part5.
Open Scope nat_scope.

(** C18. After any evidence history, reapply gives a tree with the posteriors of the network with the new CPTs and no
    evidence, and further evidence on that tree is handled as on a tree made by apply. *)
Theorem C18_reapply : forall ops o h o' cpts h',
  well_shaped ops -> connected ops -> ord_ok o -> ord_ok o' -> valid_history (net_of ops) h ->
  fitting (net_of ops) cpts ->
  let N' := replaced (net_of ops) cpts in valid_history N' h' ->
  exists j j' j2 t' t2, session o ops h = Ok j /\
    reapply o' j cpts = Ok j' /\ get_posteriors j' = Ok t' /\ exact_table N' (net_name ops) no_evidence t' /\
    do_calls j' h' = (j2, None) /\ get_posteriors j2 = Ok t2 /\ exact_table N' (net_name ops) (shown N' (calls h')) t2.
Proof. exact c18. Qed.
Print Assumptions C18_reapply.

(** Any sequence of evidence calls and reapply calls. *)
Theorem C18_interleaved : forall ops o ds,
  well_shaped ops -> connected ops -> ord_ok o -> deeds_ok (start ops) ds ->
  let s := fold_left after ds (start ops) in
  exists j t, adventure o ops ds = Ok j /\ get_posteriors j = Ok t /\
    exact_table (fst s) (net_name ops) (snd (snd s)) t.
Proof. exact c18_any. Qed.
Print Assumptions C18_interleaved.

(** The same for networks in any number of parts: what is reported is what [described] says of the network with the CPTs
    in force and the evidence since the last reapply, and the cliques are still those of the first tree. *)
Theorem C18_any_network : forall ops o ds, well_shaped ops -> ord_ok o -> deeds_ok (start ops) ds ->
  let s := fold_left after ds (start ops) in
  exists b0 j0 j t, apply o (build ops) = Ok (b0, j0) /\ adventure o ops ds = Ok j /\ get_posteriors j = Ok t /\
    jt_cliques j = jt_cliques j0 /\ described (fst s) (net_name ops) (snd (snd s)) (jt_cliques j) t.
Proof. exact c18_described. Qed.
Print Assumptions C18_any_network.

(** new CPTs for the root and for a node with a parent, and one for an id the network does not have *)
Example C18_case : fitting (net_of diamond) new_cpts /\ valid_history (replaced (net_of diamond) new_cpts) hard_history /\
  (match session ord_rev diamond hard_history with
   | Ok j => match reapply ord_id j new_cpts with
             | Ok j' => table_isb (replaced (net_of diamond) new_cpts) (net_name diamond) no_evidence j' &&
                        negb (table_isb (net_of diamond) (net_name diamond) no_evidence j')
             | Err _ => false end
   | Err _ => false end) = true.
Proof. split; [exact new_cpts_fit|]. split; [exact hard_history_ok2|]. vm_compute. reflexivity. Qed.
