(** JSON files with the members of objects in another order. Nothing but theorems and examples. *)
From Verif Require Import Py M_Graph M_Node M_Pptc M_Serde M_Json M_Json2 Spec SpecNet SpecEv SpecRe SpecSer SpecJson SpecShuf L_Base L_Check Ex L_R1 L_R7 L_R8 L_JsonEx L_Shuf2.
Open Scope nat_scope.
Open Scope string_scope.

(** C113. A join tree is saved after any sequence of evidence calls, reapply calls and reloads. A file whose JSON value is that of
    the saved tree, with the members of every object in any order, gives the posteriors of the network without evidence. *)
Theorem C113_any_order : forall read ops o l o1 o2, well_shaped ops -> connected ops -> ord_ok o -> ord_ok o1 -> ord_ok o2 -> acts_ok (start ops) l ->
  exists b j0 j d, apply o (build ops) = Ok (b, j0) /\ foldM (do_act b) l j0 = Ok j /\ jt_to_dict o1 j b = Ok d /\
    forall s v, loads read s = Ok v -> reordered (jt_json d) v ->
      exists j' t, (j1 <- load_tree read o2 s ;; apply_from_serde o2 j1) = Ok j' /\ get_posteriors j' = Ok t /\
        exact_table (fst (fold_left after_act l (start ops))) (net_name ops) no_evidence t.
Proof. exact c113_any. Qed.
Print Assumptions C113_any_order.

(** The file written with sort_keys=True, whatever the order of keys, is one. *)
Theorem C113_sorted : forall show read leb indent ops o l o1 o2, float_format show read ->
  well_shaped ops -> connected ops -> ord_ok o -> ord_ok o1 -> ord_ok o2 -> acts_ok (start ops) l ->
  exists b j0 j d, apply o (build ops) = Ok (b, j0) /\ foldM (do_act b) l j0 = Ok j /\ jt_to_dict o1 j b = Ok d /\
    exists j' t, (j1 <- load_tree read o2 (dumps show indent (sort_keys leb (jt_json d))) ;; apply_from_serde o2 j1) = Ok j' /\ get_posteriors j' = Ok t /\
      exact_table (fst (fold_left after_act l (start ops))) (net_name ops) no_evidence t.
Proof. exact c113_sorted. Qed.
Print Assumptions C113_sorted.

(** The keys of the file of the diamond network, as written and sorted. *)
Definition keys_of (v : json) : list string := match v with JsObj l => map fst l | _ => [] end.
Definition part (v : json) (k : string) : json := match member v k with Ok x => x | Err _ => JsInt 0 end.
Example C113_case : well_shaped diamond /\ connected diamond /\ acts_ok (start diamond) mixed_acts /\ float_format show_dot read_dot.
Proof. split; [exact diamond_ok|]. split; [exact diamond_connected|]. split; [exact mixed_ok|exact dot_format]. Qed.
Example C113_case_order :
  match (bj <- apply ord_id (build diamond) ;; d <- jt_to_dict ord_id (snd bj) (fst bj) ;; Ok (jt_json d)) with
  | Ok v =>
      (keys_of (part v "bbn_nodes"), keys_of (part (sort_keys str_leb v) "bbn_nodes"),
       match (j1 <- load_tree read_dot ord_id (dumps show_dot (Some 2) (sort_keys str_leb v)) ;; apply_from_serde ord_id j1) with
       | Ok j => table_isb (net_of diamond) (net_name diamond) no_evidence j
       | Err _ => false
       end)
  | Err _ => ([], [], false)
  end = (["2"; "1"; "10"; "30"], ["1"; "10"; "2"; "30"], true).
Proof. vm_compute. reflexivity. Qed.
