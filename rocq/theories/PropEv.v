(** Properties of evidence handling. Nothing but theorems and examples. *)
From Verif Require Import Py M_Graph M_Node M_Pptc Spec SpecNet SpecEv L_Base L_Check Ex L_P1 L_R1 L_P2 L_R2 L_Part6.
Open Scope nat_scope.

(** C14 *)
Theorem C14_normal_forms : forall e,
  NoDup (ev_dom e) -> ev_dom e <> [] -> NoDup (dkeys (ev_values e)) -> incl (dkeys (ev_values e)) (ev_dom e) ->
  exists m, validate e = Ok (mkEv (ev_node e) (ev_dom e) (ev_type e) m) /\ NoDup (dkeys m) /\
    (forall v, In v (dkeys m) <-> In v (ev_dom e)) /\
    match ev_type e with
    | VIRTUAL => forall v, In v (ev_dom e) -> exists q, dget m v = Some q /\
        ((supplied e v < 0)%Qc -> q = 0%Qc) /\
        ((0 <= supplied e v)%Qc -> (supplied e v <= 1)%Qc -> q = supplied e v) /\
        ((1 < supplied e v)%Qc -> q = 1%Qc)
    | FINDING =>
        (exists v, In v (ev_dom e) /\ dget m v = Some 1%Qc) /\
        forall v, In v (ev_dom e) -> exists q, dget m v = Some q /\ (q = 0%Qc \/ q = 1%Qc) /\
          (q = 1%Qc <-> (0 < supplied e v)%Qc \/ forall w, In w (ev_dom e) -> (supplied e w <= 0)%Qc)
    | OBSERVATION => exists y, In y (ev_dom e) /\ dget m y = Some 1%Qc /\
        (forall v, In v (ev_dom e) -> v <> y -> dget m v = Some 0%Qc) /\
        (forall v, In v (ev_dom e) -> (supplied e v <= supplied e y)%Qc) /\
        (forall l1 l2, considered e = l1 ++ y :: l2 -> forall v, In v l1 -> (supplied e v < supplied e y)%Qc)
    | UNOBSERVE => forall v, In v (ev_dom e) -> dget m v = Some 1%Qc
    end.
Proof. exact c14. Qed.
Print Assumptions C14_normal_forms.

(** observations with a tie (the first supplied wins over the first of the variable), a negative and a large likelihood *)
Example C14_case :
  let show r := match r with Ok e => map (fun p => (fst p, this (snd p))) (ev_values e) | Err _ => [] end in
  let q0 := this 0%Qc in let q1 := this 1%Qc in
  show (validate (mkEv 2 ["x"; "y"; "z"]%string OBSERVATION [("z", qfrac 1 2); ("x", qfrac 1 2)]%string)) =
    [("z", q1); ("x", q0); ("y", q0)]%string /\
  show (validate (mkEv 2 ["x"; "y"; "z"]%string VIRTUAL [("z", qfrac 3 2); ("x", qfrac (-1) 2)]%string)) =
    [("z", q1); ("x", q0); ("y", q0)]%string /\
  show (validate (mkEv 2 ["x"; "y"; "z"]%string FINDING [("z", 0%Qc); ("x", qfrac (-1) 2)]%string)) =
    [("z", q1); ("x", q1); ("y", q1)]%string.
Proof. vm_compute. repeat split. Qed.

(** C15. The full claim would be: after [set_observation] of a value, calling it again with the same value leaves the
    observation in force. It is false: the second call withdraws the observation. *)
Theorem C15_observation_refuted : exists ops o h e y j1 j2 t1 t2,
  well_shaped ops /\ connected ops /\ ord_ok o /\ valid_history (net_of ops) h /\ known (net_of ops) e /\ observes e y /\
  session o ops (h ++ [(o, SetObservation e)]) = Ok j1 /\ get_posteriors j1 = Ok t1 /\
  session o ops ((h ++ [(o, SetObservation e)]) ++ [(o, SetObservation e)]) = Ok j2 /\ get_posteriors j2 = Ok t2 /\
  let L := observing (in_force (net_of ops) (calls h)) (ev_node e) y in
  exact_table (net_of ops) (net_name ops) L t1 /\ ~ exact_table (net_of ops) (net_name ops) L t2.
Proof. exact c15_refuted. Qed.
Print Assumptions C15_observation_refuted.

(** It can also raise, on an observation that update_evidences accepts. *)
Theorem C15_observation_raises_refuted : exists ops o h e j j',
  well_shaped ops /\ connected ops /\ ord_ok o /\ valid_history (net_of ops) h /\ known (net_of ops) e /\
  ev_type e = OBSERVATION /\ session o ops h = Ok j /\ set_observation o j e = (j', Some IndexError).
Proof. exact c15_raises. Qed.
Print Assumptions C15_observation_raises_refuted.

(** What it does: it withdraws the evidence on the variable if the value alone had likelihood 1, and observes the value
    otherwise. *)
Theorem C15_observation_partial : forall ops o h o' e y,
  well_shaped ops -> connected ops -> ord_ok o -> ord_ok o' -> valid_history (net_of ops) h -> Forall hard_call (calls h) ->
  known (net_of ops) e -> observes e y ->
  let N := net_of ops in let L := in_force N (calls h) in let i := ev_node e in
  exists j t, session o ops (h ++ [(o', SetObservation e)]) = Ok j /\ get_posteriors j = Ok t /\
    (only_one N (L i) i y -> exact_table N (net_name ops) (withdraw L [i]) t) /\
    (~ only_one N (L i) i y -> exact_table N (net_name ops) (observing L i y) t).
Proof. exact c15_part. Qed.
Print Assumptions C15_observation_partial.

(** The same evidence given twice through update_evidences counts once. *)
Theorem C15_update_twice_partial : forall ops o h o1 o2 es,
  well_shaped ops -> ord_ok o -> ord_ok o1 -> ord_ok o2 -> valid_history (net_of ops) h ->
  Forall (known (net_of ops)) es ->
  exists j1 j2 t, session o ops (h ++ [(o1, Update es)]) = Ok j1 /\
    session o ops (h ++ [(o1, Update es); (o2, Update es)]) = Ok j2 /\
    get_posteriors j1 = Ok t /\ get_posteriors j2 = Ok t.
Proof. exact c15_update_any. Qed.
Print Assumptions C15_update_twice_partial.

Example C15_case : known (net_of diamond) e_c_on /\ observes e_c_on "on"%string /\
  (match session ord_id diamond (hard_history ++ [(ord_rev, SetObservation e_c_on)]) with
   | Ok j => all_exactb diamond (observing (in_force (net_of diamond) (calls hard_history)) 1 "on"%string) j
   | Err _ => false end) = true.
Proof. split; [exact e_c_on_known|]. split; [exact e_c_on_observes|]. vm_compute. reflexivity. Qed.

(** C16. The full claim would be: whenever the change type is None the stored likelihoods stay the same. It is false: *)
Theorem C16_change_detection_refuted : exists ops o h es j es' j' i v,
  well_shaped ops /\ connected ops /\ ord_ok o /\ valid_history (net_of ops) h /\ Forall (known (net_of ops)) es /\
  session o ops h = Ok j /\ mapM validate es = Ok es' /\ get_change_type j es' = Ok CNone /\
  update_evidences o j es = (j', None) /\ stored_likelihood j' i v <> stored_likelihood j i v.
Proof. exact c16_refuted. Qed.
Print Assumptions C16_change_detection_refuted.

(** It holds for hard evidence; the call then changes nothing at all. *)
Theorem C16_change_detection_partial : forall ops o h es o' j es',
  well_shaped ops -> ord_ok o -> valid_history (net_of ops) h -> Forall hard_call (calls h) ->
  Forall (known (net_of ops)) es -> Forall hard es ->
  session o ops h = Ok j -> mapM validate es = Ok es' -> get_change_type j es' = Ok CNone ->
  update_evidences o' j es = (j, None).
Proof. exact c16_part. Qed.
Print Assumptions C16_change_detection_partial.

(** What counts as no change, for any evidence; every other change counts as a retraction. *)
Theorem C16_no_change : forall ops o h es j,
  well_shaped ops -> ord_ok o -> valid_history (net_of ops) h -> Forall (known (net_of ops)) es ->
  session o ops h = Ok j ->
  let N := net_of ops in let L := in_force N (calls h) in
  exists es', mapM validate es = Ok es' /\
    (get_change_type j es' = Ok CNone \/ get_change_type j es' = Ok CRetraction) /\
    (get_change_type j es' = Ok CNone <->
       forall e, In e es -> let i := ev_node e in
         (forall v, In v (dom N i) -> L i v = 1%Qc /\ like_of e v = 1%Qc) \/
         (exists y, only_one N (L i) i y /\ only_one N (like_of e) i y)).
Proof. exact c16_iff. Qed.
Print Assumptions C16_no_change.

Example C16_case :
  (match session ord_id diamond hard_history, mapM validate [e_d_t] with
   | Ok j, Ok es' => match get_change_type j es' with Ok CNone => true | _ => false end
   | _, _ => false end) = true /\ Forall (known (net_of diamond)) [e_d_t] /\ Forall hard [e_d_t].
Proof. split; [vm_compute; reflexivity|]. split; [apply known_all; vm_compute; reflexivity|]. constructor; [discriminate|constructor]. Qed.

(** C17. The full claim would be: whenever update_evidences raises, the stored likelihoods are as before. It is false: *)
Theorem C17_rejected_refuted : exists ops o h es j j' i v,
  well_shaped ops /\ connected ops /\ ord_ok o /\ valid_history (net_of ops) h /\ session o ops h = Ok j /\
  update_evidences o j es = (j', Some KeyError) /\ stored_likelihood j' i v <> stored_likelihood j i v.
Proof. exact c17_refuted. Qed.
Print Assumptions C17_rejected_refuted.

(** It holds when some evidence is about an unknown node: nothing is changed. *)
Theorem C17_unknown_node_partial : forall ops o h j o' es,
  well_shaped ops -> ord_ok o -> valid_history (net_of ops) h -> session o ops h = Ok j -> Forall sensible es ->
  (exists e, In e es /\ ~ In (ev_node e) (vars (net_of ops))) ->
  update_evidences o' j es = (j, Some KeyError).
Proof. exact c17_node. Qed.
Print Assumptions C17_unknown_node_partial.

(** With an unknown value, only the stored evidence may have changed, so the posteriors are as before. *)
Theorem C17_unknown_value_partial : forall ops o h j o' es,
  well_shaped ops -> ord_ok o -> valid_history (net_of ops) h -> session o ops h = Ok j -> Forall sensible es ->
  (forall e, In e es -> In (ev_node e) (vars (net_of ops))) ->
  (exists e v, In e es /\ mentions e v /\ ~ In v (dom (net_of ops) (ev_node e))) ->
  exists ev, update_evidences o' j es = (set_jevid j ev, Some KeyError) /\
    get_posteriors (set_jevid j ev) = get_posteriors j.
Proof. exact c17_value. Qed.
Print Assumptions C17_unknown_value_partial.

Example C17_case : Forall sensible [e_c_on; e_d_bad] /\ mentions e_d_bad "maybe"%string /\
  ~ In "maybe"%string (dom (net_of diamond) (ev_node e_d_bad)) /\ In (ev_node e_d_bad) (vars (net_of diamond)) /\
  ~ In (ev_node (build_evidence n_6 OBSERVATION [])) (vars (net_of diamond)).
Proof.
  split; [repeat constructor; intros _; discriminate|]. split; [left; left; reflexivity|].
  split; [apply mem_false; vm_compute; reflexivity|]. split; [apply mem_In; vm_compute; reflexivity|].
  apply mem_false; vm_compute; reflexivity.
Qed.
