(** Evidence calls of which some are rejected. Nothing but theorems and examples. *)
From Verif Require Import Py M_Graph M_Node M_Pptc Spec SpecNet SpecEv SpecPart SpecTry L_Base L_Check Ex L_R1 L_R2 L_Try2 L_TryEx.
Open Scope nat_scope.

(** C83 *)
Theorem C83_tries : forall ops o h, well_shaped ops -> ord_ok o -> plausible_history (net_of ops) h -> let N := net_of ops in
  exists b j j' t s xs, apply o (build ops) = Ok (b, j) /\
    attempts N (no_evidence, no_evidence) (calls h) = (s, xs) /\ do_tries j h = (j', xs) /\
    (forall i v, In i (vars N) -> In v (dom N i) -> stored_likelihood j' i v = Some (fst s i v)) /\
    get_posteriors j' = Ok t /\ described N (net_name ops) (snd s) (jt_cliques j') t /\
    (connected ops -> exact_table N (net_name ops) (snd s) t).
Proof. exact c83. Qed.
Print Assumptions C83_tries.

(** unobserve_all goes back to the posteriors without evidence if some stored likelihood is not 1 *)
Theorem C83_reset_partial : forall ops o h o',
  well_shaped ops -> connected ops -> ord_ok o -> ord_ok o' -> plausible_history (net_of ops) h -> let N := net_of ops in
  exists b j j' xs, apply o (build ops) = Ok (b, j) /\ do_tries j h = (j', xs) /\
    ((exists i v q, In i (vars N) /\ In v (dom N i) /\ stored_likelihood j' i v = Some q /\ q <> 1%Qc) ->
     exists j2 t, unobserve_all o' j' = (j2, None) /\ get_posteriors j = Ok t /\ get_posteriors j2 = Ok t).
Proof. exact c83_reset. Qed.
Print Assumptions C83_reset_partial.

(** It need not otherwise: the evidence of a rejected call was stored in part, nothing seems left to be withdrawn, and the
    posteriors are still those of earlier evidence. *)
Theorem C83_reset_refuted : exists ops o h o' b j j' xs j2 t t2,
  well_shaped ops /\ connected ops /\ ord_ok o /\ ord_ok o' /\ plausible_history (net_of ops) h /\
  apply o (build ops) = Ok (b, j) /\ do_tries j h = (j', xs) /\ unobserve_all o' j' = (j2, None) /\
  get_posteriors j = Ok t /\ get_posteriors j2 = Ok t2 /\ t2 <> t.
Proof. exact c83_refuted. Qed.
Print Assumptions C83_reset_refuted.

(** nine calls, six rejected *)
Example C83_case : plausible_history (net_of diamond) rough_history /\ plausible_history (net_of diamond) odd_history /\
  snd (attempts (net_of diamond) (no_evidence, no_evidence) (calls rough_history)) =
    [None; Some KeyError; Some IndexError; Some KeyError; Some KeyError; Some KeyError; None; Some KeyError; None] /\
  (let s := fst (attempts (net_of diamond) (no_evidence, no_evidence) (calls odd_history)) in
   qeqb (fst s 1%Z "off"%string) 1%Qc && qeqb (snd s 1%Z "off"%string) 0%Qc) = true /\
  (let s := fst (attempts (net_of diamond) (no_evidence, no_evidence) (calls (firstn 5 rough_history))) in
   qeqb (fst s 30%Z "f"%string) 0%Qc && qeqb (snd s 30%Z "f"%string) 1%Qc) = true.
Proof.
  split; [exact rough_plausible|]. split; [exact odd_plausible|]. split; [vm_compute; reflexivity|].
  split; vm_compute; reflexivity.
Qed.

(** C17. What a call of update_evidences leaves stored, rejected or not. *)
Theorem C17_left : forall ops o h j o' es,
  well_shaped ops -> ord_ok o -> ord_ok o' -> valid_history (net_of ops) h -> session o ops h = Ok j ->
  Forall (plausible (net_of ops)) es -> let N := net_of ops in let L := in_force N (calls h) in
  exists j', update_evidences o' j es =
      (j', if forallb (has_var N) es && forallb (inside N) es then None else Some KeyError) /\
    forall i v, In i (vars N) -> In v (dom N i) ->
      stored_likelihood j' i v = Some (if forallb (has_var N) es then until N L es i v else L i v).
Proof. exact c17_exact. Qed.
Print Assumptions C17_left.

Example C17_left_case : Forall (plausible (net_of diamond)) [e_d_t; e_c_odd; e_c_on] /\
  forallb (has_var (net_of diamond)) [e_d_t; e_c_odd; e_c_on] = true /\
  (let L := until (net_of diamond) no_evidence [e_d_t; e_c_odd; e_c_on] in
   map (fun p => qeqb (L (fst p) (snd p)) 0%Qc) [(30%Z, "t"%string); (30%Z, "f"%string); (1%Z, "on"%string); (1%Z, "off"%string)])
  = [false; true; false; false].
Proof.
  split; [repeat (apply Forall_cons; [apply plausibleb_ok; vm_compute; reflexivity|]); apply Forall_nil|]. split; vm_compute; reflexivity.
Qed.
