(** Properties of what samples contain. Nothing but theorems and examples. *)
From Verif Require Import Py M_Graph M_Node M_Sampling Spec SpecNet SpecPot SpecSamp SpecRun SpecWhole L_Base L_Check L_P5 L_R4 Ex L_SampEx L_Whole L_WholeEx.
Open Scope nat_scope.

(** C88. The full claim would be: whatever the evidence, get_samples returns the number of samples asked for, each of them with
    one of its values for each variable of the network and nothing else, and with the values of the evidence. This holds, for
    any network and any numbers drawn, when the evidence is on variables of the network and gives them values they can have. *)
Theorem C88_whole_partial : forall srt ops s, sorter_ok srt -> let N := net_of ops in logic_sampler srt (build ops) = Ok s ->
  forall ev n draws l, evidence_on N ev -> possible_values N ev -> get_samples s ev n draws = Ok l ->
    List.length l = n /\ Forall (fun d => whole N d /\ fits ev d) l.
Proof. exact c88. Qed.
Print Assumptions C88_whole_partial.

(** With evidence only on ids the network does not have, no sample is ever returned. *)
Theorem C88_unknown : forall srt ops s, sorter_ok srt -> well_shaped ops -> clean ops -> let N := net_of ops in stochastic N ->
  logic_sampler srt (build ops) = Ok s -> topological N (sp_nodes s) ->
  forall ev n f, ev <> [] -> (forall i, In i (dkeys ev) -> ~ In i (vars N)) -> 1 <= n -> (forall k, draw_for N (f k)) -> runs_for_ever s ev n f.
Proof. exact c88_unknown. Qed.
Print Assumptions C88_unknown.

(** With such an id beside evidence on a variable, a sample is returned that lacks a variable of the network, for a draw that
    does not have the value observed. *)
Theorem C88_stray_refuted : exists ops ev us i j x, let N := net_of ops in
  well_shaped ops /\ clean ops /\ stochastic N /\ acyclic (is_parent N) /\ consistent N /\ draw_for N us /\
  NoDup (dkeys ev) /\ In i (vars N) /\ dget ev j = Some x /\ In j (vars N) /\ In x (dom N j) /\
  forall srt, sorter_ok srt -> exists s, logic_sampler srt (build ops) = Ok s /\ topological N (sp_nodes s) /\
    exists d full, get_samples s ev 1 [us] = Ok [d] /\ ~ In i (dkeys d) /\ sample_once s [] us = Ok full /\ dget full j <> Some x.
Proof. exact c88_stray_refuted. Qed.
Print Assumptions C88_stray_refuted.

(** A value the variable does not have is returned in the sample. *)
Theorem C88_value_refuted : exists ops ev us i x, let N := net_of ops in
  well_shaped ops /\ clean ops /\ stochastic N /\ acyclic (is_parent N) /\ consistent N /\ draw_for N us /\ evidence_on N ev /\
  In i (vars N) /\ ~ In x (dom N i) /\
  forall srt, sorter_ok srt -> exists s, logic_sampler srt (build ops) = Ok s /\ topological N (sp_nodes s) /\
    exists d, get_samples s ev 1 [us] = Ok [d] /\ dget d i = Some x.
Proof. exact c88_value_refuted. Qed.
Print Assumptions C88_value_refuted.

(** evidence on [b] and two draws, the second of which is kept; an id the network does not have *)
Example C88_case : sorter_ok small /\ evidence_on (net_of diamond_asc) [(2%Z, "y"%string)] /\ possible_values (net_of diamond_asc) [(2%Z, "y"%string)] /\
  (exists s l, logic_sampler small (build diamond_asc) = Ok s /\ get_samples s [(2%Z, "y"%string)] 1 two_draws = Ok l /\ List.length l = 1) /\
  (forall i, In i (dkeys [(99%Z, "zz"%string)]) -> ~ In i (vars (net_of diamond_asc))).
Proof. exact c88_case. Qed.
