(** Property of how long the sampler runs. Nothing but theorems and examples. *)
From Verif Require Import Py M_Graph M_Node M_Sampling Spec SpecNet SpecPot SpecSamp SpecRun L_Base L_Table L_Net L_Check L_P5 L_R4 Ex L_SampEx L_Run L_RunEx.
Open Scope nat_scope.

(** C72. With draws that fit the evidence again and again, get_samples returns as many samples as were asked for, if that is one or more. *)
Theorem C72_returns_partial : forall srt ops s, sorter_ok srt -> well_shaped ops -> clean ops -> let N := net_of ops in stochastic N ->
  logic_sampler srt (build ops) = Ok s -> topological N (sp_nodes s) ->
  forall ev n f, evidence_on N ev -> 1 <= n -> (forall k, draw_for N (f k)) -> (forall m, exists k, m <= k /\ draws_fit s ev (f k)) ->
    exists l, returns s ev n f l /\ List.length l = n.
Proof. exact c72_returns. Qed.
Print Assumptions C72_returns_partial.

(** there are draws that fit exactly when the evidence has positive probability, in the network whose CPTs are read with the
    parents in ascending order of ids (C31) *)
Theorem C72_possible : forall srt ops s, sorter_ok srt -> well_shaped ops -> clean ops -> let N := net_of ops in stochastic N ->
  logic_sampler srt (build ops) = Ok s -> topological N (sp_nodes s) -> forall ps, by_id N ps ->
  forall ev, evidence_on N ev -> (evidence_possible (read_with N ps) ev <-> exists us, draw_for N us /\ draws_fit s ev us).
Proof. exact c72_possible. Qed.
Print Assumptions C72_possible.

(** with evidence of probability 0 the loop has no end *)
Theorem C72_impossible : forall srt ops s, sorter_ok srt -> well_shaped ops -> clean ops -> let N := net_of ops in stochastic N ->
  logic_sampler srt (build ops) = Ok s -> topological N (sp_nodes s) -> forall ps, by_id N ps ->
  forall ev n f, evidence_on N ev -> (forall before v, sp_nodes s = before ++ [v] -> ~ In v (dkeys ev)) -> 1 <= n -> (forall k, draw_for N (f k)) ->
    ~ evidence_possible (read_with N ps) ev -> runs_for_ever s ev n f.
Proof. exact c72_impossible. Qed.
Print Assumptions C72_impossible.

(** asked for no samples, it never returns if the first draw fits, as without evidence every draw does *)
Theorem C72_zero : forall srt ops s, sorter_ok srt -> well_shaped ops -> clean ops -> let N := net_of ops in stochastic N ->
  logic_sampler srt (build ops) = Ok s -> topological N (sp_nodes s) ->
  forall ev f, evidence_on N ev -> (forall k, draw_for N (f k)) -> draws_fit s ev (f 0) -> runs_for_ever s ev 0 f.
Proof. exact c72_zero. Qed.
Print Assumptions C72_zero.

Theorem C72_zero_refuted : exists ops, well_shaped ops /\ clean ops /\ stochastic (net_of ops) /\ acyclic (is_parent (net_of ops)) /\ consistent (net_of ops) /\
  forall srt, sorter_ok srt -> exists s, logic_sampler srt (build ops) = Ok s /\
    forall f, (forall k, draw_for (net_of ops) (f k)) -> (forall m, exists k, m <= k /\ draws_fit s [] (f k)) /\ runs_for_ever s [] 0 f.
Proof. exact c72_zero_refuted. Qed.
Print Assumptions C72_zero_refuted.

(** [b] is y and [d] is f, and draws that give this; and v1 and v2 both on, which never happens *)
Example C72_case : sorter_ok small /\ well_shaped diamond_asc /\ clean diamond_asc /\ stochastic (net_of diamond_asc) /\
  (exists s, logic_sampler small (build diamond_asc) = Ok s /\ topological (net_of diamond_asc) (sp_nodes s)) /\
  (forall v, In v (net_vars diamond_asc) -> ascending (net_par diamond_asc v)) /\
  evidence_on (net_of diamond_asc) [(2%Z, "y"); (30%Z, "f")]%string /\ evidence_possible (net_of diamond_asc) [(2%Z, "y"); (30%Z, "f")]%string /\
  well_shaped never /\ clean never /\ stochastic (net_of never) /\ (forall v, In v (net_vars never) -> ascending (net_par never v)) /\
  (exists s, logic_sampler small (build never) = Ok s /\ topological (net_of never) (sp_nodes s) /\ sp_nodes s = [1; 2; 3]%Z) /\
  evidence_on (net_of never) both_on /\ ~ evidence_possible (net_of never) both_on.
Proof. exact c72_case. Qed.
