(** Property of the samples drawn with evidence. Nothing but theorems and examples. *)
From Verif Require Import Py M_Graph M_Node M_Sampling M_Pptc Spec SpecNet SpecEv SpecPot SpecSamp SpecKept L_P1 Ex L_SampEx L_Kept3 L_KeptEx.
Open Scope nat_scope.

(** C86. The claim: the samples that get_samples keeps are spread over the assignments as the exact posterior given the evidence. It holds
    when the variable visited last has no evidence on it (and parents are in ascending order, C31): the draws that give a
    sample form a box, and the share of the volume kept with a value is the posterior probability of the value. *)
Theorem C86_posterior_partial : forall srt ops s, sorter_ok srt -> well_shaped ops -> clean ops -> let N := net_of ops in stochastic N ->
  logic_sampler srt (build ops) = Ok s -> topological N (sp_nodes s) -> (forall v, In v (vars N) -> ascending (par N v)) ->
  forall ev, evidence_on N ev -> possible_values N ev -> (forall before v, sp_nodes s = before ++ [v] -> ~ In v (dkeys ev)) -> possible N (seen ev) ->
  exists lo hi : asg -> Z -> Qc,
    (forall a us, okon (dom N) (vars N) a -> has_values ev a = true -> draw_for N us ->
      ((exists d, sample_once s ev us = Ok d /\ List.length d = List.length (sp_nodes s) /\ records d (vars N) a) <->
       Forall2 (fun v u => (lo a v <= u)%Qc /\ (u < hi a v)%Qc) (sp_nodes s) us)) /\
    (forall a v, okon (dom N) (vars N) a -> In v (vars N) -> (0 <= lo a v)%Qc /\ (lo a v <= hi a v)%Qc /\ (hi a v <= 1)%Qc) /\
    let vol a := volume (lo a) (hi a) (sp_nodes s) in
    all_kept N ev vol <> 0%Qc /\
    forall i x, In i (vars N) -> (kept_with N ev vol i x / all_kept N ev vol)%Qc = exact_posterior N (seen ev) i x.
Proof. exact c86_posterior. Qed.
Print Assumptions C86_posterior_partial.

(** then the join tree shows the same numbers, after any hard evidence that says the same *)
Theorem C86_same_as_inference : forall srt ops s, sorter_ok srt -> well_shaped ops -> clean ops -> let N := net_of ops in stochastic N ->
  logic_sampler srt (build ops) = Ok s -> topological N (sp_nodes s) -> (forall v, In v (vars N) -> ascending (par N v)) ->
  forall ev, evidence_on N ev -> possible_values N ev -> (forall before v, sp_nodes s = before ++ [v] -> ~ In v (dkeys ev)) -> possible N (seen ev) ->
  connected ops -> forall o h, ord_ok o -> valid_history N h -> Forall hard_call (calls h) -> agree N (in_force N (calls h)) (seen ev) ->
  exists j t, session o ops h = Ok j /\ get_posteriors j = Ok t /\
  exists lo hi : asg -> Z -> Qc,
    (forall a us, okon (dom N) (vars N) a -> has_values ev a = true -> draw_for N us ->
      ((exists d, sample_once s ev us = Ok d /\ List.length d = List.length (sp_nodes s) /\ records d (vars N) a) <->
       Forall2 (fun v u => (lo a v <= u)%Qc /\ (u < hi a v)%Qc) (sp_nodes s) us)) /\
    let vol a := volume (lo a) (hi a) (sp_nodes s) in
    all_kept N ev vol <> 0%Qc /\
    forall i, In i (vars N) -> dget t (net_name ops i) = Some (map (fun x => (x, (kept_with N ev vol i x / all_kept N ev vol)%Qc)) (dom N i)).
Proof. exact c86_inference. Qed.
Print Assumptions C86_same_as_inference.

(** whatever evidence there is: a pass over the variables is kept, with the sample [a], exactly when the numbers drawn for the variables
    before the last block of evidence variables select their values; the numbers drawn for the block do not matter *)
Theorem C86_kept : forall srt ops s, sorter_ok srt -> well_shaped ops -> clean ops -> let N := net_of ops in stochastic N ->
  logic_sampler srt (build ops) = Ok s -> topological N (sp_nodes s) -> forall ps, by_id N ps ->
  forall ev front back, evidence_on N ev -> cut_at_evidence (sp_nodes s) ev front back ->
  forall a us, okon (dom N) (vars N) a -> has_values ev a = true -> draw_for N us ->
    ((exists d, sample_once s ev us = Ok d /\ List.length d = List.length (sp_nodes s) /\ records d (vars N) a) <->
     Forall2 (selects (read_with N ps) a) front (firstn (List.length front) us)).
Proof. exact c86_kept_all. Qed.
Print Assumptions C86_kept.

(** so the samples follow the posterior given only the evidence outside that block *)
Theorem C86_exactly : forall srt ops s, sorter_ok srt -> well_shaped ops -> clean ops -> let N := net_of ops in stochastic N ->
  logic_sampler srt (build ops) = Ok s -> topological N (sp_nodes s) -> forall ps, by_id N ps ->
  forall ev front back, evidence_on N ev -> possible_values N ev -> cut_at_evidence (sp_nodes s) ev front back ->
  exists lo hi : asg -> Z -> Qc,
    (forall a us, okon (dom N) (vars N) a -> has_values ev a = true -> draw_for N us ->
      ((exists d, sample_once s ev us = Ok d /\ List.length d = List.length (sp_nodes s) /\ records d (vars N) a) <->
       Forall2 (fun v u => (lo a v <= u)%Qc /\ (u < hi a v)%Qc) front (firstn (List.length front) us))) /\
    (forall a v, okon (dom N) (vars N) a -> In v (vars N) -> (0 <= lo a v)%Qc /\ (lo a v <= hi a v)%Qc /\ (hi a v <= 1)%Qc) /\
    let vol a := volume (lo a) (hi a) front in
    all_kept N ev vol = total (read_with N ps) (seen (only front ev)) /\
    forall i x, In i front -> kept_with N ev vol i x = mass_of (read_with N ps) (seen (only front ev)) i x.
Proof. exact c86_spread. Qed.
Print Assumptions C86_exactly.

(** the claim fails: with evidence on the last two of four variables every pass is kept, and the samples follow the prior *)
Theorem C86_posterior_refuted : exists ops ev i x, let N := net_of ops in
  well_shaped ops /\ clean ops /\ stochastic N /\ connected ops /\ acyclic (is_parent N) /\ consistent N /\ (forall v, In v (vars N) -> ascending (par N v)) /\
  evidence_on N ev /\ possible_values N ev /\ possible N (seen ev) /\ In i (vars N) /\ In x (dom N i) /\
  forall srt, sorter_ok srt -> exists s, logic_sampler srt (build ops) = Ok s /\ topological N (sp_nodes s) /\
  exists front back, cut_at_evidence (sp_nodes s) ev front back /\
  exists lo hi : asg -> Z -> Qc,
    (forall a us, okon (dom N) (vars N) a -> has_values ev a = true -> draw_for N us ->
      ((exists d, sample_once s ev us = Ok d /\ List.length d = List.length (sp_nodes s) /\ records d (vars N) a) <->
       Forall2 (fun v u => (lo a v <= u)%Qc /\ (u < hi a v)%Qc) front (firstn (List.length front) us))) /\
    let vol a := volume (lo a) (hi a) front in
    all_kept N ev vol = 1%Qc /\ (kept_with N ev vol i x / all_kept N ev vol)%Qc <> exact_posterior N (seen ev) i x.
Proof. exact c86_posterior_refuted. Qed.
Print Assumptions C86_posterior_refuted.

Example C86_case : sorter_ok small /\ well_shaped diamond_asc /\ clean diamond_asc /\ stochastic (net_of diamond_asc) /\
  (exists s, logic_sampler small (build diamond_asc) = Ok s /\ topological (net_of diamond_asc) (sp_nodes s) /\ sp_nodes s = [10; 1; 2; 30]%Z) /\
  (forall v, In v (net_vars diamond_asc) -> ascending (net_par diamond_asc v)) /\ connected diamond_asc /\
  let N := net_of diamond_asc in let ev := [(2%Z, "y"%string)] in
  evidence_on N ev /\ possible_values N ev /\ cut_at_evidence [10; 1; 2; 30]%Z ev [10; 1; 2; 30]%Z [] /\ possible N (seen ev) /\
  valid_history N saw_y /\ Forall hard_call (calls saw_y) /\ agree N (in_force N (calls saw_y)) (seen ev) /\
  this (exact_posterior N (seen ev) 10%Z "on"%string) <> this (exact_posterior N no_evidence 10%Z "on"%string).
Proof. exact c86_case. Qed.
