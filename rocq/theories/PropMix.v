(** Answers as tables vary. Nothing but theorems and examples. *)
From Verif Require Import Py M_Graph M_Node M_Pptc Spec SpecNet SpecEv SpecSep SpecPot SpecRe SpecCohere SpecMix L_Base L_Check Ex L_R1 L_R4 L_R7 L_SepEx L_Mix L_MixEx.
Open Scope nat_scope.

(** C101. If reapply is given a mixture of two tables for a variable, then, after any further calls, every number reported lies between those
    reported for the two tables, at one and the same place for all variables and values. *)
Theorem C101_between : forall ops o h o' h' i A B t, well_shaped ops -> connected ops -> ord_ok o -> ord_ok o' ->
  valid_history (net_of ops) h -> valid_history (net_of ops) h' -> let N := net_of ops in
  In i (vars N) -> fitting N [(i, A)] -> fitting N [(i, B)] -> (0 <= t -> t <= 1 ->
  exists w, 0 <= w /\ w <= 1 /\ forall k y, In k (vars N) -> In y (dom N k) ->
    exists p q, retold o ops h o' [(i, A)] h' k y p /\ retold o ops h o' [(i, B)] h' k y q /\ retold o ops h o' [(i, mixed t A B)] h' k y (w * p + (1 - w) * q))%Qc.
Proof. exact c101_between. Qed.
Print Assumptions C101_between.

(** Without evidence, and if the rows of the tables sum to 1, the place is that of the mixture. *)
Theorem C101_prior : forall ops o h o' i A B t, well_shaped ops -> connected ops -> ord_ok o -> ord_ok o' ->
  valid_history (net_of ops) h -> let N := net_of ops in acyclic (is_parent N) -> In i (vars N) -> fitting N [(i, A)] -> fitting N [(i, B)] ->
  stochastic (replaced N [(i, A)]) -> stochastic (replaced N [(i, B)]) -> (0 <= t -> t <= 1 ->
  forall k y, In k (vars N) -> In y (dom N k) ->
    exists p q, retold o ops h o' [(i, A)] [] k y p /\ retold o ops h o' [(i, B)] [] k y q /\ retold o ops h o' [(i, mixed t A B)] [] k y (t * p + (1 - t) * q))%Qc.
Proof. exact c101_prior. Qed.
Print Assumptions C101_prior.

(** two tables for [b] of [diamond] and a quarter of the first with three quarters of the second *)
Example C101_case : let N := net_of diamond in valid_history N seen_a /\ valid_history N then_d /\ acyclic (is_parent N) /\ In 2%Z (vars N) /\
  fitting N [(2%Z, b_one)] /\ fitting N [(2%Z, b_two)] /\ stochastic (replaced N [(2%Z, b_one)]) /\ stochastic (replaced N [(2%Z, b_two)]).
Proof.
  cbv zeta. split; [split; [orders|apply valid_calls_ok; vm_compute; reflexivity]|]. split; [split; [orders|apply valid_calls_ok; vm_compute; reflexivity]|].
  split; [apply rankedb_ok with diamond_rank; vm_compute; reflexivity|]. split; [vm_compute; auto|].
  split; [apply fittingb_ok; vm_compute; reflexivity|]. split; [apply fittingb_ok; vm_compute; reflexivity|]. split; apply stochasticb_ok; vm_compute; reflexivity.
Qed.
Example C101_numbers : map (fun c => told c [] 30 "t") [b_one; b_two; mixed (qfrac 1 4) b_one b_two] = [Some (7141 # 12000); Some (4961 # 9000); Some (1799 # 3200)]%Q /\
  this (qfrac 1 4 * qfrac 7141 12000 + (1 - qfrac 1 4) * qfrac 4961 9000)%Qc = (1799 # 3200)%Q.
Proof. split; vm_compute; reflexivity. Qed.
(** with evidence on [d] the place is another, here 7141/26985; the same for values of [a], [b] and [c] *)
Example C101_place : let w := qfrac 7141 26985 in
  map (fun c => told c then_d 10 "on") [b_one; b_two; mixed (qfrac 1 4) b_one b_two] = [Some (1333 # 7141); Some (1043 # 4961); Some (367 # 1799)]%Q /\
  this (w * qfrac 1333 7141 + (1 - w) * qfrac 1043 4961)%Qc = (367 # 1799)%Q /\
  map (fun c => told c then_d 2 "x") [b_one; b_two; mixed (qfrac 1 4) b_one b_two] = [Some (580 # 7141); Some (1670 # 4961); Some (484 # 1799)]%Q /\
  this (w * qfrac 580 7141 + (1 - w) * qfrac 1670 4961)%Qc = (484 # 1799)%Q /\
  map (fun c => told c then_d 1 "on") [b_one; b_two; mixed (qfrac 1 4) b_one b_two] = [Some (99 # 193); Some (1755 # 4961); Some (3561 # 8995)]%Q /\
  this (w * qfrac 99 193 + (1 - w) * qfrac 1755 4961)%Qc = (3561 # 8995)%Q.
Proof. cbv zeta. repeat split; vm_compute; reflexivity. Qed.
