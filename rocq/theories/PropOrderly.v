(** Posteriors reported in floating point as probabilities. *)
From Verif Require Import Py M_Graph M_Node M_Pptc M_Round Spec SpecNet SpecEv SpecPot SpecRound SpecStored SpecOrderly L_Check Ex L_R1 L_RoundEx L_Ord1 L_Ord2 L_Ord3 L_OrdEx.
Local Open Scope string_scope.
Local Open Scope list_scope.
Local Open Scope Qc_scope.

(** C110: floating point with any number of digits, sums taken from left to right, is orderly; *)
Theorem C110_floats : forall p, (1 <= p)%Z -> orderly (ulp_factor p) (floats p).
Proof. exact c110_floats. Qed.
Print Assumptions C110_floats.

(** in orderly arithmetic every reported posterior, of any network in any number of parts and after any history, is between 0 and 1;
    those of a variable are all 0, or they add up to 1 up to one rounding error more than the variable has values, however
    large the network; and if all but one are 0, the one is exactly 1; *)
Theorem C110_range : forall ops o h r a, well_shaped ops -> ord_ok o -> valid_history (net_of ops) h -> orderly r a ->
  let N := net_of ops in
  exists j t, session_r a o ops h = Ok j /\ get_posteriors_r a j = Ok t /\ Permutation (map fst t) (map (net_name ops) (vars N)) /\
    forall i, In i (vars N) -> exists qs, List.length qs = List.length (dom N i) /\ dget t (net_name ops i) = Some (combine (dom N i) qs) /\
      Forall (fun q => 0 <= q /\ q <= 1) qs /\
      (Forall (fun q => q = 0) qs \/ within r (S (List.length (dom N i))) 1 (qsum qs)) /\
      (forall l q l', qs = l ++ q :: l' -> Forall (fun y => y = 0) (l ++ l') -> q <> 0 -> q = 1).
Proof. exact c110_range. Qed.
Print Assumptions C110_range.

(** on a connected network after hard evidence a value that is certain is reported as exactly 1, the others as exactly 0. *)
Theorem C110_certain : forall ops o h r a, well_shaped ops -> connected ops -> ord_ok o -> valid_history (net_of ops) h -> Forall hard_call (calls h) -> orderly r a ->
  let N := net_of ops in let L := in_force N (calls h) in
  exists j t, session_r a o ops h = Ok j /\ get_posteriors_r a j = Ok t /\
    forall i y, In i (vars N) -> In y (dom N i) -> exact_posterior N L i y = 1 -> dget t (net_name ops i) = Some (map (fun x => (x, if String.eqb x y then 1 else 0)) (dom N i)).
Proof. exact c110_certain. Qed.
Print Assumptions C110_certain.

(** A posterior reported as 1 need not be 1, though all tables are of stored numbers and their rows add up to 1 exactly. *)
Theorem C110_uncertain : exists ops h i y, well_shaped ops /\ connected ops /\ stochastic (net_of ops) /\ stored_net (digits 53) 4 (build ops) /\ valid_history (net_of ops) h /\ Forall hard_call (calls h) /\
  In i (vars (net_of ops)) /\ In y (dom (net_of ops) i) /\ exact_posterior (net_of ops) (in_force (net_of ops) (calls h)) i y <> 1 /\
  exists j t row, session_r binary64 ord_id ops h = Ok j /\ get_posteriors_r binary64 j = Ok t /\ dget t (net_name ops i) = Some row /\ dget row y = Some 1.
Proof. exact c110_uncertain. Qed.
Print Assumptions C110_uncertain.

(** the conditions are met on a network with a loop, where posteriors do not add up to 1 (C80_sum_refuted), and where the observed value is certain *)
Example C110_case : well_shaped diamond /\ connected diamond /\ valid_history (net_of diamond) hard_history /\ Forall hard_call (calls hard_history) /\
  exact_posterior (net_of diamond) (in_force (net_of diamond) (calls hard_history)) 30 "t" = 1.
Proof. split; [exact diamond_ok|]. split; [exact diamond_connected|]. split; [exact hard_history_ok|]. split; [exact hard_history_hard|exact d_certain]. Qed.
