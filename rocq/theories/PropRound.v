(** Properties of inference in rounded arithmetic. *)
From Verif Require Import Py M_Graph M_Node M_Pptc M_Round Spec SpecNet SpecEv SpecRound L_Base L_Check Ex L_Round4 L_Round5 L_RoundEx.
Local Open Scope string_scope.
Local Open Scope list_scope.
Local Open Scope Qc_scope.

(** C80: when nothing is rounded the model with rounding is the model without; *)
Theorem C80_identity : (forall o ops h, session_r exactly o ops h = session o ops h) /\ (forall j, get_posteriors_r exactly j = get_posteriors j).
Proof. exact c80_identity. Qed.
Print Assumptions C80_identity.

(** floating point with [p] digits is accurate up to the factor 1 + 2^(1-p) in each operation; *)
Theorem C80_floats : forall p, (1 <= p)%Z -> accurate (ulp_factor p) (floats p).
Proof. exact c80_floats. Qed.
Print Assumptions C80_floats.

(** on every network and after every history, in any arithmetic accurate up to the factor [r], no call raises,
    the posteriors are for the same names and values, and each is that of exact arithmetic up to the factor
    [r ^ k], where [k] depends on the network only: errors do not accumulate however many calls are made; *)
Theorem C80_follows : forall ops, well_shaped ops -> exists k, forall o h, ord_ok o -> valid_history (net_of ops) h ->
  exists j t, session o ops h = Ok j /\ get_posteriors j = Ok t /\
  forall r a, accurate r a -> exists j' t', session_r a o ops h = Ok j' /\ get_posteriors_r a j' = Ok t' /\ table_within r k t t'.
Proof. exact c80_any. Qed.
Print Assumptions C80_follows.

(** on a connected network after hard evidence: the exact posterior up to the factor [r ^ k]; *)
Theorem C80_posteriors : forall ops, well_shaped ops -> connected ops -> exists k, forall o h, ord_ok o -> valid_history (net_of ops) h -> Forall hard_call (calls h) ->
  let N := net_of ops in let L := in_force N (calls h) in
  forall r a, accurate r a -> exists j t, session_r a o ops h = Ok j /\ get_posteriors_r a j = Ok t /\
    Permutation (map fst t) (map (net_name ops) (vars N)) /\ forall i, In i (vars N) -> exists row, dget t (net_name ops i) = Some row /\ row_within r k N L i row.
Proof. exact c80_posteriors. Qed.
Print Assumptions C80_posteriors.

(** in floating point of any precision a posterior is reported as 0 exactly when it is 0; *)
Theorem C80_zero : forall ops o h p, well_shaped ops -> connected ops -> ord_ok o -> valid_history (net_of ops) h -> Forall hard_call (calls h) -> (1 <= p)%Z ->
  let N := net_of ops in let L := in_force N (calls h) in
  exists j t, session_r (floats p) o ops h = Ok j /\ get_posteriors_r (floats p) j = Ok t /\
    forall i, In i (vars N) -> exists row, dget t (net_name ops i) = Some row /\
      Forall2 (fun y q => fst q = y /\ 0 <= snd q /\ (snd q = 0 <-> exact_posterior N L i y = 0)) (dom N i) row.
Proof. exact c80_zero. Qed.
Print Assumptions C80_zero.

(** and with enough digits every posterior is as close to the exact one as one likes, whatever the history. *)
Theorem C80_limit : forall ops, well_shaped ops -> connected ops -> forall e, 0 < e -> exists p0, forall p, (p0 <= p)%Z ->
  forall o h, ord_ok o -> valid_history (net_of ops) h -> Forall hard_call (calls h) ->
  let N := net_of ops in let L := in_force N (calls h) in exists j t, session_r (floats p) o ops h = Ok j /\ get_posteriors_r (floats p) j = Ok t /\
    forall i, In i (vars N) -> exists row, dget t (net_name ops i) = Some row /\
      Forall2 (fun y q => fst q = y /\ exact_posterior N L i y - e <= snd q /\ snd q <= exact_posterior N L i y + e) (dom N i) row.
Proof. exact c80_limit. Qed.
Print Assumptions C80_limit.

(** The posteriors of a variable need not add up to 1 in binary64. *)
Theorem C80_sum_refuted : exists j t row, session_r binary64 ord_id diamond hard_history = Ok j /\ get_posteriors_r binary64 j = Ok t /\
  dget t "b" = Some row /\ qsum (map snd row) <> 1.
Proof. exact c80_sum. Qed.
Print Assumptions C80_sum_refuted.

(** the network and the history of the last theorem meet the conditions of the others; in binary64 every posterior is within
    10^-15 of the exact one, though not within 10^-17, with three digits within 1/10 but not within 1/100 *)
Example C80_case : well_shaped diamond /\ connected diamond /\ valid_history (net_of diamond) hard_history /\ Forall hard_call (calls hard_history).
Proof. exact c80_case. Qed.
Example C80_near : all_nearb 53 (qfrac 1 1000000000000000) diamond hard_history = true /\ all_nearb 53 (qfrac 1 100000000000000000) diamond hard_history = false /\
  all_nearb 3 (qfrac 1 10) diamond hard_history = true /\ all_nearb 3 (qfrac 1 100) diamond hard_history = false.
Proof. repeat split; vm_compute; reflexivity. Qed.
