(** Properties of inference in floating point with a smallest exponent. *)
From Verif Require Import Py M_Graph M_Node M_Pptc M_Round Spec SpecNet SpecEv SpecPot SpecRound L_Base L_Check Ex L_Range L_RangeEx.
Local Open Scope string_scope.
Local Open Scope list_scope.
Local Open Scope Qc_scope.

(** C89: floating point with [p] digits, the smallest exponent [emin] and the largest number below 2^emax is accurate up to the factor
    1 + 2^(1-p) where no number other than 0 is below 2^emin and none above 2^(emax-2), whatever is done on overflow; *)
Theorem C89_floats : forall p emin emax over, (1 <= p)%Z -> accurate_between (pow2 emin) (pow2 (emax - 2)) (ulp_factor p) (floats_in p emin emax over).
Proof. exact c89_floats. Qed.
Print Assumptions C89_floats.

(** for every network and history there is an [e] such that floating point with the exponents from -e to e or more gives, with any
    number of digits, the table of exact arithmetic up to a power of that factor which depends on the network only; *)
Theorem C89_range : forall ops, well_shaped ops -> exists k, forall o h, ord_ok o -> valid_history (net_of ops) h ->
  exists j t, session o ops h = Ok j /\ get_posteriors j = Ok t /\
  exists e, forall p emin emax over, (1 <= p)%Z -> (emin <= - e)%Z -> (e <= emax)%Z ->
    exists j' t', session_r (floats_in p emin emax over) o ops h = Ok j' /\ get_posteriors_r (floats_in p emin emax over) j' = Ok t' /\ table_within (ulp_factor p) k t t'.
Proof. exact c89_range. Qed.
Print Assumptions C89_range.

(** on a connected network after hard evidence: the exact posteriors up to that factor. That this holds with the exponents of binary64 whatever
    the network is false, see below. *)
Theorem C89_posteriors_partial : forall ops, well_shaped ops -> connected ops -> exists k, forall o h, ord_ok o -> valid_history (net_of ops) h -> Forall hard_call (calls h) ->
  let N := net_of ops in let L := in_force N (calls h) in
  exists e, forall p emin emax over, (1 <= p)%Z -> (emin <= - e)%Z -> (e <= emax)%Z ->
    exists j t, session_r (floats_in p emin emax over) o ops h = Ok j /\ get_posteriors_r (floats_in p emin emax over) j = Ok t /\
      Permutation (map fst t) (map (net_name ops) (vars N)) /\ forall i, In i (vars N) -> exists row, dget t (net_name ops i) = Some row /\ row_within (ulp_factor p) k N L i row.
Proof. exact c89_posteriors. Qed.
Print Assumptions C89_posteriors_partial.

(** In binary64, two signs of probability 2^-700 or 2^-699 each are seen, and the posteriors of the cause are reported as 0 and 0 instead of 1/5 and 4/5. *)
Theorem C89_none_refuted : forall over, (let N := net_of (signs (-700)) in let L := in_force N (calls (both_seen (-700))) in exact_posterior N L 1 "x" = qfrac 1 5 /\ exact_posterior N L 1 "y" = qfrac 4 5) /\
  exists j t, session_r (ieee64 over) ord_id (signs (-700)) (both_seen (-700)) = Ok j /\ get_posteriors_r (ieee64 over) j = Ok t /\ dget t "cause" = Some [("x", 0); ("y", 0)].
Proof. exact c89_none. Qed.
Print Assumptions C89_none_refuted.

(** With the probabilities 2^-537 and 2^-536 they are reported as 0 and 1: what is four times as likely is reported as certain. *)
Theorem C89_sure_refuted : forall over, (let N := net_of (signs (-537)) in let L := in_force N (calls (both_seen (-537))) in exact_posterior N L 1 "x" = qfrac 1 5 /\ exact_posterior N L 1 "y" = qfrac 4 5) /\
  exists j t, session_r (ieee64 over) ord_id (signs (-537)) (both_seen (-537)) = Ok j /\ get_posteriors_r (ieee64 over) j = Ok t /\ dget t "cause" = Some [("x", 0); ("y", 1)].
Proof. exact c89_sure. Qed.
Print Assumptions C89_sure_refuted.

(** the networks and histories meet the conditions of the other theorems; with 2^-500 and 2^-499 the posteriors are the doubles nearest to 1/5 and 4/5 *)
Example C89_case : (well_shaped (signs (-700)) /\ connected (signs (-700)) /\ valid_history (net_of (signs (-700))) (both_seen (-700)) /\ Forall hard_call (calls (both_seen (-700)))) /\
  (well_shaped (signs (-537)) /\ connected (signs (-537)) /\ valid_history (net_of (signs (-537))) (both_seen (-537)) /\ Forall hard_call (calls (both_seen (-537)))) /\
  stochastic (net_of (signs (-700))) /\ stochastic (net_of (signs (-537))).
Proof. exact c89_case. Qed.
Example C89_fine : forall over, match row_of (ieee64 over) (signs (-500)) (both_seen (-500)) "cause" with Some m => same_rowb m [("x", digits 53 (qfrac 1 5)); ("y", digits 53 (qfrac 4 5))] | None => false end = true.
Proof. exact c89_fine. Qed.
