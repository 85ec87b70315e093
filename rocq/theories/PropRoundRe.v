(** Properties of rounded inference with new CPTs and restored trees. Nothing but theorems and examples. *)
From Verif Require Import Py M_Graph M_Node M_Pptc M_Serde M_Round M_Round2 Spec SpecNet SpecEv SpecRe SpecSer SpecPart SpecLost SpecRound L_Base L_Check Ex L_R1 L_R7 L_R8 L_LostEx L_RoundRe L_RoundReEx.
Local Open Scope string_scope.
Local Open Scope list_scope.
Local Open Scope Qc_scope.

(** C90: when nothing is rounded the model with rounding is the model without; *)
Theorem C90_identity : forall o ops l, journey_r exactly o ops l = journey o ops l.
Proof. exact c90_identity. Qed.
Print Assumptions C90_identity.

(** on every network, after any evidence calls, reapply calls, and saving and restoring in any order, in any arithmetic accurate up
    to the factor [r], no call raises and every posterior is that of exact arithmetic up to the factor [r ^ k], where [k] depends on
    the network only (what exact arithmetic gives is described in C19); *)
Theorem C90_follows : forall ops, well_shaped ops -> exists k, forall o l s, ord_ok o -> went (start ops) l s ->
  exists j t, journey o ops l = Ok j /\ get_posteriors j = Ok t /\ described (fst s) (net_name ops) (snd (snd s)) (jt_cliques j) t /\
  forall r a, accurate r a -> exists j' t', journey_r a o ops l = Ok j' /\ get_posteriors_r a j' = Ok t' /\ table_within r k t t'.
Proof. exact c90_follows. Qed.
Print Assumptions C90_follows.

(** so is every posterior in floating point with exponents from -e to e or more; *)
Theorem C90_range : forall ops, well_shaped ops -> exists k, forall o l s, ord_ok o -> went (start ops) l s ->
  exists j t, journey o ops l = Ok j /\ get_posteriors j = Ok t /\
  exists e, forall p emin emax over, (1 <= p)%Z -> (emin <= - e)%Z -> (e <= emax)%Z ->
    exists j' t', journey_r (floats_in p emin emax over) o ops l = Ok j' /\ get_posteriors_r (floats_in p emin emax over) j' = Ok t' /\ table_within (ulp_factor p) k t t'.
Proof. exact c90_range. Qed.
Print Assumptions C90_range.

(** on a connected network: the exact posteriors of the network with the CPTs in force, given the evidence shown, up to that factor; *)
Theorem C90_posteriors : forall ops, well_shaped ops -> connected ops -> exists k, forall o l, ord_ok o -> acts_ok (start ops) l ->
  let s := fold_left after_act l (start ops) in
  (forall r a, accurate r a -> exists j t, journey_r a o ops l = Ok j /\ get_posteriors_r a j = Ok t /\
      Permutation (map fst t) (map (net_name ops) (vars (fst s))) /\
      forall i, In i (vars (fst s)) -> exists row, dget t (net_name ops i) = Some row /\ row_within r k (fst s) (snd (snd s)) i row) /\
    exists e, forall p emin emax over, (1 <= p)%Z -> (emin <= - e)%Z -> (e <= emax)%Z ->
      exists j t, journey_r (floats_in p emin emax over) o ops l = Ok j /\ get_posteriors_r (floats_in p emin emax over) j = Ok t /\
      Permutation (map fst t) (map (net_name ops) (vars (fst s))) /\
      forall i, In i (vars (fst s)) -> exists row, dget t (net_name ops i) = Some row /\ row_within (ulp_factor p) k (fst s) (snd (snd s)) i row.
Proof. exact c90_posteriors. Qed.
Print Assumptions C90_posteriors.

(** and with enough digits every posterior is as close to the exact one as one likes, however many calls are made and whatever the new CPTs. *)
Theorem C90_limit : forall ops, well_shaped ops -> connected ops -> forall e, 0 < e -> exists p0, forall p, (p0 <= p)%Z ->
  forall o l, ord_ok o -> acts_ok (start ops) l -> let s := fold_left after_act l (start ops) in
  exists j t, journey_r (floats p) o ops l = Ok j /\ get_posteriors_r (floats p) j = Ok t /\
    forall i, In i (vars (fst s)) -> exists row, dget t (net_name ops i) = Some row /\
      Forall2 (fun y q => fst q = y /\ exact_posterior (fst s) (snd (snd s)) i y - e <= snd q /\ snd q <= exact_posterior (fst s) (snd (snd s)) i y + e) (dom (fst s) i) row.
Proof. exact c90_limit. Qed.
Print Assumptions C90_limit.

(** saved with evidence, restored, evidence, new CPTs, saved, restored, evidence: in binary64 every posterior is within 10^-15 of the exact
    one, though not within 10^-17, with three digits within 1/10 but not within 1/100 *)
Example C90_case : well_shaped diamond /\ connected diamond /\ acts_ok (start diamond) mixed_acts /\ well_shaped pieces /\ went (start pieces) pieces_acts pieces_end.
Proof. split; [exact diamond_ok|]. split; [exact diamond_connected|]. split; [exact mixed_ok|]. split; [exact pieces_ok|exact pieces_went]. Qed.
Example C90_near : forall over, journey_nearb (ieee64 over) (qfrac 1 1000000000000000) diamond mixed_acts = true /\ journey_nearb (ieee64 over) (qfrac 1 100000000000000000) diamond mixed_acts = false /\
  journey_nearb (floats 3) (qfrac 1 10) diamond mixed_acts = true /\ journey_nearb (floats 3) (qfrac 1 100) diamond mixed_acts = false.
Proof. intros over. repeat split; vm_compute; reflexivity. Qed.
