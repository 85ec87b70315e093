(** Evidence calls either leave the tables alone or compute them anew. *)
From Verif Require Import Py M_Graph M_Node M_Pptc M_Round Spec SpecNet SpecEv SpecRound L_Base L_Round4.

Lemma c92_change j es c : get_change_type j es = Ok c -> c = CNone \/ c = CRetraction.
Proof. intros E. pose proof (never_update j es c E). destruct c; auto. congruence. Qed.
Lemma set_jevid_same j : set_jevid j (jt_evid j) = j. Proof. destruct j; auto. Qed.
Lemma store_shape es : forall j j' x, store_evidences j es = (j', x) -> exists ev, j' = set_jevid j ev.
Proof.
  induction es as [|e es IH]; intros j j' x E; cbn [store_evidences] in E. { inversion E; subst. exists (jt_evid j'). rewrite set_jevid_same. auto. }
  destruct (dget (jt_evid j) (ev_node e)) as [m|]; [|inversion E; subst; exists (jt_evid j'); rewrite set_jevid_same; auto]. destruct (store_values m (ev_values e)) as [m' [y|]]. { inversion E; subst. eauto. }
  apply IH in E. destruct E as [ev ->]. exists ev. reflexivity.
Qed.
Definition anew (o : Ord) (j : jtree) (p : jtree * option exn) : Prop :=
  exists ev, fst p = set_jevid j ev \/ (snd p = None /\ (j1 <- initialize (set_jevid j ev) ;; propagate o j1) = Ok (fst p)).
Lemma anew_err o j x : anew o j (j, x).
Proof. exists (jt_evid j). left. cbn. symmetry. apply set_jevid_same. Qed.
Lemma update_anew o j es : anew o j (update_evidences o j es).
Proof.
  unfold update_evidences. destruct (mapM validate es) as [es'|]; [|apply anew_err]. destruct (get_change_type j es') as [c|] eqn:Ec; [|apply anew_err]. destruct (store_evidences j es') as [j1 x] eqn:Es. destruct (store_shape _ _ _ _ Es) as [ev ->]. exists ev.
  destruct x as [x|]; [left; reflexivity|]. unfold notify. destruct (jt_listener (set_jevid j ev)); [|left; reflexivity]. destruct (c92_change _ _ _ Ec) as [-> | ->]; [left; reflexivity|].
  destruct (j2 <- initialize (set_jevid j ev) ;; propagate o j2) as [j3|]; [right|left]; auto.
Qed.
Lemma c92_calls o j c : anew o j (do_call o j c).
Proof.
  destruct c as [es|ns| |e]; cbn [do_call].
  - apply update_anew.
  - unfold unobserve. apply update_anew.
  - unfold unobserve_all. destruct (mapM _ _); [apply update_anew|apply anew_err].
  - unfold set_observation. destruct (dget (jt_evid j) (ev_node e)) as [m|]; [|apply anew_err]. destruct (convert m) as [pv|]; [|apply anew_err]. cbv zeta.
    repeat match goal with |- context [match ?x with _ => _ end] => destruct x end; try apply anew_err; apply update_anew.
Qed.
