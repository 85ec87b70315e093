(** The examples of PropWeigh and PropOrder, and a witness. *)
From Verif Require Import Py M_Node M_Pptc Spec SpecNet SpecEv SpecSep SpecCohere L_Base L_Check Ex L_R1 L_SepEx L_CohereEx L_VirtEx.
Local Open Scope string_scope.

Definition answersb (o : Ord) (ops : list bop) (h : history) (name v : string) (p : Qc) : bool :=
  match session o ops h with Ok j => match reported j name v with Some q => qeqb q p | None => false end | Err _ => false end.
Lemma answersb_ok o ops h name v p : answersb o ops h name v p = true <-> answers o ops h name v p.
Proof.
  unfold answersb, answers. split.
  - destruct (session o ops h) as [j|]; [|discriminate]. destruct (reported j name v) as [q|] eqn:E; [|discriminate]. intros H. apply qeqb_true in H. subst. exists j. auto.
  - intros (j & E & R). rewrite E, R. apply qeqb_true. reflexivity.
Qed.
Lemma answersb_no o ops h name v p : answersb o ops h name v p = false -> ~ answers o ops h name v p.
Proof. intros H A. apply answersb_ok in A. congruence. Qed.

(** the weighted average, and the odds, computed from what is reported *)
Definition weighs_holds (ops : list bop) (h : history) (e : evidence) (k : Z) : bool :=
  let i := ev_node e in let h' := (h ++ [(ord_id, Update [e])])%list in
  forallb (fun y => qeqb (told ops h' k y * qsum (map (fun v => like_of e v * told ops h i v)%Qc (net_dom ops i)))
                         (qsum (map (fun v => like_of e v * told ops h i v * told ops (with_one ops h i v) k y)%Qc (net_dom ops i)))) (net_dom ops k).
Definition odds_holds (ops : list bop) (h : history) (e : evidence) : bool :=
  let i := ev_node e in let h' := (h ++ [(ord_id, Update [e])])%list in
  forallb (fun v => forallb (fun w => qeqb (told ops h' i v * (like_of e w * told ops h i w)) (told ops h' i w * (like_of e v * told ops h i v))) (net_dom ops i)) (net_dom ops i).

(** after likelihoods 1 and 1/2 for [d]: the likelihoods 1 and 1/10 are overlooked until [b] is observed *)
Definition before_swap : history := [(ord_id, virtual_d 1%Qc (qfrac 1 2))].
Definition overlooked_es : list evidence := [build_evidence n_d VIRTUAL [("t", 1%Qc); ("f", qfrac 1 10)]].
Definition b_es : list evidence := [build_evidence n_b OBSERVATION [("x", 1%Qc)]].
Definition swap_p : Qc := told diamond (before_swap ++ [(ord_id, Update overlooked_es); (ord_id, Update b_es)])%list 30 "t".
Lemma c107_refuted : exists ops o h1 o1 o2 es es' k y p, well_shaped ops /\ connected ops /\ ord_ok o /\ let N := net_of ops in
  valid_history N (h1 ++ [(o1, Update es); (o2, Update es')])%list /\ (forall e e', In e es -> In e' es' -> ev_node e <> ev_node e') /\ In k (vars N) /\ In y (dom N k) /\
  answers o ops (h1 ++ [(o1, Update es); (o2, Update es')])%list (net_name ops k) y p /\ ~ answers o ops (h1 ++ [(o2, Update es'); (o1, Update es)])%list (net_name ops k) y p.
Proof.
  exists diamond, ord_rev, before_swap, ord_id, ord_id, overlooked_es, b_es, 30%Z, "t", swap_p. split; [exact diamond_ok|]. split; [exact diamond_connected|]. split; [apply ord_rev_ok|]. cbv zeta.
  split; [split; [orders|apply valid_calls_ok; vm_compute; reflexivity]|]. split; [intros e e' [<-|[]] [<-|[]]; discriminate|]. split; [vm_compute; tauto|]. split; [vm_compute; tauto|].
  split; [apply answersb_ok|apply answersb_no]; vm_compute; reflexivity.
Qed.

(** soft evidence on [b] and the observation of [c], with more calls before and after *)
Definition c_es : list evidence := [e_c_on].
Definition later : history := [(ord_rev, SetObservation e_d_t)].
