(** Rounded sessions: one exponent for all histories. *)
From Verif Require Import Py M_Graph M_Node M_Pptc M_Round Spec SpecNet SpecEv SpecRound L_Base L_Table L_Post L_Forest L_Root L_Good L_Elim L_Init L_Exact L_Apply L_Build L_Net L_Evid L_Hist L_P1 L_Door L_Round L_Round2 L_Round3 L_Round4 L_Size.
Open Scope nat_scope.

Definition room_of (ops : list bop) : nat := size (dom (net_of ops)) (vars (net_of ops)) + 2 * List.length (vars (net_of ops)) + 2.
Lemma room_of_ok ops : room (room_of ops) (net_of ops).
Proof. unfold room_of. constructor; lia. Qed.
Lemma compile_tpos ops o j : well_shaped ops -> ord_ok o -> compile o (build ops) = Ok j -> tpos (room_of ops) j.
Proof.
  intros HW Ho E. pose proof (net_shape ops HW) as HN. pose proof (build_good ops) as HB. destruct (compile_len _ _ _ o j HN HB Ho E) as [L1 L2]. pose proof (seps_fewer j L2) as L3.
  destruct (apply_net _ _ _ o HN HB (ws_names _ HW) Ho (build_fresh ops HW)) as [j0 [_ [A1 [A2 [A3 _]]]]]. rewrite E in A1. inversion A1; subst j0.
  apply (jnet_tpos _ (net_of ops) (net_name ops)); auto. { apply room_of_ok. } { unfold walk_fuel, room_of. rewrite nodes_len. lia. }
  destruct (compile_full _ _ _ HN HB o Ho) as [u [Ks [j' [F [C1 [C2 [C3 [C4 [C5 [C6 [C7 [C8 [C9 _]]]]]]]]]]]]]. rewrite E in C1. inversion C1; subst j'. rewrite C9. constructor; [discriminate|intros x []|constructor].
Qed.
Lemma tpos_listens B j b : tpos B j -> tpos B (set_jlistener j b). Proof. intros [H1 H2 H3 H4 H5 H6 H7 H8 H9 H10]. constructor; auto. Qed.
Lemma jsim_listens r k j j' b : jsim r k j j' -> jsim r k (set_jlistener j b) (set_jlistener j' b).
Proof. intros [A2 A3]. split; auto. rewrite A2. destruct j; reflexivity. Qed.
Lemma compile_self ops o j r : well_shaped ops -> ord_ok o -> compile o (build ops) = Ok j -> jsim r 0 j j.
Proof.
  intros HW Ho Ec. split. { destruct j; auto. } pose proof (compile_full _ _ _ (net_shape ops HW) (build_good ops) o Ho) as [u [Ks [j' [F [C1 [C2 [C3 [C4 [C5 [C6 [C7 [C8 [C9 _]]]]]]]]]]]]]. rewrite Ec in C1. inversion C1; subst j'. rewrite C9. constructor.
Qed.
(** one exponent per network *)
Definition drift (ops : list bop) : nat := gcall (room_of ops) (ginfer (room_of ops)).
Definition spread_of (ops : list bop) : nat := gread (room_of ops) (drift ops).

Theorem session_follows ops o h j : well_shaped ops -> ord_ok o -> valid_history (net_of ops) h -> session o ops h = Ok j ->
  tpos (room_of ops) j /\ near (fun r a => exists j', session_r a o ops h = Ok j' /\ jsim r (drift ops) j j').
Proof.
  intros HW Ho Hh E. unfold session in E. rewrite apply_compile in E. destruct (compile o (build ops)) as [jc|] eqn:Ec; cbn [rbind] in E; [|discriminate].
  pose proof (compile_tpos ops o jc HW Ho Ec) as Hc. destruct (infer_follows _ o jc Ho Hc) as [F1 F2]. destruct (infer o jc) as [ji|] eqn:Ei; cbn [rbind snd] in E; [|discriminate].
  assert (Hl : tpos (room_of ops) (set_jlistener ji true)) by (apply tpos_listens; auto).
  destruct (calls_trail _ (net_of ops) (ws_dom _ HW) h Hh (set_jlistener ji true) Hl) as [G1 G2]. split. { apply G2. exact E. }
  eapply near_2; [exact (F1 ji Ei 0)|exact (G1 j E (ginfer (room_of ops)))|]. intros r a _ N1 N2. unfold session_r. rewrite apply_compile_r, Ec. cbn [rbind].
  destruct (N1 jc (compile_self ops o jc r HW Ho Ec)) as [ji' [A1 A2]]. rewrite A1. cbn [rbind snd]. apply (N2 (set_jlistener ji' true)). apply jsim_listens; auto.
Qed.

Theorem c89_follows ops o h j t : well_shaped ops -> ord_ok o -> valid_history (net_of ops) h -> session o ops h = Ok j -> get_posteriors j = Ok t ->
  near (fun r a => exists j' t', session_r a o ops h = Ok j' /\ get_posteriors_r a j' = Ok t' /\ table_within r (spread_of ops) t t').
Proof.
  intros HW Ho Hh E Et. destruct (session_follows ops o h j HW Ho Hh E) as [HP K]. eapply near_2; [exact K|exact (posteriors_follow _ j t HP Et (drift ops))|]. intros r a _ N1 N2.
  destruct N1 as [j' [A1 A2]]. destruct (N2 j' A2) as [t' [B1 B2]]. eauto.
Qed.
Theorem c80_follows ops o h j t : well_shaped ops -> ord_ok o -> valid_history (net_of ops) h -> session o ops h = Ok j -> get_posteriors j = Ok t ->
  forall r a, accurate r a -> exists j' t', session_r a o ops h = Ok j' /\ get_posteriors_r a j' = Ok t' /\ table_within r (spread_of ops) t t'.
Proof. intros HW Ho Hh E Et r a Ha. exact (near_accurate _ r a (c89_follows ops o h j t HW Ho Hh E Et) Ha). Qed.
