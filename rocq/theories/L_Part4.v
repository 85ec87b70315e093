(** Sessions on networks in any number of parts. *)
From Verif Require Import Py M_Graph M_Node M_Pptc Spec SpecNet SpecEv SpecRe SpecPart L_Base L_PD L_Sums L_Table L_Tree L_Walk L_Forest L_Root L_Good L_Prop L_Init L_Post L_Read
  L_Ids L_Trans L_Elim L_UG L_Tri L_Moral L_Build L_Exact L_Apply L_Net L_Evid L_Hist L_Claims L_Shape L_Shown L_P1 L_Reapply L_Det L_Again L_Part L_Part2 L_Part3.
Open Scope nat_scope.

(** ** states along a session *)
Section Along.
  Context (N : net) (nm : Z -> string) (HN : nshape N) (Hnm : NoDup (map nm (vars N))).

  Lemma shows_situ L S j : shows N nm L S j -> tight N j -> placed N j -> situ N nm S j.
  Proof. clear. intros H T P. constructor; auto. apply (sw_live _ _ _ _ _ H). Qed.

  (** any bbn object for the network [N] with fresh nodes *)
  Lemma fresh_situ b o h : bgood N nm b -> ord_ok o -> (forall i n, In (i, n) (g_nodes (b_g b)) -> n_mclq n = None) -> valid_history N h ->
    exists j0 b' j j', compile o b = Ok j0 /\ apply o b = Ok (b', j) /\ do_calls j h = (j', None) /\ jt_nodes j = jt_nodes j0 /\ jt_nodes j' = jt_nodes j0 /\
      situ N nm no_evidence j /\ situ N nm (shown N (calls h)) j'.
  Proof using HN Hnm.
    intros HB Ho Hf [H1 H2]. destruct (apply_placed N nm HN Hnm b o HB Ho Hf) as [j0 [b' [j [A1 [A2 [A3 [A4 [A5 A6]]]]]]]].
    destruct (calls_shows N nm (ns_nd _ HN) Hnm (ns_dom _ HN) h H1 (no_evidence, no_evidence) j) as [j' [B1 [B2 B3]]]; auto. { apply live_shows; auto. apply unit_none. }
    exists j0, b', j, j'. split; auto. split; auto. split; auto. split; auto. split; [congruence|].
    pose proof (keeps_calls _ _ _ B1) as K. split; [apply shows_situ with no_evidence; auto; apply live_shows; auto; apply unit_none|].
    eapply shows_situ; [exact B2|apply tight_ext with j; auto|apply placed_keeps with j; auto].
  Qed.
End Along.

Lemma session_situ ops o h : well_shaped ops -> ord_ok o -> valid_history (net_of ops) h ->
  exists j0 b j j', compile o (build ops) = Ok j0 /\ apply o (build ops) = Ok (b, j) /\ do_calls j h = (j', None) /\ session o ops h = Ok j' /\ jt_nodes j = jt_nodes j0 /\ jt_nodes j' = jt_nodes j0 /\
    situ (net_of ops) (net_name ops) no_evidence j /\ situ (net_of ops) (net_name ops) (shown (net_of ops) (calls h)) j'.
Proof.
  intros HW Ho Hh. destruct (fresh_situ (net_of ops) (net_name ops) (net_shape ops HW) (ws_names _ HW) (build ops) o h (build_good ops) Ho (build_fresh ops HW) Hh) as [j0 [b [j [j' [A1 [A2 [A3 [A4 [A5 [A6 A7]]]]]]]]]].
  exists j0, b, j, j'. repeat (split; auto). eapply session_eq; eauto.
Qed.

Lemma nodes_cl j j' : jt_nodes j' = jt_nodes j -> jt_cliques j' = jt_cliques j.
Proof. unfold jt_cliques. intros ->; auto. Qed.
Lemma nodes_ids j j' : jt_nodes j' = jt_nodes j -> jt_bbn_ids j' = jt_bbn_ids j.
Proof. unfold jt_bbn_ids, jt_cliques. intros ->; auto. Qed.
Lemma clsim_refl c : clsim c c. Proof. split; auto. Qed.
Lemma sims_refl cs : Forall2 clsim cs cs. Proof. induction cs; constructor; auto using clsim_refl. Qed.

Lemma sims_compile ops o1 o2 j1 j2 : well_shaped ops -> ord_ok o1 -> ord_ok o2 -> compile o1 (build ops) = Ok j1 -> compile o2 (build ops) = Ok j2 -> Forall2 clsim (jt_cliques j1) (jt_cliques j2).
Proof. intros HW O1 O2. eapply (cliques_same (net_of ops) (net_of ops) (net_name ops) (net_name ops)); auto using net_shape, build_good. Qed.

(** ** the claims *)
Lemma situ_described N nm L j : nshape N -> NoDup (map nm (vars N)) -> situ N nm L j -> exists t, get_posteriors j = Ok t /\ described N nm L (jt_cliques j) t.
Proof.
  intros HN Hnm A. destruct (situ_reads N _ HN Hnm L j A) as [x [V [f [home [R1 [R2 [R3 [R4 [R5 [R6 [R7 [R8 R9]]]]]]]]]]]]. pose proof (situ_perm N _ HN L j A) as P.
  eexists. split; [exact R7|]. split. { rewrite map_map. simpl. apply Permutation_map; auto. }
  exists x, V, home. split; auto. split; auto. split; auto. split; auto. split; auto. intros i Hi.
  rewrite (table_get N nm Hnm f _ i P Hi). split; intros Hv; f_equal; apply map_ext_in; intros y Hy; f_equal; auto.
Qed.

Lemma c04_described ops o h : well_shaped ops -> ord_ok o -> valid_history (net_of ops) h ->
  exists j t, session o ops h = Ok j /\ get_posteriors j = Ok t /\ described (net_of ops) (net_name ops) (shown (net_of ops) (calls h)) (jt_cliques j) t.
Proof.
  intros HW Ho Hh. destruct (session_situ ops o h HW Ho Hh) as [j0 [b [j [j' [A1 [A2 [A3 [A4 [A5 [A6 [A7 A8]]]]]]]]]]].
  destruct (situ_described _ _ _ _ (net_shape ops HW) (ws_names _ HW) A8) as [t [T1 T2]]. exists j', t. auto.
Qed.

Lemma c04_alone ops o h : well_shaped ops -> ord_ok o -> valid_history (net_of ops) h -> let N := net_of ops in let L := shown N (calls h) in possible N L ->
  exists j t, session o ops h = Ok j /\ get_posteriors j = Ok t /\
    forall c i, In c (jt_cliques j) -> In i (vars N) -> (forall k, path (sym (is_parent N)) i k -> In k (cl_nodes c)) ->
      dget t (net_name ops i) = Some (map (fun y => (y, exact_posterior N L i y)) (dom N i)).
Proof.
  intros HW Ho Hh N L Hp. destruct (session_situ ops o h HW Ho Hh) as [j0 [b [j [j' [A1 [A2 [A3 [A4 [A5 [A6 [A7 A8]]]]]]]]]]].
  destruct (situ_alone N _ (net_shape ops HW) (ws_names _ HW) L j' A8 Hp) as [t [T1 T2]]. exists j', t. auto.
Qed.

Lemma c05_any ops o h : well_shaped ops -> ord_ok o -> valid_history (net_of ops) h -> let N := net_of ops in let L := shown N (calls h) in
  exists j t, session o ops h = Ok j /\ get_posteriors j = Ok t /\ Permutation (map fst t) (map (net_name ops) (vars N)) /\
    forall i, In i (vars N) -> exists m, dget t (net_name ops i) = Some m /\ map fst m = dom N i /\ (forall q, In q (map snd m) -> (0 <= q)%Qc) /\
      (qsum (map snd m) = 1%Qc \/ forall q, In q (map snd m) -> q = 0%Qc) /\ (possible N L -> qsum (map snd m) = 1%Qc).
Proof.
  intros HW Ho Hh N L. destruct (session_situ ops o h HW Ho Hh) as [j0 [b [j [j' [A1 [A2 [A3 [A4 [A5 [A6 [A7 A8]]]]]]]]]]].
  pose proof (net_shape ops HW) as HN. fold N in HN, A7, A8. fold L in A8.
  destruct (situ_parts N _ HN (ws_names _ HW) L j' A8) as [t [T1 [T2 T3]]]. exists j', t. split; auto. split; auto. split; auto.
  intros i Hi. destruct (T3 i Hi) as [C [l [P E]]]. pose proof (situ_pos _ _ _ _ A8) as HL. eexists. split; [exact E|]. rewrite !map_map. simpl. split; [apply map_id|].
  split. { intros q Hq. apply in_map_iff in Hq. destruct Hq as [y [<- _]]. apply from_nonneg; auto. }
  split; [|intros Hp; apply from_sum; auto; apply (from_possible N L HN HL C l i P Hp)].
  destruct (Qc_eq_dec (sums (dom N) C (weight_of N L l) no_asg) 0%Qc) as [Z|Z]; [right|left; apply from_sum; auto].
  intros q Hq. apply in_map_iff in Hq. destruct Hq as [y [<- _]]. apply from_zero; auto.
Qed.

Lemma same_tables (A : Type) (nm : Z -> string) (f : Z -> A) ids1 ids2 : NoDup (map nm ids1) -> Permutation ids1 ids2 ->
  let t1 := map (fun i => (nm i, f i)) ids1 in let t2 := map (fun i => (nm i, f i)) ids2 in
  Permutation (map fst t1) (map fst t2) /\ forall k, dget t1 k = dget t2 k.
Proof.
  intros ND P t1 t2. assert (Q : Permutation t1 t2) by (apply Permutation_map; auto). split; [apply Permutation_map; auto|]. intros k.
  assert (N1 : NoDup (dkeys t1)) by (unfold dkeys, t1; rewrite map_map; exact ND).
  assert (N2 : NoDup (dkeys t2)). { eapply Permutation_NoDup; [|exact N1]. apply Permutation_map; auto. }
  destruct (dget t1 k) as [v|] eqn:E.
  - symmetry. apply dget_In_NoDup; auto. apply (Permutation_in _ Q). apply dget_In; auto.
  - symmetry. apply dget_None. apply dget_None in E. intros H. apply E. apply (Permutation_in _ (Permutation_sym (Permutation_map fst Q))). exact H.
Qed.

Lemma c06_any ops o1 o2 h1 h2 : well_shaped ops -> ord_ok o1 -> ord_ok o2 -> valid_history (net_of ops) h1 -> valid_history (net_of ops) h2 -> calls h1 = calls h2 ->
  exists j1 j2 t1 t2, session o1 ops h1 = Ok j1 /\ session o2 ops h2 = Ok j2 /\ get_posteriors j1 = Ok t1 /\ get_posteriors j2 = Ok t2 /\
    Permutation (map fst t1) (map fst t2) /\ forall k, dget t1 k = dget t2 k.
Proof.
  intros HW O1 O2 H1 H2 E. destruct (session_situ ops o1 h1 HW O1 H1) as [j0 [b [j [j' [A1 [A2 [A3 [A4 [A5 [A6 [A7 A8]]]]]]]]]]].
  destruct (session_situ ops o2 h2 HW O2 H2) as [k0 [b' [k [k' [B1 [B2 [B3 [B4 [B5 [B6 [B7 B8]]]]]]]]]]]. rewrite E in A8.
  set (N := net_of ops) in *. pose proof (net_shape ops HW) as HN. fold N in HN.
  destruct (situ_same N (net_name ops) HN (ws_names _ HW) _ _ j' k' A8 B8) as [f [F1 F2]].
  { apply agree_refl. }
  { rewrite (nodes_cl _ _ A6), (nodes_cl _ _ B6). exact (sims_compile ops o1 o2 j0 k0 HW O1 O2 A1 B1). }
  pose proof (situ_perm N _ HN _ _ A8) as P1. pose proof (situ_perm N _ HN _ _ B8) as P2.
  exists j', k'. eexists _, _. split; auto. split; auto. split; [exact F1|]. split; [exact F2|]. apply same_tables.
  - eapply Permutation_NoDup; [|exact (ws_names _ HW)]. apply Permutation_map, Permutation_sym, P1.
  - rewrite P1, P2. reflexivity.
Qed.

Lemma c13_any ops o h o' : well_shaped ops -> ord_ok o -> valid_history (net_of ops) h -> ord_ok o' ->
  exists b j j' t, apply o (build ops) = Ok (b, j) /\ do_calls j (h ++ [(o', UnobserveAll)]) = (j', None) /\ get_posteriors j = Ok t /\ get_posteriors j' = Ok t.
Proof.
  intros HW Ho Hh Ho'. set (N := net_of ops).
  assert (Hh' : valid_history N (h ++ [(o', UnobserveAll)])).
  { destruct Hh as [H1 H2]. split. apply Forall_app; split; auto. unfold calls. rewrite map_app. apply Forall_app; split; auto. constructor; simpl; auto. }
  destruct (session_situ ops o _ HW Ho Hh') as [j0 [b [j [j' [A1 [A2 [A3 [A4 [A5 [A6 [A7 A8]]]]]]]]]]]. fold N in A7, A8. pose proof (net_shape ops HW) as HN. fold N in HN.
  destruct (situ_same N (net_name ops) HN (ws_names _ HW) _ _ j j' A7 A8) as [f [F1 F2]].
  { apply agree_sym. unfold calls. rewrite map_app. apply (shown_unobserve_all ops o h); auto. }
  { rewrite (nodes_cl _ _ A5), (nodes_cl _ _ A6). apply sims_refl. }
  exists b, j, j'. eexists. split; auto. split; auto. split; [exact F1|]. rewrite F2, (nodes_ids _ _ A5), (nodes_ids _ _ A6). auto.
Qed.

Lemma possible_agree N L L' : agree N L L' -> possible N L -> possible N L'.
Proof. intros H Hp. unfold possible in *. replace (total N L') with (total N L); auto. apply sums_ext_gen. intros b _ Hb. apply weight_agree; auto. Qed.

Lemma c46_any ops o h o' n v : well_shaped ops -> ord_ok o -> valid_history (net_of ops) h -> Forall hard_call (calls h) -> ord_ok o' ->
  node_in (net_of ops) n -> In v (n_values n) ->
  let obs := Update [build_evidence n OBSERVATION [(v, 1%Qc)]] in
  possible (net_of ops) (in_force (net_of ops) (calls h ++ [obs])) ->
  exists j t, session o ops (h ++ [(o', obs)]) = Ok j /\ get_posteriors j = Ok t /\
    dget t (net_name ops (n_id n)) = Some (map (fun w => (w, if String.eqb w v then 1%Qc else 0%Qc)) (n_values n)).
Proof.
  intros HW Ho Hh Hd Ho' [Hn1 Hn2] Hv obs Hp. set (N := net_of ops) in *. pose proof (net_shape ops HW) as HN. fold N in HN.
  destruct (ns_dom _ HN _ Hn1) as [D1 D2].
  assert (Hk : valid_call N obs).
  { constructor; [|constructor]. split; [exact Hn1|]. split; [exact Hn2|]. simpl. split; [constructor; [intros []|constructor]|]. intros x [<-|[]]; auto. }
  assert (Hh' : valid_history N (h ++ [(o', obs)])).
  { destruct Hh as [H1 H2]. split. apply Forall_app; split; auto. unfold calls. rewrite map_app. apply Forall_app; split; auto. constructor; auto. }
  assert (Hd' : Forall hard_call (calls (h ++ [(o', obs)]))).
  { unfold calls. rewrite map_app. apply Forall_app; split; auto. constructor; auto. constructor; [|constructor]. discriminate. }
  assert (Ec : calls (h ++ [(o', obs)]) = calls h ++ [obs]) by (unfold calls; rewrite map_app; auto).
  pose proof (hard_shown ops _ HW (proj2 Hh') Hd') as HA. fold N in HA. rewrite Ec in HA.
  assert (EL : forall x, In x (dom N (n_id n)) -> shown N (calls h ++ [obs]) (n_id n) x = if String.eqb x v then 1%Qc else 0%Qc).
  { intros x Hx. rewrite HA by auto. unfold in_force. rewrite fold_left_app. cbn [fold_left effect]. unfold obs. cbn [effect fold_left]. unfold assimilate. simpl ev_node. rewrite Z.eqb_refl. apply observe_like; auto. rewrite Hn2; auto. }
  destruct (session_situ ops o _ HW Ho Hh') as [j0 [b [j [j' [A1 [A2 [A3 [A4 [A5 [A6 [A7 A8]]]]]]]]]]]. fold N in A7, A8. rewrite Ec in A8.
  destruct (situ_parts N _ HN (ws_names _ HW) _ j' A8) as [t [T1 [T2 T3]]]. exists j', t. split; auto. split; auto. destruct (T3 _ Hn1) as [C [l [P E]]]. rewrite E, Hn2. f_equal. apply map_ext_in. intros w Hw. f_equal.
  apply (from_point N _ HN (situ_pos _ _ _ _ A8) C l _ P); auto.
  - rewrite <- Hn2; auto.
  - apply possible_agree with (in_force N (calls h ++ [obs])); auto. apply agree_sym; auto.
  - intros y Hy Hne. rewrite EL by auto. destruct (String.eqb_spec y v); congruence.
Qed.
