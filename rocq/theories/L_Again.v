(** apply called again on a network object it has already worked on. *)
From Verif Require Import Py M_Graph M_Node M_Pptc Spec SpecNet SpecEv SpecRe SpecAgain L_Base L_PD L_Sums L_Table L_Tree L_Walk L_Forest L_Root L_Good L_Prop L_Init L_Post L_Read
  L_Ids L_Trans L_Elim L_UG L_Tri L_Moral L_Build L_Exact L_Apply L_Net L_Evid L_Hist L_Claims L_Shape L_Shown L_P1 L_Reapply L_Det.
Open Scope nat_scope.

(** ** the cliques depend on the structure alone *)
Lemma idw_gp N nm b : bgood N nm b -> map idw (get_nodes (gp N b)) = map (fun i => (i, Z.of_nat (List.length (dom N i)))) (vars N).
Proof.
  intros HB. rewrite <- (ids_gp N nm b HB). unfold get_nodes, dvals, ids, dkeys. rewrite !map_map. apply map_ext_in. intros [k n] Hk. simpl.
  unfold gp in Hk. simpl in Hk. unfold hp in Hk. apply in_map_iff in Hk. destruct Hk as [[k' n'] [E Hk]]. unfold with_pot in E. simpl in E. inversion E; subst.
  destruct (bg_node _ _ _ HB k n' Hk) as [B1 [B2 [B3 B4]]]. unfold idw, n_weight. simpl. rewrite B1, B3. reflexivity.
Qed.

Theorem cliques_same_ext N N' nm nm' b b' o o' j j' : vars N' = vars N -> (forall i, List.length (dom N' i) = List.length (dom N i)) -> (forall i x, In x (par N' i) <-> In x (par N i)) ->
  nshape N -> nshape N' -> bgood N nm b -> bgood N' nm' b' -> ord_ok o -> ord_ok o' ->
  compile o b = Ok j -> compile o' b' = Ok j' -> Forall2 clsim (jt_cliques j) (jt_cliques j').
Proof.
  intros Ev Ed Ep HN HN' HB HB' Ho Ho' E E'.
  destruct (compile_steps N nm b HN HB o Ho) as (u & m & Ks & j0 & F & (U1 & U2 & U3 & U4 & U5) & C1 & _ & C3 & C4 & _).
  destruct (compile_steps N' nm' b' HN' HB' o' Ho') as (u' & m' & Ks' & j0' & F' & (U1' & U2' & U3' & U4' & U5') & C1' & _ & C3' & C4' & _).
  rewrite C1 in E. inversion E; subst j0. rewrite C1' in E'. inversion E'; subst j0'. rewrite C4, C4'.
  refine (triangulate_sim o o' Ho Ho' u u' _ _ U3 U3' _ U5 U5').
  constructor; auto.
  - unfold get_nodes. rewrite U4, U4'. change (dvals (g_nodes (gp N b))) with (get_nodes (gp N b)). change (dvals (g_nodes (gp N' b'))) with (get_nodes (gp N' b')).
    rewrite (idw_gp N nm b HB), (idw_gp N' nm' b' HB'), Ev. apply map_ext. intros i. rewrite Ed. reflexivity.
  - intros x y. rewrite C3, C3'. unfold mor. rewrite Ev. assert (Q : forall i z, In z (par N' i ++ [i]) <-> In z (par N i ++ [i])) by (intros; rewrite !in_app_iff, Ep; reflexivity).
    split; intros [Hne [i [Hi [Hx Hy]]]]; (split; [exact Hne|]); exists i; apply Q in Hx; apply Q in Hy; auto.
Qed.

Theorem cliques_same N N' nm nm' b b' o o' j j' : vars N' = vars N -> dom N' = dom N -> par N' = par N ->
  nshape N -> nshape N' -> bgood N nm b -> bgood N' nm' b' -> ord_ok o -> ord_ok o' ->
  compile o b = Ok j -> compile o' b' = Ok j' -> Forall2 clsim (jt_cliques j) (jt_cliques j').
Proof. intros Ev Ed Ep. apply cliques_same_ext; auto; intros; rewrite ?Ed, ?Ep; reflexivity. Qed.

Lemma sim_find (cs ds : list clique) c : Forall2 clsim cs ds -> In c cs -> exists d, In d ds /\ cl_id d = cl_id c /\ incl (cl_nodes c) (cl_nodes d).
Proof.
  induction 1 as [|a b l m [E P] H IH]; simpl; [tauto|]. intros [->|Hc].
  - exists b. split; auto. split; auto. intros x Hx. apply (Permutation_in _ P); auto.
  - destruct (IH Hc) as [d [D1 D2]]. exists d; auto.
Qed.
Lemma clsim_sym a b : clsim a b -> clsim b a. Proof. intros [E P]. split; auto. apply Permutation_sym; auto. Qed.
Lemma sims_sym cs ds : Forall2 clsim cs ds -> Forall2 clsim ds cs. Proof. induction 1; constructor; auto using clsim_sym. Qed.
Lemma sims_trans a b c : Forall2 clsim a b -> Forall2 clsim b c -> Forall2 clsim a c.
Proof.
  intros H. revert c. induction H as [|x y l m [E P] H IH]; intros c Hc; inversion Hc as [|? z ? n [E' P'] H']; subst; constructor; auto. split; [congruence|]. eapply Permutation_trans; eauto.
Qed.

(** ** networks whose nodes carry what earlier calls left in them *)
Lemma good_nodes N nm b h : bgood N nm b -> nshape N -> dkeys h = vars N -> (forall i, option_map core (dget h i) = option_map core (dget (g_nodes (b_g b)) i)) ->
  bgood N nm (mkBbn (set_graph_nodes (b_g b) h) (b_parents b)).
Proof.
  intros HB HN Hk Hh. constructor; try apply HB. { exact Hk. }
  intros k n Hn. simpl in Hn. assert (En : dget h k = Some n). { apply dget_In_NoDup; auto. rewrite Hk. apply (ns_nd _ HN). }
  specialize (Hh k). rewrite En in Hh. destruct (dget (g_nodes (b_g b)) k) as [m|] eqn:Em; [|discriminate]. simpl in Hh. unfold core in Hh.
  apply dget_In in Em. destruct (bg_node _ _ _ HB k m Em) as [B1 [B2 [B3 B4]]]. inversion Hh. repeat split; congruence.
Qed.

Lemma good_assign N nm b cpts : bgood N nm b -> bgood (replaced N cpts) nm (assign b cpts).
Proof.
  intros HB. constructor; try apply HB.
  - change (vars (replaced N cpts)) with (vars N). rewrite <- (bg_ids _ _ _ HB). unfold assign, ids, dkeys. simpl. rewrite map_map. apply map_ext. intros [k n]. simpl. destruct (dget cpts k); auto.
  - intros k n Hn. unfold assign in Hn. simpl in Hn. apply in_map_iff in Hn. destruct Hn as [[k' m] [E Hm]]. simpl in E. destruct (bg_node _ _ _ HB k' m Hm) as [B1 [B2 [B3 B4]]].
    simpl. destruct (dget cpts k') as [c|] eqn:Ec; inversion E; subst; rewrite Ec; auto.
Qed.
Lemma assign_mclq b cpts i n : In (i, n) (g_nodes (b_g (assign b cpts))) -> exists m, In (i, m) (g_nodes (b_g b)) /\ n_mclq m = n_mclq n.
Proof.
  unfold assign. simpl. intros H. apply in_map_iff in H. destruct H as [[k m] [E Hm]]. simpl in E. destruct (dget cpts k) as [c|]; inversion E; subst; [exists m|exists n]; auto.
Qed.

Lemma good_cleared N nm b b' : bgood N nm b' -> cleared b = cleared b' -> bgood N nm b.
Proof.
  intros HB E. unfold cleared in E. inversion E as [[E1 E2 E3 E4 E5]]. constructor.
  - rewrite <- (bg_ids _ _ _ HB). apply (f_equal (map fst)) in E1. rewrite !map_map in E1. exact E1.
  - intros k n Hn. assert (H : In (k, clear n) (map (fun p => (fst p, clear (snd p))) (g_nodes (b_g b')))). { rewrite <- E1. apply in_map_iff. exists (k, n); auto. }
    apply in_map_iff in H. destruct H as [[k' m] [Q Hm]]. simpl in Q. unfold clear, new_node in Q. inversion Q; subst. destruct (bg_node _ _ _ HB k m Hm) as [B1 [B2 [B3 B4]]]. repeat split; congruence.
  - rewrite E5. apply (bg_par _ _ _ HB).
  - unfold emap. rewrite E3. apply (bg_em _ _ _ HB).
  - intros e He. unfold get_edges, dvals in He. apply in_map_iff in He. destruct He as [[k e'] [<- He]]. simpl.
    assert (H : In (k, clear_edge e') (map (fun p => (fst p, clear_edge (snd p))) (g_edges (b_g b')))). { rewrite <- E2. apply in_map_iff. exists (k, e'); auto. }
    apply in_map_iff in H. destruct H as [[k' d] [Q Hd]]. simpl in Q. pose proof (f_equal (fun p => fst (fst (snd p))) Q) as Q1. pose proof (f_equal (fun p => snd (fst (snd p))) Q) as Q2. simpl in Q1, Q2. rewrite <- Q1, <- Q2. apply (bg_edge _ _ _ HB). apply in_map_iff. exists (k', d); auto.
  - intros i k Hi. destruct (bg_edge2 _ _ _ HB i k Hi) as [e [He [Q1 Q2]]]. unfold get_edges, dvals in He. apply in_map_iff in He. destruct He as [[q e'] [<- He]]. simpl in *.
    assert (H : In (q, clear_edge e') (map (fun p => (fst p, clear_edge (snd p))) (g_edges (b_g b)))). { rewrite E2. apply in_map_iff. exists (q, e'); auto. }
    apply in_map_iff in H. destruct H as [[k' d] [Q Hd]]. simpl in Q. pose proof (f_equal (fun p => fst (fst (snd p))) Q) as Q3. pose proof (f_equal (fun p => snd (fst (snd p))) Q) as Q4. simpl in Q3, Q4. exists d. split; [apply in_map_iff; exists (k', d); auto|]. split; congruence.
Qed.

(** ** the network object after apply *)
Lemma apply_good N nm b o j0 j : nshape N -> bgood N nm b -> ord_ok o -> compile o b = Ok j0 -> infer o j0 = Ok j -> bgood N nm (shared b j).
Proof.
  intros HN HB Ho C I. destruct (compile_full N nm b HN HB o Ho) as [u [Ks [j0' [F [C1 [C2 [C3 [C4 [C5 [C6 [C7 _]]]]]]]]]]].
  rewrite C1 in C. inversion C; subst j0'. pose proof (keeps_infer _ _ _ I) as K.
  assert (Hk : dkeys (jt_heap j) = vars N).
  { rewrite (kp_k _ _ K), C7. rewrite <- (bg_ids _ _ _ HB). unfold hm, moralize_meta, hp, ids, dkeys. rewrite !map_map. simpl. apply map_ext. auto. }
  apply good_nodes; auto. intros i. rewrite (kp_h _ _ K i), C7.
  assert (Ek : dkeys (hm N b) = vars N). { rewrite <- Hk, (kp_k _ _ K), C7. reflexivity. }
  destruct (in_dec Z.eq_dec i (vars N)) as [Hi|Hi].
  - destruct (hm_get N nm b HB i Hi) as [m [Hm Em]]. rewrite Em. assert (Eg : dget (g_nodes (b_g b)) i = Some m).
    { apply dget_In_NoDup; auto. pose proof (bg_ids _ _ _ HB) as B. unfold ids in B. rewrite B. apply (ns_nd _ HN). }
    rewrite Eg. reflexivity.
  - assert (E1 : dget (hm N b) i = None) by (apply dget_None; rewrite Ek; auto). rewrite E1.
    assert (E2 : dget (g_nodes (b_g b)) i = None) by (apply dget_None; pose proof (bg_ids _ _ _ HB) as B; unfold ids in B; rewrite B; auto). rewrite E2. reflexivity.
Qed.

(** what the nodes of a tree fit for inference say about their cliques *)
Lemma jnet_mclq N nm j i n k : jnet N nm j -> NoDup (dkeys (jt_heap j)) -> In i (vars N) -> In (i, n) (jt_heap j) -> n_mclq n = Some k ->
  exists c, In c (jt_cliques j) /\ k = cl_id c /\ incl (par N i ++ [i]) (cl_nodes c).
Proof.
  intros HJ Hd Hi Hn Ek. apply (jn_ids _ _ _ HJ) in Hi. destruct (hg_node _ _ _ _ (jn_hg _ _ _ HJ) i Hi) as [m [E [_ [_ [_ [_ H]]]]]].
  assert (En : dget (jt_heap j) i = Some n) by (apply dget_In_NoDup; auto). rewrite En in E. inversion E; subst. auto.
Qed.

Section Turns.
  Context (ops : list bop) (HW : well_shaped ops) (jr : jtree) (Hr : compile ord_id (build ops) = Ok jr).
  Notation nm := (net_name ops).

  Record together (s : situation) (b : bbn) (j : jtree) : Prop := {
    tg_shape : nshape (fst s);
    tg_vars : vars (fst s) = vars (net_of ops);
    tg_dom : dom (fst s) = dom (net_of ops);
    tg_par : par (fst s) = par (net_of ops);
    tg_shows : shows (fst s) nm (fst (snd s)) (snd (snd s)) j;
    tg_good : bgood (fst s) nm b;
    tg_heap : g_nodes (b_g b) = jt_heap j;
    tg_cl : Forall2 clsim (jt_cliques jr) (jt_cliques j);
    tg_conn : connected ops -> jconn j }.

  Lemma compiled_sim N b o j : vars N = vars (net_of ops) -> dom N = dom (net_of ops) -> par N = par (net_of ops) -> nshape N -> bgood N nm b -> ord_ok o ->
    compile o b = Ok j -> Forall2 clsim (jt_cliques jr) (jt_cliques j).
  Proof using HW Hr.
    intros E1 E2 E3 HN HB Ho C. eapply (cliques_same (net_of ops) N nm nm (build ops) b ord_id o); eauto. apply net_shape; auto. apply build_good. apply ord_id_ok.
  Qed.

  (** apply on an object whose stored cliques are all good *)
  Lemma apply_together N b o : vars N = vars (net_of ops) -> dom N = dom (net_of ops) -> par N = par (net_of ops) -> nshape N -> bgood N nm b -> ord_ok o ->
    (forall i n k, In (i, n) (g_nodes (b_g b)) -> n_mclq n = Some k -> exists c, In c (jt_cliques jr) /\ k = cl_id c /\ incl (par N i ++ [i]) (cl_nodes c)) ->
    exists b' j, apply o b = Ok (b', j) /\ together (N, (no_evidence, no_evidence)) b' j.
  Proof using HW Hr.
    intros E1 E2 E3 HN HB Ho HF. pose proof (ws_names _ HW) as Hnm. change (net_vars ops) with (vars (net_of ops)) in Hnm. rewrite <- E1 in Hnm.
    destruct (apply_gen N nm b o HN HB Hnm Ho) as [j0 [j [A1 [A2 [A3 [A4 [A5 [A6 [A7 A8]]]]]]]]].
    { intros j0 C i n k Hn Ek. pose proof (compiled_sim N b o j0 E1 E2 E3 HN HB Ho C) as S. destruct (HF i n k Hn Ek) as [c [H1 [H2 H3]]].
      destruct (sim_find _ _ c S H1) as [d [D1 [D2 D3]]]. exists d. split; auto. split; [congruence|]. eapply incl_tran; eauto. }
    exists (shared b j), (set_jlistener j true). split; [exact A6|]. constructor; simpl; auto.
    - apply live_shows; auto. apply unit_none.
    - eapply apply_good; eauto.
    - change (jt_cliques (set_jlistener j true)) with (jt_cliques j). rewrite (same_cl _ _ A5). eapply compiled_sim; eauto.
    - intros Hc. apply A8. unfold net_connected. rewrite E1. intros u v Hu Hv. specialize (Hc u v Hu Hv). unfold is_parent in *. rewrite E1, E3. exact Hc.
  Qed.

  Lemma turn_together s b j d : together s b j -> deed_ok (fst s) d -> exists b' j', do_turn (b, j) d = Ok (b', j') /\ together (after s d) b' j'.
  Proof using HW Hr.
    intros [S1 S2 S3 S4 S5 S6 S7 S8 S9] Hd. destruct s as [N [L S]]. simpl in *. pose proof (ws_names _ HW) as Hnm. rewrite <- S2 in Hnm.
    destruct d as [o c|o cpts]; simpl in *; destruct Hd as [Ho Hd].
    - destruct (call_shows N nm (ns_nd _ S1) Hnm (ns_dom _ S1) o L S j c Ho S5 Hd) as [j' [J1 [J2 J3]]]. rewrite J1. pose proof (keeps_call _ _ _ _ _ J1) as K.
      exists (shared b j'), j'. split; auto. constructor; simpl; auto.
      + apply good_nodes; auto.
        * rewrite (kp_k _ _ K), <- S7. apply (bg_ids _ _ _ S6).
        * intros i. rewrite (kp_h _ _ K i), S7. reflexivity.
      + unfold jt_cliques. rewrite (kp_n _ _ K). exact S8.
      + intros Hc. apply jconn_ext with j; auto.
    - destruct (apply_together (replaced N cpts) (assign b cpts) o) as [b' [j' [A1 A2]]]; auto.
      + apply replaced_shape; auto.
      + apply good_assign; auto.
      + intros i n k Hn Ek. destruct (assign_mclq b cpts i n Hn) as [m [Hm Em]]. rewrite <- Em in Ek. pose proof Hm as Hm'. rewrite S7 in Hm'.
        assert (Hi : In i (vars N)). { rewrite <- (bg_ids _ _ _ S6). unfold ids, dkeys. apply in_map_iff. exists (i, m); auto. }
        destruct (jnet_mclq N nm j i m k (st_net _ _ _ _ (sw_st _ _ _ _ _ S5))) as [c [H1 [H2 H3]]]; auto.
        { rewrite <- S7. pose proof (bg_ids _ _ _ S6) as B. unfold ids in B. rewrite B. apply (ns_nd _ S1). }
        destruct (sim_find _ _ c (sims_sym _ _ S8) H1) as [d [D1 [D2 D3]]]. exists d. split; auto. split; [congruence|]. simpl. eapply incl_tran; eauto.
      + exists b', j'. split; auto.
  Qed.

  Lemma turns_together ds : forall s b j, together s b j -> deeds_ok s ds -> exists b' j', foldM do_turn ds (b, j) = Ok (b', j') /\ together (fold_left after ds s) b' j'.
  Proof using HW Hr.
    induction ds as [|d ds IH]; intros s b j H Hd; simpl in *. { exists b, j; auto. }
    destruct Hd as [D1 D2]. destruct (turn_together s b j d H D1) as [b1 [j1 [E1 H1]]]. rewrite E1. cbn [rbind]. apply IH; auto.
  Qed.

  Lemma together_exact s b j : together s b j -> connected ops -> exists t, get_posteriors j = Ok t /\ exact_table (fst s) nm (snd (snd s)) t.
  Proof using HW.
    intros [S1 S2 S3 S4 S5 S6 S7 S8 S9] Hc. destruct s as [N [L S]]. simpl in *. pose proof (ws_names _ HW) as Hnm. rewrite <- S2 in Hnm.
    destruct (sw_live _ _ _ _ _ S5) as [ev Hl]. destruct (live_exact_table N nm _ _ (ns_nd _ S1) Hnm Hl) as [t [B1 B2]]. { apply jconn_ext with j; auto. }
    exists t. split; auto.
  Qed.
End Turns.

Lemma compile_ref ops : well_shaped ops -> exists jr, compile ord_id (build ops) = Ok jr.
Proof.
  intros HW. destruct (compile_full _ _ _ (net_shape ops HW) (build_good ops) ord_id ord_id_ok) as [u [Ks [j [F [C _]]]]]. eauto.
Qed.

Theorem c42_turns ops o ds : well_shaped ops -> connected ops -> ord_ok o -> deeds_ok (start ops) ds ->
  let s := fold_left after ds (start ops) in
  exists b j t, turns o ops ds = Ok (b, j) /\ get_posteriors j = Ok t /\ exact_table (fst s) (net_name ops) (snd (snd s)) t.
Proof.
  intros HW Hc Ho Hd s. destruct (compile_ref ops HW) as [jr Hr].
  destruct (apply_together ops HW jr Hr (net_of ops) (build ops) o) as [b [j [A1 A2]]]; auto.
  - apply net_shape; auto.
  - apply build_good.
  - intros i n k Hn Ek. rewrite (build_fresh ops HW i n Hn) in Ek. discriminate.
  - destruct (turns_together ops HW jr Hr ds _ b j A2 Hd) as [b' [j' [B1 B2]]]. destruct (together_exact ops HW jr _ _ _ B2 Hc) as [t [T1 T2]].
    exists b', j', t. split; auto. unfold turns. rewrite A1. cbn [rbind]. exact B1.
Qed.

Theorem c42_fits ops o o1 bf jf b : well_shaped ops -> connected ops -> ord_ok o -> ord_ok o1 -> apply o1 (build ops) = Ok (bf, jf) ->
  cleared b = cleared (build ops) -> fits ops b jf ->
  exists b' j t, apply o b = Ok (b', j) /\ get_posteriors j = Ok t /\ exact_table (net_of ops) (net_name ops) no_evidence t.
Proof.
  intros HW Hc Ho Ho1 A E HF. destruct (compile_ref ops HW) as [jr Hr].
  destruct (apply_together ops HW jr Hr (net_of ops) (build ops) o1) as [bf' [jf' [F1 F2]]]; auto.
  { apply net_shape; auto. } { apply build_good. } { intros i n k Hn Ek. rewrite (build_fresh ops HW i n Hn) in Ek. discriminate. }
  rewrite A in F1. inversion F1; subst bf' jf'.
  destruct (apply_together ops HW jr Hr (net_of ops) b o) as [b' [j [A1 A2]]]; auto.
  - apply net_shape; auto.
  - eapply good_cleared; [apply build_good|exact E].
  - intros i n k Hn Ek. destruct (HF i n k Hn Ek) as [c [H1 [H2 H3]]]. destruct (sim_find _ _ c (sims_sym _ _ (tg_cl _ _ _ _ _ F2)) H1) as [d [D1 [D2 D3]]].
    exists d. split; auto. split; [congruence|]. eapply incl_tran; eauto.
  - destruct (together_exact ops HW jr _ _ _ A2 Hc) as [t [T1 T2]]. exists b', j, t. auto.
Qed.
