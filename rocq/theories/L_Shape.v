(** The moral graph, the cliques and the join tree of a built network; networks in several parts. *)
From Verif Require Import Py M_Graph M_Node M_Pptc Spec SpecNet SpecEv L_Base L_PD L_Sums L_Table L_Tree L_Walk L_Forest L_Root L_Good L_Prop L_Init L_Post L_Read
  L_Ids L_Trans L_Elim L_UG L_Tri L_Moral L_Build L_Exact L_Apply L_Net L_Evid L_Hist L_Rip L_Claims.

Open Scope nat_scope.

(** ** moral graph and triangulation *)
Lemma moral_build ops x y : well_shaped ops -> moral (b_g (build ops)) x y <-> moral_edge (net_of ops) x y.
Proof.
  intros H. pose proof (net_shape ops H) as HN. pose proof (build_good ops) as HB. unfold moral, moral_edge. rewrite (bg_ids _ _ _ HB). split; intros [Hne Hm]; split; auto.
  - destruct Hm as [[e [He Hm]]|[i [Hi [H1 H2]]]].
    + pose proof (bg_edge _ _ _ HB e He) as Hp. destruct (ns_ends _ HN _ _ Hp) as [V1 V2]. exists (n_id (e_j e)). split; auto.
      destruct Hm as [[-> ->]|[-> ->]]; split; apply in_or_app; simpl; auto.
    + exists i. rewrite !get_parents_In, !(bg_em _ _ _ HB) in *. split; auto. split; apply in_or_app; auto.
  - destruct Hm as [i [Hi [H1 H2]]]. apply in_app_or in H1. apply in_app_or in H2. destruct H1 as [H1|[<-|[]]], H2 as [H2|[<-|[]]]; try congruence.
    + right. exists i. rewrite !get_parents_In, !(bg_em _ _ _ HB). auto.
    + left. destruct (bg_edge2 _ _ _ HB _ _ H1) as [e [He [E1 E2]]]. exists e. split; auto.
    + left. destruct (bg_edge2 _ _ _ HB _ _ H2) as [e [He [E1 E2]]]. exists e. split; auto.
Qed.

Lemma moralize_build ops : well_shaped ops -> exists u, moralize (b_g (build ops)) = Ok u /\ ug u /\ ue u /\ g_nodes u = g_nodes (b_g (build ops)) /\
  map fst (g_nodes u) = vars (net_of ops) /\ forall x y, In y (get_neighbors u x) <-> moral_edge (net_of ops) x y.
Proof.
  intros H. pose proof (net_shape ops H) as HN. pose proof (build_good ops) as HB. destruct (moralize_ok (b_g (build ops))) as [u [E [U [UE [G A]]]]].
  - rewrite (bg_ids _ _ _ HB). apply HN.
  - intros k n Hk. apply (bg_node _ _ _ HB k n Hk).
  - intros e He. rewrite (bg_ids _ _ _ HB). apply (ns_ends _ HN). apply (bg_edge _ _ _ HB); auto.
  - intros i p _ Hp. rewrite (bg_ids _ _ _ HB). apply get_parents_In, (bg_em _ _ _ HB) in Hp. apply (ns_ends _ HN _ _ Hp).
  - exists u. split; auto. split; auto. split; auto. split; auto. split. { rewrite G. apply (bg_ids _ _ _ HB). }
    intros x y. change (In y (get_neighbors u x)) with (adj u x y). rewrite A. apply moral_build; auto.
Qed.

Lemma moral_edge_sym N x y : moral_edge N x y -> moral_edge N y x.
Proof. intros [H1 [i [H2 [H3 H4]]]]. split; auto. exists i; auto. Qed.
Lemma family_complete N i : In i (vars N) -> complete (moral_edge N) (par N i ++ [i]).
Proof. intros Hi x y Hx Hy Hne. split; auto. exists i; auto. Qed.

Lemma triangulate_build ops o u : well_shaped ops -> ord_ok o -> moralize (b_g (build ops)) = Ok u ->
  let N := net_of ops in
  exists m cs, triangulate o u = Ok (m, cs) /\
    (forall i, In i (vars N) -> exists c, In c cs /\ incl (par N i ++ [i]) (cl_nodes c)) /\
    (forall x y, moral_edge N x y -> exists c, In c cs /\ In x (cl_nodes c) /\ In y (cl_nodes c)) /\
    (forall c d, In c cs -> In d cs -> incl (cl_nodes c) (cl_nodes d) -> c = d) /\
    (NoDup cs /\ forall c, In c cs -> NoDup (cl_nodes c) /\ incl (cl_nodes c) (vars N) /\ cl_nodes c <> []) /\
    (forall x y, In y (get_neighbors m x) <-> x <> y /\ exists c, In c cs /\ In x (cl_nodes c) /\ In y (cl_nodes c)).
Proof.
  intros H Ho Eu N. pose proof (net_shape ops H) as HN. fold N in HN. destruct (moralize_build ops H) as [u' [E [U [UE [G [I A]]]]]]. rewrite E in Eu. injection Eu as ->.
  destruct (triangulate_ok o u Ho U UE) as [m [Ks [T1 [T2 [T3 T4]]]]]. exists m, (map mk_clique (keep [] Ks)). split; auto.
  assert (T2' : elim (vars N) (moral_edge N) Ks). { unfold ids, dkeys in T2. rewrite I in T2. eapply elim_ext; [exact T2|]. intros x y _ _. apply A. }
  assert (Hcov : forall C, incl C (vars N) -> C <> [] -> complete (moral_edge N) C -> exists c, In c (map mk_clique (keep [] Ks)) /\ incl C (cl_nodes c)).
  { intros C H1 H2 H3. destruct (elim_cover _ _ _ T2' (moral_edge_sym N) C H1 H2 H3) as [K [HK Hi]]. destruct (kept_cover Ks K HK) as [B [HB' Hi']].
    exists (mk_clique B). split; [apply in_map; auto|]. eapply incl_tran; eauto. }
  assert (Hfam : forall i, In i (vars N) -> exists c, In c (map mk_clique (keep [] Ks)) /\ incl (par N i ++ [i]) (cl_nodes c)).
  { intros i Hi. apply Hcov; [|destruct (par N i); discriminate|apply family_complete; auto]. intros v Hv. apply in_app_or in Hv. destruct Hv as [Hv|[<-|[]]]; auto. apply (ns_ends _ HN _ _ Hv). }
  assert (Hmor : forall x y, moral_edge N x y -> exists c, In c (map mk_clique (keep [] Ks)) /\ In x (cl_nodes c) /\ In y (cl_nodes c)).
  { intros x y [_ [i [Hi [Hx Hy]]]]. destruct (Hfam i Hi) as [c [Hc Hin]]. exists c; auto. }
  destruct (kept_antichain _ _ _ T2' (ns_nd _ HN)) as [KD KA].
  split; auto. split; auto. split; [|split; [split|]].
  - intros c d Hc Hd Hin. apply in_map_iff in Hc. apply in_map_iff in Hd. destruct Hc as [A1 [<- HA]], Hd as [B1 [<- HB]]. f_equal. apply KA; auto.
  - apply FinFun.Injective_map_NoDup; auto. intros a b Eab. injection Eab. auto.
  - intros c Hc. apply in_map_iff in Hc. destruct Hc as [K [<- HK]]. apply kept_sub in HK. simpl. split; [apply (elim_nd _ _ _ T2' (ns_nd _ HN)); auto|]. apply (elim_sub _ _ _ T2' K HK).
  - intros x y. change (In y (get_neighbors m x)) with (adj m x y). rewrite T4. split.
    + intros [Hxy|[K [HK [F1 [F2 F3]]]]].
      * apply A in Hxy. split; [apply Hxy|]. apply Hmor; auto.
      * split; auto. destruct (kept_cover Ks K HK) as [B [HB Hi]]. exists (mk_clique B). split; [apply in_map; auto|]. split; apply Hi; auto.
    + intros [Hne [c [Hc [Hx Hy]]]]. right. apply in_map_iff in Hc. destruct Hc as [K [<- HK]]. exists K. split; [apply kept_sub; auto|]. split; auto.
Qed.

(** ** the join tree *)
Lemma first_of_greedy F Ls F' s : greedy ends F Ls F' -> In s F' -> In s F \/ In s Ls.
Proof. intros H Hs. apply (greedy_incl _ (fun _ => 0)) in H. destruct H as [_ H]. apply H in Hs. apply in_app_or in Hs. auto. Qed.

Lemma tree_build ops o : well_shaped ops -> ord_ok o -> let N := net_of ops in
  exists b j, apply o (build ops) = Ok (b, j) /\
    no_cycle (map ends (jt_sepsets j)) /\
    (forall s, In s (jt_sepsets j) -> In (ss_left s) (jt_cliques j) /\ In (ss_right s) (jt_cliques j) /\ ss_nodes s <> [] /\
       forall v, In v (ss_nodes s) <-> In v (cl_nodes (ss_left s)) /\ In v (cl_nodes (ss_right s))) /\
    (forall v c d, In c (jt_cliques j) -> In d (jt_cliques j) -> In v (cl_nodes c) -> In v (cl_nodes d) ->
       path (fun a b => exists s, In s (jt_sepsets j) /\ In v (ss_nodes s) /\ (ends s = (a, b) \/ ends s = (b, a))) (cl_id c) (cl_id d)) /\
    (connected ops -> forall c d, In c (jt_cliques j) -> In d (jt_cliques j) -> path (sym (fun a b => In (a, b) (map ends (jt_sepsets j)))) (cl_id c) (cl_id d)) /\
    (forall i, In i (vars N) -> exists c, In c (jt_cliques j) /\ incl (par N i ++ [i]) (cl_nodes c)) /\
    (forall c d, In c (jt_cliques j) -> In d (jt_cliques j) -> incl (cl_nodes c) (cl_nodes d) -> c = d).
Proof.
  intros H Ho N. pose proof (net_shape ops H) as HN. fold N in HN.
  destruct (apply_net _ _ _ o (net_shape ops H) (build_good ops) (ws_names _ H) Ho (build_fresh ops H)) as [j0 [j [A1 [A2 [A3 [A4 [A5 [A6 [A7 A8]]]]]]]]]. fold N in A2, A7, A8.
  destruct (compile_full _ _ _ (net_shape ops H) (build_good ops) o Ho) as [u [Ks [j' [F [C1 [C2 [C3 [C4 [C5 [C6 [C7 [C8 [C9 [C10 [C11 [C12 [C13 [C14 [C15 C16]]]]]]]]]]]]]]]]]]]. fold N in C2.
  rewrite A1 in C1. injection C1 as <-. eexists _, _. split; [exact A6|].
  change (jt_sepsets (set_jlistener j true)) with (jt_sepsets j). change (jt_cliques (set_jlistener j true)) with (jt_cliques j).
  rewrite (same_cl _ _ A5), (same_ss _ _ A5). pose proof (jn_JG _ _ _ A2) as HJ. split; [|split; [|split; [|split; [|split]]]].
  - destruct (jg_forest _ HJ) as [es [P Fo]]. eapply no_cycle_perm; [apply Permutation_map, P|]. apply forest_no_cycle; auto.
  - intros s Hs. destruct (jg_ends _ HJ s Hs) as [E1 [E2 _]]. split; auto. split; auto.
    rewrite C5 in Hs. apply in_rev in Hs. apply (first_of_greedy [] _ F s C6) in Hs. destruct Hs as [[]|Hs].
    apply sep_sets_In in Hs. destruct Hs as [a [c [_ [Hne ->]]]]. rewrite mk_sepset_nodes, mk_sepset_left, mk_sepset_right. split; auto. intros v. apply inter_In.
  - intros v c d Hc Hd Hvc Hvd. destruct (trees_exist o j0 c Ho HJ (jn_cnt _ _ _ A2) Hc) as [t [ts HT]]. eapply rip; eauto.
  - intros Hc c d Hcc Hdd. specialize (A8 Hc). specialize (A8 c d). unfold conn in A8.
    change (jt_sepsets (set_jlistener j true)) with (jt_sepsets j) in A8. change (jt_cliques (set_jlistener j true)) with (jt_cliques j) in A8. rewrite (same_cl _ _ A5), (same_ss _ _ A5) in A8. auto.
  - intros i Hi. rewrite C4. destruct (elim_cover _ _ _ C2 (mor_sym N) (par N i ++ [i])) as [K [HK Hin]].
    + intros v Hv. apply in_app_or in Hv. destruct Hv as [Hv|[<-|[]]]; auto. apply (ns_ends _ HN _ _ Hv).
    + destruct (par N i); discriminate.
    + apply family_complete; auto.
    + destruct (kept_cover Ks K HK) as [B [HB' Hi']]. exists (mk_clique B). split; [apply in_map; auto|]. eapply incl_tran; eauto.
  - rewrite C4. intros c d Hc Hd Hin. apply in_map_iff in Hc. apply in_map_iff in Hd. destruct Hc as [B1 [<- HB1]], Hd as [B2 [<- HB2]]. f_equal.
    apply (proj2 (kept_antichain _ _ _ C2 (ns_nd _ HN))); auto.
Qed.

(** ** networks in several parts: the part propagation starts from is exact *)
Lemma first_clique_min j x : first_clique j x -> In x (jt_cliques j) /\ forall c, In c (jt_cliques j) -> str_leb (cl_id x) (cl_id c) = true.
Proof.
  intros H. split; [apply first_clique_In; auto|]. destruct H as [l E]. intros c Hc. change (cl_leb x c = true). eapply isort_head; eauto.
  - intros a b. apply str_leb_total.
  - intros a b d. apply str_leb_trans.
Qed.

Section Parts.
  Open Scope Qc_scope.
  Lemma total_parts (N : net) L V V2 : Permutation (V ++ V2) (vars N) -> NoDup (vars N) ->
    (forall k, In k V -> incl (par N k) V) -> (forall k, In k V2 -> incl (par N k) V2) ->
    total N L = sums (dom N) V (W (cpt_entry N) L V) no_asg * sums (dom N) V2 (W (cpt_entry N) L V2) no_asg.
  Proof.
    intros P HN C1 C2.
    assert (NV : NoDup (V ++ V2)) by (eapply Permutation_NoDup; [symmetry; eauto|auto]). apply NoDup_app_iff in NV. destruct NV as [NV1 [NV2 ND]].
    assert (D : forall U, (forall k, In k U -> incl (par N k) U) -> dep U (W (cpt_entry N) L U)).
    { intros U C. unfold W. apply dep_qprod with (F := fun i a => cpt_entry N i a * L i (a i)). intros k Hk. apply dep_mult.
      - apply (dep_mono (par N k ++ [k])); [|apply cpt_entry_dep]. intros y Hy. apply in_app_or in Hy. destruct Hy as [Hy|[<-|[]]]; auto. eapply C; eauto.
      - intros a b H. rewrite (H k); auto. }
    unfold total. rewrite <- (sums_perm _ (V ++ V2)) by (auto; apply weight_proper).
    rewrite (sums_prod (dom N) V V2 V V2 _ _ no_asg (D V C1) (D V2 C2)); auto.
    - apply sums_ext. intros a. rewrite <- (W_weight N L (V ++ V2)) by auto. unfold W. rewrite map_app, qprod_app. auto.
    - intros v Hv Hv'. apply (ND v); auto.
  Qed.
End Parts.

Section Comp.
  Context (N : net) (nm : Z -> string) (HN : nshape N) (Hnm : NoDup (map nm (vars N))).

  Lemma live_part L j : live N nm L j -> possible N L ->
    exists t x, get_posteriors j = Ok t /\ In x (jt_cliques j) /\ (forall c, In c (jt_cliques j) -> str_leb (cl_id x) (cl_id c) = true) /\
      forall v i, In v (cl_nodes x) -> path (sym (is_parent N)) v i -> dget t (nm i) = Some (map (fun y => (y, exact_posterior N L i y)) (dom N i)).
  Proof using HN Hnm.
    intros H Hp. pose proof (ns_nd _ HN) as HV. destruct (lv_from _ _ _ _ H) as [o [L1 [j0 [j1 [x [t [ts [HA [H0 [O E]]]]]]]]]]. subst j.
    change (get_posteriors (set_jlistener j1 true)) with (get_posteriors j1). change (jt_cliques (set_jlistener j1 true)) with (jt_cliques j1).
    rewrite (same_cl _ _ (oc_same _ _ _ _ _ _ _ _ _ O)).
    assert (HL' : forall i v, In i (jt_bbn_ids j0) -> In v (dom N i) -> (0 <= L1 i v)%Qc) by (intros k v Hk Hv; apply (jn_ids _ _ _ H0) in Hk; rewrite HA by auto; apply (lv_pos _ _ _ _ H); auto).
    destruct (get_posteriors_ok _ _ _ L1 j0 j1 (jn_JG _ _ _ H0) (jn_hg _ _ _ H0) HL' o x t ts O (names_nd N nm HV Hnm j0 H0)) as [f [E1 E2]].
    destruct (first_clique_min _ _ (oc_x _ _ _ _ _ _ _ _ _ O)) as [Hx Hmin].
    eexists _, x. split; [exact E1|]. split; auto. split; auto. intros v i Hv Hpath.
    pose proof (oc_tr _ _ _ _ _ _ _ _ _ O) as HT. pose proof (jn_hg _ _ _ H0) as HG.
    set (V := vlist t) in *. set (V2 := flat_map vlist ts).
    assert (P : Permutation (V ++ V2) (vars N)).
    { rewrite <- (jn_perm N nm HV j0 H0). apply NoDup_Permutation; [apply (tr_nd _ _ _ _ _ HT)|apply bbn_ids_NoDup|]. apply (tr_vars _ _ _ _ _ HT). }
    assert (ND : NoDup (V ++ V2)) by apply (tr_nd _ _ _ _ _ HT). pose proof (proj1 (NoDup_app_iff _ _) ND) as ND'. destruct ND' as [_ [_ ND']].
    assert (C1 : forall k, In k V -> incl (par N k) V). { intros k Hk q Hq. apply (fam_V _ _ _ L1 j0 j1 HG o x t ts O k Hk). apply in_or_app; auto. }
    assert (C2 : forall k, In k V2 -> incl (par N k) V2).
    { intros k Hk q Hq. assert (Hki : In k (jt_bbn_ids j0)). { apply (tr_vars _ _ _ _ _ HT). simpl. apply in_or_app; auto. }
      destruct (asn_ok _ _ _ _ HG k Hki) as [c [Hc [_ Hinc]]].
      pose proof Hc as Hc'. apply (Permutation_in _ (Permutation_sym (tr_cl _ _ _ _ _ HT))) in Hc'. unfold tcliques in Hc'. simpl in Hc'. apply in_app_or in Hc'.
      pose proof (tr_ok _ _ _ _ _ HT) as Hok. rewrite Forall_forall in Hok. destruct Hc' as [Hc'|Hc'].
      - exfalso. apply (ND' k); auto. apply (vlist_cover t c); auto. apply Hok; left; auto. apply Hinc, in_or_app; simpl; auto.
      - apply in_flat_map in Hc'. destruct Hc' as [t' [Ht' Hc']]. apply in_flat_map. exists t'. split; auto. apply (vlist_cover t' c); auto. apply Hok; right; auto. apply Hinc, in_or_app; auto. }
    assert (HvV : In v V). { apply (vlist_cover t x); auto. eapply trt_ok; apply HT. rewrite <- (tr_root _ _ _ _ _ HT). apply root_In. }
    assert (HiV : In i V).
    { eapply path_inv with (P := fun i => In i V); [|exact HvV|exact Hpath]. intros a b Ha [[Hb Hab]|[Hb Hab]].
      - apply (Permutation_in _ (Permutation_sym P)) in Hb. apply in_app_or in Hb. destruct Hb as [Hb|Hb]; auto. exfalso. apply (ND' a); auto. apply (C2 b Hb a Hab).
      - apply (C1 a Ha b Hab). }
    assert (Hi : In i (vars N)) by (apply (Permutation_in _ P), in_or_app; auto).
    rewrite <- (jn_nm _ _ _ H0 i Hi). rewrite (dget_map_key (h_name (jt_heap j0)) (fun i => map (fun y => (y, f i (asg_of [i] [y]))) (dom N i))); [|apply names_nd with N nm; auto|apply (jn_ids _ _ _ H0); auto].
    f_equal. apply map_ext_in. intros y Hy. f_equal. rewrite E2 by auto. rewrite <- (posterior_agree N L1 L) by auto.
    apply postv_component with V2; auto.
    - apply (ns_dom _ HN i Hi).
    - intros Z. apply Hp. unfold total. rewrite (sums_ext_gen _ _ (weight N L) (weight N L1)).
      + change (total N L1 = 0%Qc). rewrite (total_parts N L1 V V2) by auto. rewrite Z. ring.
      + intros b _ Hb. symmetry. apply weight_agree; auto.
  Qed.
End Comp.
