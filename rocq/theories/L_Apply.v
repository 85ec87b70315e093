(** InferenceController.apply on a well-shaped network: the join tree it builds is well-formed. *)
From Verif Require Import Py M_Graph M_Node M_Pptc Spec SpecNet L_Base L_PD L_Sums L_Table L_Tree L_Walk L_Forest L_Root L_Good L_Prop L_Init L_Post L_Read
  L_Ids L_Trans L_Elim L_UG L_Tri L_Moral L_Build L_Exact.

Open Scope nat_scope.

(** networks with well-sized tables *)
Record nshape (N : net) : Prop := {
  ns_nd : NoDup (vars N);
  ns_some : vars N <> [];
  ns_dom : forall i, In i (vars N) -> NoDup (dom N i) /\ dom N i <> [];
  ns_cpt : forall i, In i (vars N) -> size (dom N) (par N i ++ [i]) <= List.length (cpt N i);
  ns_pos : forall i q, In i (vars N) -> In q (cpt N i) -> (0 <= q)%Qc;
  ns_par : forall i, NoDup (par N i ++ [i]);
  ns_ends : forall i k, In i (par N k) -> In i (vars N) /\ In k (vars N) }.
(** a Bbn object that holds the network *)
Record bgood (N : net) (nm : Z -> string) (b : bbn) : Prop := {
  bg_ids : ids (b_g b) = vars N;
  bg_node : forall k n, In (k, n) (g_nodes (b_g b)) -> n_id n = k /\ n_name n = nm k /\ n_values n = dom N k /\ n_probs n = cpt N k;
  bg_par : forall i, dgets (b_parents b) i = par N i;
  bg_em : forall i k, In k (emap (b_g b) i) <-> In i (par N k);
  bg_edge : forall e, In e (get_edges (b_g b)) -> In (n_id (e_i e)) (par N (n_id (e_j e)));
  bg_edge2 : forall i k, In i (par N k) -> exists e, In e (get_edges (b_g b)) /\ n_id (e_i e) = i /\ n_id (e_j e) = k }.

(** apply up to the point where the tree is initialised *)
Definition pinfo_of (b : bbn) (ns : list bnode) : list (Z * list Z) :=
  flat_map (fun n => match dget (b_parents b) (n_id n) with Some l => [(n_id n, l)] | None => [] end) ns.
Definition compile (o : Ord) (b : bbn) : res jtree :=
  h <- pot_init b ;;
  ug <- moralize (set_graph_nodes (b_g b) h) ;;
  mc <- triangulate o ug ;;
  j <- transform o (moralize_meta (set_graph_nodes (b_g b) h) h) (snd mc) ;;
  Ok (set_jpinfo j (pinfo_of b (get_nodes (set_graph_nodes (b_g b) h)))).
Lemma apply_compile o b : apply o b = (j <- compile o b ;; j <- infer o j ;;
  Ok (mkBbn (set_graph_nodes (b_g b) (jt_heap j)) (b_parents b), set_jlistener j true)).
Proof.
  unfold apply, compile, infer. destruct (pot_init b) as [h|e]; cbn [rbind]; auto. destruct (moralize _) as [u|e]; cbn [rbind]; auto.
  destruct (triangulate o u) as [mc|e]; cbn [rbind]; auto. destruct (transform _ _ _) as [j|e]; cbn [rbind]; auto.
  fold (pinfo_of b (get_nodes (set_graph_nodes (b_g b) h))). destruct (initialize _) as [j1|e]; cbn [rbind]; auto.
Qed.

Lemma mapM_all {A B} (f : A -> res B) (g : A -> B) l : (forall x, In x l -> f x = Ok (g x)) -> mapM f l = Ok (map g l).
Proof. induction l as [|x l IH]; intros H; simpl; auto. rewrite H by (left; auto). cbn [rbind]. rewrite IH by (intros; apply H; right; auto). auto. Qed.

(** forests up to the direction of the edges *)
Definition flips {K} (e e' : K * K) : Prop := e' = e \/ e' = (snd e, fst e).
Lemma conn_flips {K} (es es' : list (K * K)) : Forall2 flips es es' -> forall x y, conn es' x y -> conn es x y.
Proof.
  intros F x y H. unfold conn in *. eapply path_mono; [|exact H]. clear x y H. intros x y Hs. unfold sym in *.
  assert (G : forall x y, In (x, y) es' -> In (x, y) es \/ In (y, x) es).
  { clear - F. induction F as [|e e' es es' Hf F IH]; simpl; [tauto|]. intros x y [->|H].
    - destruct Hf as [<-|Hf]; auto. destruct e; simpl in Hf. inversion Hf; subst. auto.
    - destruct (IH _ _ H); auto. }
  destruct Hs as [Hs|Hs]; apply G in Hs; tauto.
Qed.
Lemma forest_flips {K} (es es' : list (K * K)) : Forall2 flips es es' -> forest es -> forest es'.
Proof.
  induction 1 as [|[u v] [u' v'] es es' Hf F IH]; intros H; [constructor|]. apply forest_inv in H. destruct H as [H1 H2]. constructor; auto.
  intros Hc. apply H2. apply (conn_flips _ _ F) in Hc. destruct Hf as [E|E]; inversion E; subst; auto. apply conn_sym; auto.
Qed.
Lemma forest_neq {K} (es : list (K * K)) u v : forest es -> In (u, v) es -> u <> v.
Proof.
  induction es as [|[a b] es IH]; intros Hf [].
  - inversion H; subst. apply forest_inv in Hf. intros ->. apply Hf. apply conn_refl.
  - apply forest_inv in Hf. apply IH; tauto.
Qed.

Lemma pos_lt x l : In x l -> pos x l < List.length l.
Proof. induction l as [|y l IH]; simpl; [tauto|]. destruct (String.eqb_spec x y); [lia|]. intros [H|H]; [congruence|]. specialize (IH H). lia. Qed.
Lemma row_index_lt dm vs a : okon dm vs a -> row_index dm vs a < size dm vs.
Proof.
  induction vs as [|v vs IH]; intros H; simpl; [lia|]. assert (H1 : pos (a v) (dm v) < List.length (dm v)) by (apply pos_lt, H; left; auto).
  assert (H2 : row_index dm vs a < size dm vs) by (apply IH; intros u Hu; apply H; right; auto). nia.
Qed.

Section Compile.
  Context (N : net) (nm : Z -> string) (b : bbn) (HN : nshape N) (HB : bgood N nm b) (o : Ord) (Ho : ord_ok o).

  (** the potential of a node is its CPT *)
  Definition with_pot (p : Z * bnode) : Z * bnode :=
    (fst p, set_pot (snd p) (Some (tab (dom N) (par N (fst p) ++ [fst p]) (cpt_entry N (fst p))))).
  Definition hp : heap := map with_pot (g_nodes (b_g b)).

  Lemma g_node i : In i (vars N) -> exists n, dget (g_nodes (b_g b)) i = Some n /\ In (i, n) (g_nodes (b_g b)).
  Proof using HB.
    intros Hi. rewrite <- (bg_ids _ _ _ HB) in Hi. apply dkeys_dget in Hi. destruct Hi as [n E]. exists n. split; auto. apply dget_In; auto.
  Qed.

  Lemma pot_init_ok : pot_init b = Ok hp.
  Proof using HN HB.
    unfold pot_init, hp. apply mapM_all. intros [k n] Hk. simpl.
    destruct (bg_node _ _ _ HB k n Hk) as [E1 [E2 [E3 E4]]].
    assert (Hkv : In k (vars N)). { rewrite <- (bg_ids _ _ _ HB). apply in_map_iff. exists (k, n); auto. }
    assert (Hq : init_node_pot b n = Ok (tab (dom N) (par N k ++ [k]) (cpt_entry N k))).
    { unfold init_node_pot. rewrite E1, (bg_par _ _ _ HB).
      assert (Hm : forall l, incl l (vars N) -> exists ns, mapM (get_node (b_g b)) l = Ok ns /\ map nv ns = map (fun i => (i, dom N i)) l).
      { induction l as [|i l IH]; intros Hl; [exists []; auto|]. destruct IH as [ns [F1 F2]]. { intros y Hy; apply Hl; right; auto. }
        destruct (g_node i) as [m [Em Hm]]. { apply Hl; left; auto. }
        exists (m :: ns). simpl. unfold get_node at 1, dgetE. rewrite Em. cbn [rbind]. rewrite F1. cbn [rbind]. split; auto. simpl. rewrite F2. f_equal.
        destruct (bg_node _ _ _ HB i m Hm) as [G1 [_ [G3 _]]]. unfold nv. congruence. }
      destruct (Hm (par N k)) as [ns [F1 F2]]. { intros y Hy. apply (ns_ends _ HN y k Hy). }
      rewrite F1. cbn [rbind]. unfold get_potential. rewrite map_app, F2. simpl. unfold nv. rewrite E1, E3, E4.
      change [(k, dom N k)] with (map (fun i => (i, dom N i)) [k]). rewrite <- map_app, potential_from_nodes_tab by apply (ns_par _ HN).
      rewrite fill_probs_tab; [reflexivity|apply (ns_par _ HN)| |apply (ns_cpt _ HN); auto].
      intros v Hv. apply in_app_or in Hv. apply (ns_dom _ HN). destruct Hv as [Hv|[<-|[]]]; auto. apply (ns_ends _ HN v k Hv). }
    rewrite Hq. reflexivity.
  Qed.

  Definition gp : graph bnode := set_graph_nodes (b_g b) hp.
  Lemma ids_gp : ids gp = vars N.
  Proof using HB. unfold ids, gp, hp, dkeys, set_graph_nodes. simpl. rewrite map_map. simpl. apply (bg_ids _ _ _ HB). Qed.
  Lemma parents_gp i p : In p (get_parents gp i) <-> In p (par N i).
  Proof using HB. rewrite get_parents_In. apply (bg_em _ _ _ HB). Qed.
  Lemma kid_gp k n : In (k, n) (g_nodes gp) -> n_id n = k.
  Proof using HB.
    simpl. unfold hp. intros H. apply in_map_iff in H. destruct H as [[k' n'] [E H]]. unfold with_pot in E. simpl in E. inversion E; subst. simpl. apply (bg_node _ _ _ HB k n' H).
  Qed.

  (** related by a common child, or parent and child *)
  Definition mor (x y : Z) : Prop := x <> y /\ exists i, In i (vars N) /\ In x (par N i ++ [i]) /\ In y (par N i ++ [i]).
  Lemma moral_mor x y : moral gp x y <-> mor x y.
  Proof using HN HB.
    unfold moral, mor. rewrite ids_gp. split; intros [Hne H]; split; auto.
    - destruct H as [[e [He H]]|[i [Hi [H1 H2]]]].
      + pose proof (bg_edge _ _ _ HB e He) as Hp. destruct (ns_ends _ HN _ _ Hp) as [V1 V2]. exists (n_id (e_j e)). split; auto.
        destruct H as [[-> ->]|[-> ->]]; split; apply in_or_app; simpl; auto.
      + exists i. rewrite !parents_gp in *. split; auto. split; apply in_or_app; auto.
    - destruct H as [i [Hi [H1 H2]]]. apply in_app_or in H1. apply in_app_or in H2. destruct H1 as [H1|[<-|[]]], H2 as [H2|[<-|[]]]; try congruence.
      + right. exists i. rewrite !parents_gp. auto.
      + left. destruct (bg_edge2 _ _ _ HB _ _ H1) as [e [He [E1 E2]]]. exists e. split; auto.
      + left. destruct (bg_edge2 _ _ _ HB _ _ H2) as [e [He [E1 E2]]]. exists e. split; auto.
  Qed.
  Lemma mor_sym x y : mor x y -> mor y x.
  Proof. clear. intros [H1 [i [H2 [H3 H4]]]]. split; auto. exists i; auto. Qed.

  Definition hm : heap := moralize_meta gp hp.
  Lemma hm_get i : In i (vars N) -> exists n, In (i, n) (g_nodes (b_g b)) /\ dget hm i =
     Some (set_mpar (snd (with_pot (i, n))) (get_parents gp i)).
  Proof using HB.
    intros Hi. destruct (g_node i Hi) as [n [E Hn]]. exists n. split; auto. unfold hm, moralize_meta, hp. rewrite map_map.
    assert (Hk : forall k m, In (k, m) (g_nodes (b_g b)) -> n_id m = k) by (intros k m Hm; apply (bg_node _ _ _ HB k m Hm)).
    revert E Hk. generalize (g_nodes (b_g b)) as l. induction l as [|[k m] l IH]; simpl; [discriminate|].
    intros E Hk. destruct (Z.eqb_spec i k) as [->|Hne].
    - inversion E; subst. rewrite (Hk k n) by (left; auto). reflexivity.
    - apply IH; [exact E|]. intros k0 m0 Hm0; apply Hk; right; exact Hm0.
  Qed.

  (** everything about the compiled tree, except what stale assignments on the node objects would add *)
  Definition mclq_ok (j : jtree) : Prop :=
    forall i n k, In (i, n) (g_nodes (b_g b)) -> n_mclq n = Some k -> exists c, In c (jt_cliques j) /\ k = cl_id c /\ incl (par N i ++ [i]) (cl_nodes c).

  Theorem compile_steps : exists (u : graph bnode) m' Ks j F, (moralize gp = Ok u /\ ug u /\ ue u /\ g_nodes u = g_nodes gp /\ triangulate o u = Ok (m', map mk_clique (keep [] Ks))) /\ compile o b = Ok j /\ elim (vars N) mor Ks /\
    (forall x y, adj u x y <-> mor x y) /\
    jt_cliques j = map mk_clique (keep [] Ks) /\ jt_sepsets j = rev F /\ greedy ends [] (get_sep_sets (h_weight hm) (map mk_clique (keep [] Ks))) F /\
    jt_heap j = hm /\ jt_evid j = [] /\ jt_pots j = [] /\ jt_listener j = false /\
    jt_pinfo j = pinfo_of b (get_nodes gp) /\
    JG j /\ jcount j /\ (forall i, In i (jt_bbn_ids j) <-> In i (vars N)) /\ jt_cliques j <> [] /\
    (mclq_ok j -> jnet N nm j).
  Proof using HN HB Ho.
    destruct (moralize_ok gp) as [u [U1 [U2 [U3 [U4 U5]]]]].
    { rewrite ids_gp. apply (ns_nd _ HN). }
    { apply kid_gp. }
    { intros e He. rewrite ids_gp. apply (ns_ends _ HN). apply (bg_edge _ _ _ HB). exact He. }
    { intros i p _ Hp. rewrite ids_gp. apply parents_gp in Hp. apply (ns_ends _ HN _ _ Hp). }
    destruct (triangulate_ok o u Ho U2 U3) as [m' [Ks [T1 [T2 [T3 _]]]]].
    assert (Eids : ids u = vars N). { unfold ids. rewrite U4. apply ids_gp. }
    assert (HE : elim (vars N) mor Ks). { rewrite <- Eids. eapply elim_ext; [exact T2|]. intros x y _ _. rewrite U5. apply moral_mor. }
    pose proof (ns_nd _ HN) as HV. pose proof (elim_sub _ _ _ HE) as Hsub. pose proof (elim_nd _ _ _ HE HV) as Hnd.
    destruct (kept_antichain _ _ _ HE HV) as [KN KA].
    set (ks := keep [] Ks) in *. set (cs := map mk_clique ks).
    assert (Hk1 : forall K, In K ks -> NoDup K /\ incl K (vars N) /\ K <> []).
    { intros K HK. apply kept_sub in HK. split; [apply Hnd; auto|apply Hsub; auto]. }
    assert (Hcl : forall c, In c cs -> cl_ok c).
    { intros c Hc. apply in_map_iff in Hc. destruct Hc as [K [<- HK]]. split; simpl; auto. apply Hk1; auto. }
    assert (Hinj : forall A B, In A ks -> In B ks -> cl_id (mk_clique A) = cl_id (mk_clique B) -> A = B).
    { intros A B HA HB' E. apply KA; auto. assert (P : Permutation (cl_nodes (mk_clique A)) (cl_nodes (mk_clique B))).
      { apply cl_id_inj; auto; apply Hcl; apply in_map; auto. }
      simpl in P. intros x Hx. apply (Permutation_in _ P); auto. }
    assert (HNc : NoDup (map cl_id cs)). { unfold cs. rewrite map_map. apply NoDup_map_inj; auto. }
    destruct (transform_ok cs Hcl HNc o hm Ho) as [j [F [J1 TF]]].
    set (pi := pinfo_of b (get_nodes gp)).
    assert (EC : compile o b = Ok (set_jpinfo j pi)).
    { unfold compile. rewrite pot_init_ok. cbn [rbind]. fold gp. rewrite U1. cbn [rbind]. rewrite T1. cbn [rbind snd].
      match goal with |- context [transform ?a ?b ?c] => change (transform a b c) with (transform o hm cs) end. rewrite J1. cbn [rbind]. reflexivity. }
    pose proof (tf_greedy _ _ _ _ TF) as HG.
    assert (Hcover : forall C, incl C (vars N) -> C <> [] -> complete mor C -> exists K, In K ks /\ incl C K).
    { intros C H1 H2 H3. destruct (elim_cover _ _ _ HE mor_sym C H1 H2 H3) as [K [HK Hi]]. destruct (kept_cover Ks K HK) as [B [HB' Hi']].
      exists B. split; auto. eapply incl_tran; eauto. }
    assert (Hids : forall i, In i (jt_bbn_ids j) <-> In i (vars N)).
    { intros i. rewrite bbn_ids_In. rewrite (tf_cl _ _ _ _ TF). split.
      - intros [c [Hc Hi]]. apply in_map_iff in Hc. destruct Hc as [K [<- HK]]. apply (Hk1 K HK); auto.
      - intros Hi. destruct (Hcover [i]) as [K [HK Hin]].
        + intros x [<-|[]]; auto.
        + discriminate.
        + intros x y [<-|[]] [<-|[]] Hne; congruence.
        + exists (mk_clique K). split; [apply in_map; auto|]. apply Hin. left; auto. }
    (* counting *)
    assert (HC : jcount j).
    { unfold jcount. rewrite (tf_cl _ _ _ _ TF), (tf_ss _ _ _ _ TF).
      destruct (junction _ _ _ HE HV mor_sym) as [T [F1 [F2 F3]]]. fold ks in F2, F3.
      set (f := fun K => cl_id (mk_clique K)).
      assert (Hts : forall T', (forall a c, In (a, c) T' -> In a ks /\ In c ks /\ meet a c <> [] /\ a <> c) ->
         exists S, incl S (get_sep_sets (h_weight hm) cs) /\ Forall2 flips (map (fun e => (f (fst e), f (snd e))) T') (map ends S) /\ list_sum (map ss_mass S) = list_sum (map ew T')).
      { induction T' as [|[a c] T' IH]; intros HT'. { exists []. split; [intros ? []|]. split; [constructor|reflexivity]. }
        destruct IH as [S [S1 [S2 S3]]]. { intros; apply HT'; right; auto. }
        destruct (HT' a c) as [Ha [Hc' [Hm Hne]]]. { left; auto. }
        assert (Hne' : mk_clique a <> mk_clique c) by (intros E; apply Hne; injection E; auto).
        assert (Hmass : forall x y, In x ks -> In y ks -> ss_mass (mk_sepset (mk_clique x) (mk_clique y)) = ew (x, y)).
        { intros x y Hx Hy. unfold ss_mass. rewrite mk_sepset_nodes. reflexivity. }
        assert (Hewc : ew (c, a) = ew (a, c)). { unfold ew. simpl. apply meet_len; try (apply Hk1; auto). intros x; tauto. }
        destruct (pairs_all cs (mk_clique a) (mk_clique c)) as [Hp|Hp]; try (apply in_map; auto); auto.
        - exists (mk_sepset (mk_clique a) (mk_clique c) :: S). split; [|split].
          + intros s [<-|Hs]; auto. apply sep_sets_In. exists (mk_clique a), (mk_clique c). split; auto.
          + simpl. constructor; auto. left. unfold ends. rewrite mk_sepset_left, mk_sepset_right. reflexivity.
          + simpl. rewrite S3, Hmass by auto. reflexivity.
        - exists (mk_sepset (mk_clique c) (mk_clique a) :: S). split; [|split].
          + intros s [<-|Hs]; auto. apply sep_sets_In. exists (mk_clique c), (mk_clique a). split; auto. split; auto.
            change (meet c a <> []). intros E. apply Hm. destruct (meet a c) as [|z l] eqn:Em; auto. exfalso.
            assert (Hz : In z (meet a c)) by (rewrite Em; left; auto). apply meet_In in Hz. assert (Hz' : In z (meet c a)) by (apply meet_In; tauto). rewrite E in Hz'. destruct Hz'.
          + simpl. constructor; auto. right. unfold ends. rewrite mk_sepset_left, mk_sepset_right. reflexivity.
          + simpl. rewrite S3, Hmass by auto. rewrite Hewc. reflexivity. }
      destruct (Hts T) as [S [S1 [S2 S3]]].
      { intros a c Hac. destruct (F2 a c Hac) as [A1 [A2 A3]]. repeat split; auto. eapply forest_neq; eauto. }
      assert (Hmax : list_sum (map ss_mass S) <= list_sum (map ss_mass F)).
      { apply (greedy_max ends ss_mass (map cl_id cs) (get_sep_sets (h_weight hm) cs) F S); auto.
        - apply sep_sets_sorted.
        - intros s Hs. assert (Hg : sgood cs s) by (eapply sep_sets_good; eauto). unfold ends. simpl. split; apply in_map; [eapply sgood_left|eapply sgood_right]; eauto.
        - eapply forest_flips; [exact S2|]. apply (forest_map f ks); auto. intros a c Hac. destruct (F2 a c Hac) as [A1 [A2 A3]]. auto. }
      assert (El : List.length (jt_bbn_ids j) = List.length (vars N)).
      { apply same_len; auto. apply bbn_ids_NoDup. }
      assert (Ec : list_sum (map clen cs) = lsum ks). { unfold cs, lsum. rewrite map_map. reflexivity. }
      assert (Es : list_sum (map slen (rev F)) = list_sum (map ss_mass F)). { apply Permutation_list_sum, Permutation_map. symmetry. apply Permutation_rev. }
      rewrite El, Ec, Es, F3. lia. }
    assert (Hne : jt_cliques j <> []).
    { rewrite (tf_cl _ _ _ _ TF). destruct (vars N) as [|v vs] eqn:Ev; [exfalso; apply (ns_some _ HN); auto|].
      assert (Hv : In v (jt_bbn_ids j)) by (apply Hids; rewrite ?Ev; left; auto). apply bbn_ids_In in Hv. destruct Hv as [c [Hc _]]. rewrite (tf_cl _ _ _ _ TF) in Hc. intros E. rewrite E in Hc. destruct Hc. }
    assert (HJG : JG (set_jpinfo j pi)). { destruct (tf_JG _ _ _ _ TF). constructor; assumption. }
    exists u, m', Ks, (set_jpinfo j pi), F. split; [repeat (split; [assumption|]); exact T1|]. split; [exact EC|]. split; [exact HE|].
    split. { intros x y. rewrite U5. apply moral_mor. }
    split; [apply TF|]. split; [apply TF|]. split; [apply TF|]. split; [apply TF|]. split; [apply TF|]. split; [apply TF|]. split; [apply TF|]. split; [reflexivity|].
    split; [exact HJG|]. split; [exact HC|]. split; [exact Hids|]. split; [exact Hne|].
    intros Hmc. constructor; auto; [|].
    - change (jt_bbn_ids (set_jpinfo j pi)) with (jt_bbn_ids j) in *. constructor; change (jt_bbn_ids (set_jpinfo j pi)) with (jt_bbn_ids j) in *.
      + intros i Hi. apply Hids in Hi. destruct (hm_get i Hi) as [n [Hn En]]. destruct (bg_node _ _ _ HB i n Hn) as [E1 [E2 [E3 E4]]].
        eexists. change (jt_heap (set_jpinfo j pi)) with (jt_heap j). rewrite (tf_heap _ _ _ _ TF). split; [exact En|]. simpl. split; auto. split; auto. split; auto. split.
        * intros p. unfold jt_parent_ids. change (jt_heap (set_jpinfo j pi)) with (jt_heap j). rewrite (tf_heap _ _ _ _ TF), En. simpl. apply parents_gp.
        * intros k Hk. eapply Hmc; eauto.
      + intros i Hi. apply (ns_dom _ HN), Hids; auto.
      + intros i _. apply (ns_par _ HN).
      + intros i _. apply cpt_entry_dep.
      + intros i a Hi Ha. unfold cpt_entry. apply Hids in Hi. apply (ns_pos _ HN i); auto. apply nth_In. eapply Nat.lt_le_trans; [|apply (ns_cpt _ HN); auto]. apply row_index_lt. auto.
      + intros i Hi. apply Hids in Hi. destruct (Hcover (par N i ++ [i])) as [K [HK Hin]].
        * intros x Hx. apply in_app_or in Hx. destruct Hx as [Hx|[<-|[]]]; auto. apply (ns_ends _ HN _ _ Hx).
        * destruct (par N i); discriminate.
        * intros x y Hx Hy Hxy. split; auto. exists i. auto.
        * exists (mk_clique K). change (jt_cliques (set_jpinfo j pi)) with (jt_cliques j). rewrite (tf_cl _ _ _ _ TF). split; [apply in_map; auto|]. exact Hin.
    - intros i Hi. unfold h_name. change (jt_heap (set_jpinfo j pi)) with (jt_heap j). rewrite (tf_heap _ _ _ _ TF). destruct (hm_get i Hi) as [n [Hn En]]. rewrite En. simpl. apply (bg_node _ _ _ HB i n Hn).
  Qed.

  Theorem compile_full : exists (u : graph bnode) Ks j F, compile o b = Ok j /\ elim (vars N) mor Ks /\
    (forall x y, adj u x y <-> mor x y) /\
    jt_cliques j = map mk_clique (keep [] Ks) /\ jt_sepsets j = rev F /\ greedy ends [] (get_sep_sets (h_weight hm) (map mk_clique (keep [] Ks))) F /\
    jt_heap j = hm /\ jt_evid j = [] /\ jt_pots j = [] /\ jt_listener j = false /\
    jt_pinfo j = pinfo_of b (get_nodes gp) /\
    JG j /\ jcount j /\ (forall i, In i (jt_bbn_ids j) <-> In i (vars N)) /\ jt_cliques j <> [] /\
    (mclq_ok j -> jnet N nm j).
  Proof using HN HB Ho. destruct compile_steps as (u & m' & Ks & j & F & _ & H). exists u, Ks, j, F. exact H. Qed.

  (** the edges of the compiled tree *)
  Theorem compile_edges j : compile o b = Ok j ->
    jt_edges j = map (fun s => (jt_edge_key s, s)) (jt_sepsets j) /\ (forall s, In s (jt_sepsets j) -> sgood (jt_cliques j) s) /\
    (forall c, In c (jt_cliques j) -> cl_ok c /\ c = mk_clique (cl_nodes c)) /\ exists F, jt_sepsets j = rev F /\ forest (map ends F).
  Proof using HN HB Ho.
    intros EJ. destruct (moralize_ok gp) as [u [U1 [U2 [U3 [U4 U5]]]]].
    { rewrite ids_gp. apply (ns_nd _ HN). }
    { apply kid_gp. }
    { intros e He. rewrite ids_gp. apply (ns_ends _ HN). apply (bg_edge _ _ _ HB). exact He. }
    { intros i p _ Hp. rewrite ids_gp. apply parents_gp in Hp. apply (ns_ends _ HN _ _ Hp). }
    destruct (triangulate_ok o u Ho U2 U3) as [m' [Ks [T1 [T2 [T3 _]]]]].
    assert (Eids : ids u = vars N). { unfold ids. rewrite U4. apply ids_gp. }
    assert (HE : elim (vars N) mor Ks). { rewrite <- Eids. eapply elim_ext; [exact T2|]. intros x y _ _. rewrite U5. apply moral_mor. }
    pose proof (ns_nd _ HN) as HV. pose proof (elim_nd _ _ _ HE HV) as Hnd.
    destruct (kept_antichain _ _ _ HE HV) as [KN KA].
    set (ks := keep [] Ks) in *. set (cs := map mk_clique ks).
    assert (Hcl : forall c, In c cs -> cl_ok c).
    { intros c Hc. apply in_map_iff in Hc. destruct Hc as [K [<- HK]]. split; simpl; auto. apply kept_sub in HK. apply Hnd; auto. }
    assert (Hinj : forall A B, In A ks -> In B ks -> cl_id (mk_clique A) = cl_id (mk_clique B) -> A = B).
    { intros A B HA HB' E. apply KA; auto. assert (P : Permutation (cl_nodes (mk_clique A)) (cl_nodes (mk_clique B))).
      { apply cl_id_inj; auto; apply Hcl; apply in_map; auto. }
      simpl in P. intros x Hx. apply (Permutation_in _ P); auto. }
    assert (HNc : NoDup (map cl_id cs)). { unfold cs. rewrite map_map. apply NoDup_map_inj; auto. }
    destruct (transform_ok cs Hcl HNc o hm Ho) as [j0 [F [J1 TF]]].
    set (pi := pinfo_of b (get_nodes gp)).
    assert (EC : compile o b = Ok (set_jpinfo j0 pi)).
    { unfold compile. rewrite pot_init_ok. cbn [rbind]. fold gp. rewrite U1. cbn [rbind]. rewrite T1. cbn [rbind snd].
      match goal with |- context [transform ?a ?b ?c] => change (transform a b c) with (transform o hm cs) end. rewrite J1. cbn [rbind]. reflexivity. }
    rewrite EC in EJ. inversion EJ; subst j. clear EJ.
    change (jt_edges (set_jpinfo j0 pi)) with (jt_edges j0). change (jt_sepsets (set_jpinfo j0 pi)) with (jt_sepsets j0). change (jt_cliques (set_jpinfo j0 pi)) with (jt_cliques j0).
    rewrite (tf_edges _ _ _ _ TF), (tf_ss _ _ _ _ TF), (tf_cl _ _ _ _ TF). split; auto. split; [|split].
    - intros s Hs. apply in_rev in Hs. apply (sep_sets_good cs HNc (h_weight hm)). pose proof (tf_greedy _ _ _ _ TF) as HG. apply (greedy_incl _ (fun _ => 0)) in HG. apply HG in Hs. exact Hs.
    - intros c Hc. split; auto. apply in_map_iff in Hc. destruct Hc as [K [<- HK]]. reflexivity.
    - exists F. split; auto. eapply greedy_forest; [apply (tf_greedy _ _ _ _ TF)|constructor].
  Qed.
End Compile.
