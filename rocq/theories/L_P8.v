(** The claims about serialisation. *)
From Verif Require Import Py M_Graph M_Node M_Pptc M_Serde Spec SpecNet SpecEv SpecRe SpecSer L_Base L_PD L_Sums L_Table L_Tree L_Walk L_Forest L_Root L_Good L_Prop L_Init L_Post L_Read
  L_Ids L_Trans L_Elim L_UG L_Tri L_Moral L_Build L_Exact L_Apply L_Net L_Evid L_Hist L_Claims L_Shape L_Shown L_P1 L_Reapply L_Rebuild L_Serde.
Open Scope nat_scope.

(** ** the network apply returns *)
Lemma parents_keys ops : NoDup (dkeys (b_parents (build ops))).
Proof.
  unfold build. assert (G : forall l b, NoDup (dkeys (b_parents b)) -> NoDup (dkeys (b_parents (fold_left bstep l b)))).
  { induction l as [|op l IH]; intros b H; simpl; auto. apply IH. destruct op as [n|i j]; simpl; auto. unfold edge_added.
    set (ps := if dmem (b_parents b) (n_id j) then b_parents b else dset (b_parents b) (n_id j) []).
    assert (Hp : NoDup (dkeys ps)). { unfold ps. destruct (dmem _ _); auto. apply dset_NoDup; auto. }
    destruct (mem (n_id i) (dgets ps (n_id j))); auto. apply dset_NoDup; auto. }
  apply G. constructor.
Qed.

Lemma apply_saves ops o b j : well_shaped ops -> ord_ok o -> apply o (build ops) = Ok (b, j) ->
  b_parents b = b_parents (build ops) /\ saveable j /\ bgood (net_of ops) (net_name ops) b.
Proof.
  intros HW Ho E. set (N := net_of ops). pose proof (net_shape ops HW) as HN. pose proof (build_good ops) as HB. fold N in HN, HB.
  destruct (compile_full N (net_name ops) (build ops) HN HB o Ho) as [u [Ks [j0 [F [C1 [C2 [C3 [C4 [C5 [C6 [C7 [C8 [C9 [C10 [C11 _]]]]]]]]]]]]]]].
  rewrite apply_compile, C1 in E. cbn [rbind] in E. destruct (infer o j0) as [j1|] eqn:E1; cbn [rbind] in E; [|discriminate]. inversion E; subst. clear E.
  pose proof (keeps_infer _ _ _ E1) as K. split; [reflexivity|]. split.
  - apply saveable_ext with j0; [apply K|apply K|]. eapply compile_saveable; eauto.
  - assert (Hk : dkeys (jt_heap j1) = vars N).
    { rewrite (kp_k _ _ K), C7. rewrite <- (bg_ids _ _ _ HB). unfold hm, moralize_meta, hp, ids, dkeys. rewrite !map_map. simpl. apply map_ext. auto. }
    constructor.
    + exact Hk.
    + intros k n Hn. simpl in Hn. assert (En : dget (jt_heap j1) k = Some n). { apply dget_In_NoDup; auto. rewrite Hk. apply (ns_nd _ HN). }
      assert (Hkv : In k (vars N)). { rewrite <- Hk. apply in_map_iff. exists (k, n); auto. }
      pose proof (kp_h _ _ K k) as Ek. rewrite En, C7 in Ek. destruct (hm_get N (net_name ops) (build ops) HB k Hkv) as [m [Hm Em]]. rewrite Em in Ek. simpl in Ek. unfold core in Ek. simpl in Ek.
      destruct (bg_node _ _ _ HB k m Hm) as [B1 [B2 [B3 B4]]]. inversion Ek; subst. repeat split; congruence.
    + apply (bg_par _ _ _ HB).
    + apply (bg_em _ _ _ HB).
    + apply (bg_edge _ _ _ HB).
    + apply (bg_edge2 _ _ _ HB).
Qed.

(** ** any journey *)
Section Journey.
  Context (ops : list bop) (HW : well_shaped ops) (b : bbn) (Hb : b_parents b = b_parents (build ops)).
  Record travels (s : situation) (j : jtree) : Prop := { tv_s : situated ops s j; tv_v : saveable j; tv_c : jconn j }.

  Lemma act_after s j a : travels s j -> act_ok (fst s) a -> exists j', do_act b j a = Ok j' /\ travels (after_act s a) j'.
  Proof using HW Hb.
    intros [T1 T2 T3] Ha. destruct a as [d|o o' w]; simpl in *.
    - destruct (situated_after ops s j d HW T1 Ha) as [j' [A1 [A2 [A3 A4]]]]. exists j'. split; auto. constructor; auto. apply saveable_ext with j; auto. apply jconn_ext with j; auto.
    - destruct Ha as [Ho Ho']. destruct s as [N [L S]]. destruct T1 as [S1 S2 S3 S4 S5]. simpl in *. pose proof (ws_names _ HW) as Hnm. rewrite <- S2 in Hnm.
      pose proof (st_net _ _ _ _ (sw_st _ _ _ _ _ S4)) as HJ.
      destruct (reload_live N (net_name ops) S1 Hnm j (jnet_ready _ _ _ HJ S5) T2 b) with (o := o) (o' := o') (w := w) as [j' [A1 [A2 [A3 [A4 A5]]]]]; auto.
      + rewrite Hb. apply parents_keys.
      + intros i _. rewrite Hb, S3. apply (bi_par _ _ (build_inv ops)).
      + apply (jconn_covered _ (jn_JG _ _ _ HJ) T3).
      + exists j'. split; auto. constructor; auto. constructor; simpl; auto. apply live_shows; auto. apply unit_none.
  Qed.
  Lemma acts_after l : forall s j, travels s j -> acts_ok s l -> exists j', foldM (do_act b) l j = Ok j' /\ travels (fold_left after_act l s) j'.
  Proof using HW Hb.
    induction l as [|a l IH]; intros s j T Hl; simpl in *. { exists j; auto. }
    destruct Hl as [H1 H2]. destruct (act_after s j a T H1) as [j1 [E1 T1]]. rewrite E1. cbn [rbind]. apply IH; auto.
  Qed.
End Journey.

Theorem c19 ops o l : well_shaped ops -> connected ops -> ord_ok o -> acts_ok (start ops) l ->
  let s := fold_left after_act l (start ops) in
  exists j t, journey o ops l = Ok j /\ get_posteriors j = Ok t /\ exact_table (fst s) (net_name ops) (snd (snd s)) t.
Proof.
  intros HW Hc Ho Hl s. destruct (apply_situated ops o HW Ho) as [b [j0 [A1 [A2 A3]]]]. destruct (apply_saves ops o b j0 HW Ho A1) as [B1 [B2 _]].
  destruct (acts_after ops HW b B1 l (start ops) j0) as [j [E T]]; auto. { constructor; auto. }
  destruct (situated_exact ops _ j HW (tv_s _ _ _ T) (tv_c _ _ _ T)) as [t [E1 E2]]. exists j, t. split; auto. unfold journey. rewrite A1. cbn [rbind fst snd]. exact E.
Qed.

(** ** networks *)
Lemma firsts_app_incl l r : NoDup l -> incl r l -> firsts (l ++ r) = l.
Proof.
  intros Hl. induction r as [|x r IH] using rev_ind; intros Hr. { rewrite app_nil_r. apply firsts_id; auto. }
  rewrite app_assoc, firsts_snoc. assert (Hx : mem x (l ++ r) = true). { apply mem_In. apply in_or_app. left. apply Hr. apply in_or_app; right; left; auto. }
  rewrite Hx. apply IH. intros y Hy. apply Hr. apply in_or_app; auto.
Qed.

Section Net.
  Context (N : net) (nm : Z -> string) (b : bbn) (HB : bgood N nm b) (HV : NoDup (vars N)) (HP : forall i, NoDup (par N i))
    (HE : forall p i, In p (par N i) -> In p (vars N) /\ In i (vars N)) (HK : NoDup (dkeys (b_parents b))) (w : bool).

  Let nf (i : Z) : bnode := new_node i (nm i) (dom N i) (cpt N i).
  Let nd (i : Z) : nodedict := mkND (cpt N i) i (nm i) (dom N i).
  Let tag (i : Z) : pykey := if w then KStr (str_of_Z i) else KInt i.
  Let edges := flat_map (fun p => map (fun pa => (pa, fst p)) (snd p)) (b_parents b).
  Definition saved_ops : list bop := map (fun i => AddNode (nf i)) (vars N) ++ map (fun e => AddEdge (nf (fst e)) (nf (snd e))) edges.

  Lemma tagged_nd : NoDup (map tag (vars N)).
  Proof. apply NoDup_map_inj; auto. intros x y _ _. unfold tag. destruct w; intros E; inversion E; auto. apply str_of_Z_inj; auto. Qed.

  Lemma edges_In pa ch : In (pa, ch) edges -> In pa (par N ch).
  Proof.
    intros H. apply in_flat_map in H. destruct H as [[k l] [H1 H2]]. apply in_map_iff in H2. destruct H2 as [q [E Hq]]. simpl in *. inversion E; subst.
    rewrite <- (bg_par _ _ _ HB). unfold dgets. assert (Ed : dget (b_parents b) ch = Some l) by (apply dget_In_NoDup; auto). rewrite Ed. auto.
  Qed.

  Lemma saved_dict : (if w then json_bbn (bbn_to_dict b) else bbn_to_dict b) = mkBD (map (fun i => (tag i, nd i)) (vars N)) edges.
  Proof.
    assert (E1 : map (fun n => (KInt (n_id n), node_to_dict n)) (get_nodes (b_g b)) = map (fun i => (KInt i, nd i)) (vars N)).
    { rewrite <- (bg_ids _ _ _ HB). unfold get_nodes, dvals, ids, dkeys. rewrite !map_map. apply map_ext_in. intros [k n] Hn. simpl. destruct (bg_node _ _ _ HB k n Hn) as [A1 [A2 [A3 A4]]].
      unfold node_to_dict, nd. congruence. }
    assert (E2 : map (fun n => KInt (n_id n)) (get_nodes (b_g b)) = map KInt (vars N)).
    { rewrite <- (bg_ids _ _ _ HB). unfold get_nodes, dvals, ids, dkeys. rewrite !map_map. apply map_ext_in. intros [k n] Hn. simpl. destruct (bg_node _ _ _ HB k n Hn) as [A1 _]. congruence. }
    unfold bbn_to_dict. rewrite (fold_dset_nil (fun n => KInt (n_id n)) node_to_dict).
    2:{ rewrite E2. apply NoDup_map_inj; auto. intros x y _ _ E; inversion E; auto. }
    rewrite E1. pose proof tagged_nd as T. unfold tag in *. destruct w; [|reflexivity]. unfold json_bbn. simpl. f_equal.
    rewrite (fold_dset_nil (fun p : pykey * nodedict => json_key (fst p)) (fun p => snd p)).
    - rewrite map_map. reflexivity.
    - rewrite map_map. exact T.
  Qed.

  Lemma find_saved i : In i (vars N) -> get_either (map (fun i => (tag i, nf i)) (vars N)) i = Ok (nf i).
  Proof.
    intros Hi. assert (E : dget (map (fun i => (tag i, nf i)) (vars N)) (tag i) = Some (nf i)).
    { apply dget_In_NoDup. { unfold dkeys. rewrite map_map. apply tagged_nd. } apply in_map_iff. exists i; auto. }
    unfold get_either. pose proof E as E'. unfold tag in E' at 2. destruct w eqn:Ew.
    - assert (E0 : dget (map (fun i => (tag i, nf i)) (vars N)) (KInt i) = None).
      { apply dget_None. unfold dkeys. rewrite map_map. intros H. apply in_map_iff in H. destruct H as [k [E1 _]]. unfold tag in E1. simpl in E1. discriminate. }
      rewrite E0. unfold dgetE. rewrite E'. auto.
    - rewrite E'. auto.
  Qed.

  Lemma restored_build : bbn_from_dict (if w then json_bbn (bbn_to_dict b) else bbn_to_dict b) = Ok (build saved_ops).
  Proof.
    rewrite saved_dict. unfold bbn_from_dict. cbv zeta. cbn [bd_nodes bd_edges].
    assert (En : map (fun p => (fst p, node_from_dict (snd p))) (map (fun i => (tag i, nd i)) (vars N)) = map (fun i => (tag i, nf i)) (vars N)). { rewrite map_map. reflexivity. }
    rewrite En. clear En. unfold build, saved_ops. rewrite fold_left_app.
    assert (E1 : fold_left bbn_add_node (dvals (map (fun i => (tag i, nf i)) (vars N))) bbn_empty = fold_left bstep (map (fun i => AddNode (nf i)) (vars N)) bbn_empty).
    { unfold dvals. rewrite map_map. simpl. generalize bbn_empty. generalize (vars N). clear. induction l as [|i l IH]; intros b0; simpl; auto. }
    rewrite E1. generalize (fold_left bstep (map (fun i => AddNode (nf i)) (vars N)) bbn_empty).
    assert (He : forall e, In e edges -> In (fst e) (vars N) /\ In (snd e) (vars N)). { intros [pa ch] H. apply edges_In in H. apply (HE _ _ H). }
    revert He. generalize edges. intros l. induction l as [|[pa ch] l IH]; intros He b0; auto. cbn [foldM fst snd].
    destruct (He (pa, ch)) as [H1 H2]; [left; auto|]. simpl in H1, H2. rewrite (find_saved pa H1), (find_saved ch H2). cbn [rbind map fold_left]. apply IH. intros e Hi; apply He; right; auto.
  Qed.

  Lemma saved_mentioned : mentioned saved_ops = map nf (vars N ++ flat_map (fun e => [fst e; snd e]) edges).
  Proof.
    unfold mentioned, saved_ops. rewrite flat_map_app, map_app. f_equal.
    - clear. induction (vars N); simpl; f_equal; auto.
    - generalize edges. clear. intros l. induction l as [|e l IH]; simpl; f_equal; auto. f_equal; auto.
  Qed.
  Lemma saved_vars : net_vars saved_ops = vars N.
  Proof.
    unfold net_vars. rewrite saved_mentioned, map_map. unfold nf. simpl. rewrite map_id. apply firsts_app_incl; auto.
    intros x Hx. apply in_flat_map in Hx. destruct Hx as [[pa ch] [H1 H2]]. apply edges_In in H1. destruct (HE _ _ H1). destruct H2 as [<-|[<-|[]]]; auto.
  Qed.
  Lemma saved_node i : node_of saved_ops i = if mem i (vars N) then Some (nf i) else None.
  Proof.
    destruct (mem_spec i (vars N)) as [H|H].
    - destruct (node_of saved_ops i) as [n|] eqn:E.
      + destruct (node_of_Some _ _ _ E) as [A1 A2]. rewrite saved_mentioned in A1. apply in_map_iff in A1. destruct A1 as [k [A1 _]]. subst n. simpl in A2. subst k. auto.
      + apply node_of_None in E. rewrite saved_vars in E. contradiction.
    - apply node_of_None. rewrite saved_vars. auto.
  Qed.
  Lemma saved_par i : net_par saved_ops i = par N i.
  Proof.
    unfold net_par, saved_ops. rewrite flat_map_app.
    assert (E1 : flat_map (into i) (map (fun i => AddNode (nf i)) (vars N)) = []). { clear. induction (vars N); simpl; auto. }
    rewrite E1. simpl. rewrite <- (firsts_id (par N i)) by apply HP. f_equal. rewrite <- (bg_par _ _ _ HB). unfold edges. clear E1.
    assert (G : forall d, NoDup (dkeys d) -> flat_map (into i) (map (fun e => AddEdge (nf (fst e)) (nf (snd e))) (flat_map (fun p => map (fun pa => (pa, fst p)) (snd p)) d)) = dgets d i).
    { clear. induction d as [|[k l] d IH]; intros Hn; auto. inversion Hn as [|? ? N1 N2]; subst. simpl. rewrite map_app, flat_map_app, IH by auto. unfold dgets. simpl. rewrite map_map. simpl.
      change (eqb i k) with (Z.eqb i k). destruct (Z.eqb_spec i k) as [->|Hne].
      - assert (E : dget d k = None) by (apply dget_None; auto). rewrite E, app_nil_r. clear. induction l as [|x l IH]; auto. simpl. rewrite Z.eqb_refl. simpl. f_equal; auto.
      - assert (E : forall l, flat_map (into i) (map (fun x => AddEdge (nf x) (nf k)) l) = []). { clear -Hne. induction l as [|x l IH]; auto. simpl. destruct (Z.eqb_spec k i); [congruence|]. auto. }
        rewrite E. reflexivity. }
    apply G; auto.
  Qed.
End Net.

(** the same network, field by field *)
Lemma bgood_saved ops b w : bgood (net_of ops) (net_name ops) b -> b_parents b = b_parents (build ops) ->
  exists ops', bbn_from_dict (if w : bool then json_bbn (bbn_to_dict b) else bbn_to_dict b) = Ok (build ops') /\ same_network ops ops'.
Proof.
  intros HB Hp. pose proof (build_inv ops) as BI.
  assert (HV : NoDup (vars (net_of ops))) by apply firsts_NoDup. assert (HP : forall i, NoDup (par (net_of ops) i)) by (intros; apply firsts_NoDup).
  assert (HE : forall p i, In p (par (net_of ops) i) -> In p (vars (net_of ops)) /\ In i (vars (net_of ops))) by apply (bi_ends _ _ BI).
  assert (HK : NoDup (dkeys (b_parents b))) by (rewrite Hp; apply parents_keys).
  exists (saved_ops (net_of ops) (net_name ops) b). split.
  - apply (restored_build (net_of ops) (net_name ops) b HB HV HE HK w).
  - pose proof (saved_node (net_of ops) (net_name ops) b HB HV HE HK) as SN.
    assert (G : forall i, node_of (saved_ops (net_of ops) (net_name ops) b) i =
       match node_of ops i with Some n => Some (new_node i (n_name n) (n_values n) (n_probs n)) | None => None end).
    { intros i. rewrite SN. destruct (mem_spec i (vars (net_of ops))) as [H|H].
      - unfold net_of, net_name, net_dom, net_cpt. simpl. destruct (node_of ops i) eqn:E; auto. apply node_of_None in E. contradiction.
      - apply node_of_None in H. rewrite H. auto. }
    constructor.
    + apply (saved_vars (net_of ops) (net_name ops) b HB HV HE HK).
    + intros i. apply (saved_par (net_of ops) (net_name ops) b HB HP HK).
    + intros i. unfold net_dom. rewrite G. destruct (node_of ops i); auto.
    + intros i. unfold net_cpt. rewrite G. destruct (node_of ops i); auto.
    + intros i. unfold net_name. rewrite G. destruct (node_of ops i); auto.
    + intros n Hn. rewrite (saved_mentioned (net_of ops) (net_name ops) b) in Hn. apply in_map_iff in Hn. destruct Hn as [k [<- _]]. eauto 10.
Qed.

Lemma same_good ops ops' : same_network ops ops' -> bgood (net_of ops) (net_name ops) (build ops').
Proof.
  intros S. destruct (build_good ops') as [B1 B2 B3 B4 B5 B6]. simpl in *. constructor; simpl.
  - rewrite B1. apply (sn_vars _ _ S).
  - intros k n Hn. rewrite <- (sn_name _ _ S), <- (sn_dom _ _ S), <- (sn_cpt _ _ S). auto.
  - intros i. rewrite <- (sn_par _ _ S). auto.
  - intros i k. rewrite <- (sn_par _ _ S). auto.
  - intros e He. rewrite <- (sn_par _ _ S). auto.
  - intros i k H. rewrite <- (sn_par _ _ S) in H. auto.
Qed.

Theorem c20 ops w : exists ops', reload_bbn w (build ops) = Ok (build ops') /\ same_network ops ops'.
Proof. apply bgood_saved; auto. apply build_good. Qed.
Theorem c20_applied ops o b j w : well_shaped ops -> ord_ok o -> apply o (build ops) = Ok (b, j) ->
  exists ops', reload_bbn w b = Ok (build ops') /\ same_network ops ops'.
Proof. intros HW Ho E. destruct (apply_saves ops o b j HW Ho E) as [A1 [A2 A3]]. apply bgood_saved; auto. Qed.
Theorem c20_posteriors ops w : well_shaped ops -> connected ops ->
  exists b', reload_bbn w (build ops) = Ok b' /\
    forall o h, ord_ok o -> valid_history (net_of ops) h ->
      exists b2 j j' t, apply o b' = Ok (b2, j) /\ do_calls j h = (j', None) /\ get_posteriors j' = Ok t /\
        exact_table (net_of ops) (net_name ops) (shown (net_of ops) (calls h)) t.
Proof.
  intros HW Hc. destruct (c20 ops w) as [ops' [E S]]. exists (build ops'). split; auto. intros o h Ho [H1 H2].
  assert (Hfr : forall i n, In (i, n) (g_nodes (b_g (build ops'))) -> n_mclq n = None).
  { intros i n Hn. pose proof (build_inv ops') as B. assert (En : node_of ops' i = Some n).
    { rewrite <- (bi_get _ _ B). apply dget_In_NoDup; auto. change (NoDup (ids (b_g (build ops')))). rewrite (bi_ids _ _ B). apply firsts_NoDup. }
    destruct (node_of_Some _ _ _ En) as [Hm _]. destruct (sn_new _ _ S n Hm) as [k [a [v [q ->]]]]. reflexivity. }
  destruct (apply_net _ _ _ o (net_shape ops HW) (same_good _ _ S) (ws_names _ HW) Ho Hfr) as [j0 [j [A1 [A2 [A3 [A4 [A5 [A6 [A7 A8]]]]]]]]].
  destruct (calls_shows (net_of ops) (net_name ops) (firsts_NoDup _) (ws_names _ HW) (ws_dom _ HW) h H1 (no_evidence, no_evidence) (set_jlistener j true)) as [j' [B1 [B2 B3]]]; auto.
  { apply live_shows; auto. apply unit_none. }
  assert (Hj : jconn j') by (apply jconn_ext with (set_jlistener j true); auto).
  destruct (sw_live _ _ _ _ _ B2) as [ev Hl]. destruct (live_exact_table (net_of ops) (net_name ops) _ _ (firsts_NoDup _) (ws_names _ HW) Hl) as [t [C1 C2]]. { apply jconn_ext with j'; auto. }
  eexists _, _, j', t. split; [exact A6|]. split; auto.
Qed.
