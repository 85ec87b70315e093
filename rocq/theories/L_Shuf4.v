(** Inference on networks read from reordered JSON. *)
From Verif Require Import Py M_Graph M_Node M_Pptc M_Serde M_Json M_Json2 Spec SpecNet SpecEv SpecRe SpecSer SpecJson SpecShuf L_Base L_PD L_Sums L_Table L_Tree L_Walk L_Forest L_Root L_Good L_Prop L_Init L_Post L_Read
  L_Ids L_Trans L_Elim L_UG L_Tri L_Moral L_Build L_Exact L_Apply L_Net L_Evid L_Hist L_Claims L_Shape L_Shown L_P1 L_Reapply L_Rebuild L_Serde L_P8 L_Json L_Json2 L_Json3 L_Shuf L_Shuf2 L_Shuf3.
Open Scope nat_scope.
Local Open Scope string_scope.
Local Open Scope list_scope.

Lemma dict_ro b v : reordered (bbn_json (bbn_to_dict b)) v ->
  exists d, json_dict v = Ok d /\ Permutation (bd_nodes d) (bd_nodes (json_bbn (bbn_to_dict b))) /\ bd_edges d = bd_edges (bbn_to_dict b).
Proof.
  intros H. destruct (to_dict_keys b) as [A B]. unfold json_bbn. set (D := bbn_to_dict b) in *. clearbody D. destruct D as [ns es]. unfold bbn_json in H. cbn [bd_nodes bd_edges] in *. rewrite json_keys_fold by auto.
  look H "nodes" E1 x1 R1. look H "edges" E2 x2 R2. apply obj_ro in R1. destruct R1 as [m1 [l1 [-> [P1 F1]]]]. inversion R2 as [| | | | |? l2 F2|]; subst.
  assert (Q1 : mapM (fun p => d <- json_node (snd p) ;; Ok (KStr (fst p), d)) l1 = Ok (map (fun p => (json_key (fst p), snd p)) m1)).
  { assert (B1 : Forall (fun p : pykey * nodedict => exists z, fst p = KInt z) m1) by (apply Forall_forall; rewrite Forall_forall in B; intros p Hp; apply B; apply (Permutation_in _ P1 Hp)).
    clear - F1 B1. induction F1 as [|[k d] [k' v] m l [G1 G2] F IH]; auto. inversion B1 as [|? ? [z Hz] B2]; subst. cbn [fst snd] in *. subst. cbn [mapM map snd fst]. rewrite (node_ro _ _ G2). cbn [rbind]. rewrite IH by auto. reflexivity. }
  assert (Q2 : mapM (fun e => pa <- member e "pa" ;; pa <- as_int pa ;; ch <- member e "ch" ;; ch <- as_int ch ;; Ok (pa, ch)) l2 = Ok es).
  { clear - F2. revert l2 F2. induction es as [|[p c] es IH]; intros l2 F2; inversion F2 as [|? e ? l2' G F']; subst; auto. cbn [fst snd] in G. look G "pa" E1 x1 R1. look G "ch" E2 x2 R2. inversion R1; subst. inversion R2; subst.
    cbn [mapM]. rewrite E1. cbn [rbind as_int]. rewrite E2. cbn [rbind as_int]. rewrite (IH _ F'). reflexivity. }
  eexists. split.
  - unfold json_dict. rewrite E1. cbn [rbind as_obj]. rewrite Q1. cbn [rbind]. rewrite E2. cbn [rbind as_list]. rewrite Q2. cbn [rbind]. reflexivity.
  - cbn [bd_nodes bd_edges]. split; [apply Permutation_map; auto|]. auto.
Qed.
Lemma network_ro ops v : reordered (bbn_json (bbn_to_dict (build ops))) v ->
  exists ops', (d <- json_dict v ;; bbn_from_dict d) = Ok (build ops') /\ same_but_order ops ops'.
Proof.
  intros H. destruct (dict_ro _ _ H) as [d [E1 [P E2]]]. rewrite E1. cbn [rbind]. pose proof (build_good ops) as HB. assert (HV : NoDup (vars (net_of ops))) by apply firsts_NoDup.
  pose proof (saved_dict (net_of ops) (net_name ops) (build ops) HB HV true) as SD. cbv zeta in SD. cbv iota in SD. rewrite SD in P. cbn [bd_nodes] in P. apply Permutation_map_inv in P. destruct P as [V [Q PV]].
  destruct (reordered_saved ops V (Permutation_sym PV)) as [ops' [F1 [F2 _]]]. exists ops'. split; auto. rewrite <- F1. f_equal. destruct d as [ns es]. cbn [bd_nodes bd_edges] in *. subst. reflexivity.
Qed.

(** ** the order of the variables *)
Section Order.
  Context (N : net) (V : list Z) (PV : Permutation V (vars N)).
  Let M : net := mkNet V (dom N) (par N) (cpt N).
  Lemma V_in i : In i (vars M) <-> In i (vars N). Proof using PV. split; apply Permutation_in; [|symmetry]; exact PV. Qed.
  Lemma order_shape : nshape N -> nshape M.
  Proof using PV.
    intros H. constructor.
    - apply (Permutation_NoDup (Permutation_sym PV)). apply H.
    - intros E. simpl in E. apply (ns_some _ H). pose proof PV as Q. rewrite E in Q. apply Permutation_nil in Q. auto.
    - intros i Hi. apply (ns_dom _ H). apply V_in. auto.
    - intros i Hi. apply (ns_cpt _ H). apply V_in. auto.
    - intros i q Hi. apply (ns_pos _ H). apply V_in. auto.
    - apply (ns_par _ H).
    - intros i k Hk. destruct (ns_ends _ H i k Hk). split; apply V_in; auto.
  Qed.
  Lemma order_weight L a : weight M L a = weight N L a.
  Proof using PV. unfold weight. f_equal; apply qprod_perm; simpl; [change (cpt_entry M) with (cpt_entry N)|]; apply Permutation_map; exact PV. Qed.
  Lemma order_total L : total M L = total N L.
  Proof using PV. unfold total. simpl. rewrite (sums_ext _ _ _ (weight N L)) by (intros; apply order_weight). apply sums_perm; auto. apply weight_proper. Qed.
  Lemma order_mass L i x : mass_of M L i x = mass_of N L i x.
  Proof using PV.
    unfold mass_of. simpl. rewrite (sums_ext _ _ _ (fun a => if string_dec (a i) x then weight N L a else 0%Qc)) by (intros a; rewrite order_weight; auto). apply sums_perm; auto.
    intros a b E. rewrite E. rewrite (weight_proper N L a b E). auto.
  Qed.
  Lemma order_posterior L i x : exact_posterior M L i x = exact_posterior N L i x.
  Proof using PV. unfold exact_posterior. rewrite order_total, order_mass. auto. Qed.
  Lemma order_table nm L t : exact_table M nm L t -> exact_table N nm L t.
  Proof using PV.
    intros [A B]. split. { rewrite A. apply Permutation_map. exact PV. } intros i Hi. rewrite (B i) by (apply V_in; auto). f_equal. simpl. apply map_ext. intros y. f_equal. apply order_posterior.
  Qed.
  Lemma order_step s c : step M s c = step N s c.
  Proof using PV.
    unfold step. cbv zeta. change (effect M) with (effect N). f_equal. destruct c as [es|ns| |e]; try reflexivity.
    assert (E : forallb (quiet M (fst s)) (about M (fst s) UnobserveAll) = forallb (quiet N (fst s)) (about N (fst s) UnobserveAll)).
    { change (quiet M) with (quiet N). unfold about. change (nothing M) with (nothing N). simpl. apply eq_true_iff_eq. rewrite !forallb_forall. split; intros H x Hx; apply H; revert Hx; apply Permutation_in, Permutation_map; [apply Permutation_sym|]; exact PV. }
    rewrite E. reflexivity.
  Qed.
  Lemma order_shown h : shown M h = shown N h.
  Proof using PV. unfold shown. f_equal. generalize (no_evidence, no_evidence). induction h as [|c h IH]; intros s; auto. cbn [fold_left]. rewrite order_step. apply IH. Qed.
  Lemma order_valid h : valid_history N h -> valid_history M h.
  Proof using PV.
    intros [A B]. split; auto. revert B. apply Forall_impl. intros [es|ns| |e] Hc; simpl in *; auto.
    - revert Hc. apply Forall_impl. intros e [H1 H2]. split; auto. apply V_in; auto.
    - revert Hc. apply Forall_impl. intros n [H1 H2]. split; auto. apply V_in; auto.
    - destruct Hc as [[H1 H2] H3]. split; auto. split; auto. apply V_in; auto.
  Qed.
End Order.

Theorem c113_network read ops s v : loads read s = Ok v -> reordered (bbn_json (bbn_to_dict (build ops))) v ->
  exists ops', from_json read s = Ok (build ops') /\ same_but_order ops ops'.
Proof. intros E H. destruct (network_ro ops v H) as [ops' [A B]]. exists ops'. split; auto. unfold from_json. rewrite E. exact A. Qed.
Lemma order_posteriors ops ops' : same_but_order ops ops' -> well_shaped ops -> connected ops ->
  forall o h, ord_ok o -> valid_history (net_of ops) h ->
    exists b2 j j' t, apply o (build ops') = Ok (b2, j) /\ do_calls j h = (j', None) /\ get_posteriors j' = Ok t /\
      exact_table (net_of ops) (net_name ops) (shown (net_of ops) (calls h)) t.
Proof.
  intros S HW Hc o h Ho H. pose proof (sbo_vars _ _ S) as PV. pose proof (order_shape (net_of ops) (net_vars ops') PV (net_shape ops HW)) as HM. apply (order_valid (net_of ops) (net_vars ops') PV) in H. rewrite <- (order_shown (net_of ops) (net_vars ops') PV).
  pose proof (order_table (net_of ops) (net_vars ops') PV (net_name ops) (shown (mkNet (net_vars ops') (dom (net_of ops)) (par (net_of ops)) (cpt (net_of ops))) (calls h))) as OT.
  assert (CM : forall u w, In u (net_vars ops') -> In w (net_vars ops') -> path (sym (is_parent (mkNet (net_vars ops') (dom (net_of ops)) (par (net_of ops)) (cpt (net_of ops))))) u w).
  { intros u w Hu Hw. assert (P : path (sym (is_parent (net_of ops))) u w) by (apply Hc; apply (Permutation_in _ PV); auto). clear - P PV. induction P as [|x y z Hxy Hyz IH]; [constructor|]. apply path_step with y; auto.
    destruct Hxy as [[A B]|[A B]]; [left|right]; (split; [apply (Permutation_in _ (Permutation_sym PV) A)|exact B]). }
  remember (mkNet (net_vars ops') (dom (net_of ops)) (par (net_of ops)) (cpt (net_of ops))) as M eqn:EM.
  assert (BG : bgood M (net_name ops) (build ops')).
  { subst M. destruct (build_good ops') as [B1 B2 B3 B4 B5 B6]. simpl in *. constructor; simpl.
    - rewrite B1. reflexivity.
    - intros k n Hn. rewrite <- (sbo_name _ _ S), <- (sbo_dom _ _ S), <- (sbo_cpt _ _ S). auto.
    - intros i. rewrite <- (sbo_par _ _ S). auto.
    - intros i k. rewrite <- (sbo_par _ _ S). auto.
    - intros e He. rewrite <- (sbo_par _ _ S). auto.
    - intros i k Hk. rewrite <- (sbo_par _ _ S) in Hk. auto. }
  assert (Hnm : NoDup (map (net_name ops) (vars M))). { subst M. simpl. apply (Permutation_NoDup (Permutation_sym (Permutation_map (net_name ops) PV))). apply (ws_names _ HW). }
  assert (HVM : vars M = net_vars ops') by (subst; reflexivity).
  assert (Hfr : forall i n, In (i, n) (g_nodes (b_g (build ops'))) -> n_mclq n = None).
  { intros i n Hn. pose proof (build_inv ops') as B. assert (En : node_of ops' i = Some n).
    { rewrite <- (bi_get _ _ B). apply dget_In_NoDup; auto. change (NoDup (ids (b_g (build ops')))). rewrite (bi_ids _ _ B). apply firsts_NoDup. }
    destruct (node_of_Some _ _ _ En) as [Hm _]. destruct (sbo_new _ _ S n Hm) as [k [a [v [q ->]]]]. reflexivity. }
  destruct H as [H1 H2].
  destruct (apply_net M (net_name ops) (build ops') o HM BG Hnm Ho Hfr) as [j0 [j [A1 [A2 [A3 [A4 [A5 [A6 [A7 A8]]]]]]]]].
  destruct (calls_shows M (net_name ops) (ns_nd _ HM) Hnm (ns_dom _ HM) h H1 (no_evidence, no_evidence) (set_jlistener j true)) as [j' [B1 [B2 B3]]]; auto.
  { apply live_shows; auto. apply unit_none. }
  assert (Hj : jconn j') by (apply jconn_ext with (set_jlistener j true); auto; apply A8; intros u w Hu Hw; apply CM; rewrite <- HVM; auto).
  destruct (sw_live _ _ _ _ _ B2) as [ev Hl]. destruct (live_exact_table M (net_name ops) _ _ (ns_nd _ HM) Hnm Hl) as [t [C1 C2]]. { apply jconn_ext with j'; auto. }
  eexists _, _, j', t. split; [exact A6|]. split; auto.
Qed.
Theorem c113_network_posteriors read ops s v : well_shaped ops -> connected ops -> loads read s = Ok v -> reordered (bbn_json (bbn_to_dict (build ops))) v ->
  exists b', from_json read s = Ok b' /\ forall o h, ord_ok o -> valid_history (net_of ops) h ->
    exists b2 j j' t, apply o b' = Ok (b2, j) /\ do_calls j h = (j', None) /\ get_posteriors j' = Ok t /\
      exact_table (net_of ops) (net_name ops) (shown (net_of ops) (calls h)) t.
Proof. intros HW HC E H. destruct (c113_network read ops s v E H) as [ops' [A B]]. exists (build ops'). split; auto. intros o h. apply order_posteriors; auto. Qed.
