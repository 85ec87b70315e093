(** What join trees print. *)
From Coq Require Import Ascii Sorting.Sorted.
From Verif Require Import Py M_Graph M_Node M_Pptc M_Serde M_Csv M_Text M_Str Spec SpecNet SpecEv SpecPot SpecStr L_Base L_PD L_Sums L_Table L_Tree L_Walk L_Forest L_Root L_Good L_Prop L_Init L_Post L_Read
  L_Ids L_Trans L_Elim L_UG L_Tri L_Moral L_Build L_Exact L_Apply L_Net L_Evid L_Hist L_Claims L_Shape L_Shown L_Csv L_P1 L_Serde L_Reapply L_Part L_Part2 L_P8 L_Flat L_Str.
Open Scope nat_scope.
Local Open Scope list_scope.

Lemma live_pot N nm L j i : nshape N -> live N nm L j -> jconn j -> In i (vars N) ->
  get_bbn_potential j i = Ok (map (fun y => mkPE [(i, y)] (exact_posterior N L i y)) (dom N i)).
Proof.
  intros HN H Hc Hi. pose proof (ns_nd _ HN) as HV. destruct (lv_from _ _ _ _ H) as [o [L1 [j0 [j1 [x [t [ts [HA [H0 [O E]]]]]]]]]]. subst j.
  change (get_bbn_potential (set_jlistener j1 true) i) with (get_bbn_potential j1 i).
  assert (HL' : forall i v, In i (jt_bbn_ids j0) -> In v (dom N i) -> (0 <= L1 i v)%Qc) by (intros k v Hk Hv; apply (jn_ids _ _ _ H0) in Hk; rewrite HA by auto; apply (lv_pos _ _ _ _ H); auto).
  pose proof (oc_tr _ _ _ _ _ _ _ _ _ O) as HT.
  assert (Hc0 : jconn j0) by (apply jconn_ext with j1; [symmetry; apply O|exact Hc]).
  pose proof (trees_single _ _ _ _ _ (jn_JG _ _ _ H0) Hc0 (x_clique _ _ (oc_x _ _ _ _ _ _ _ _ _ O)) HT) as Ets. subst ts.
  pose proof (vlist_perm N nm HV _ _ _ _ H0 HT) as P. assert (Hi0 : In i (jt_bbn_ids j0)) by (apply (jn_ids _ _ _ H0); auto).
  rewrite (get_pot_tree (dom N) (par N) (cpt_entry N) L1 j0 j1 (jn_JG _ _ _ H0) (jn_hg _ _ _ H0) HL' o x t [] O i) by (apply (Permutation_in _ (Permutation_sym P)); auto).
  rewrite tab_one. f_equal. apply map_ext_in. intros y Hy. f_equal. rewrite (posterior_agree N L L1) by (apply agree_sym; auto).
  unfold postf, asg_of. simpl. rewrite Z.eqb_refl. apply postv_exact; auto. apply (hg_dm _ _ _ _ (jn_hg _ _ _ H0)); auto.
Qed.

Lemma rows_ok N L i : forall l rows, Forall2 reads rows (map (fun y => mkPE [(i, y)] (exact_posterior N L i y)) l) ->
  map fst rows = map (fun y => [(i, y)]) l /\ Forall2 (fun r y => close (snd r) (exact_posterior N L i y)) rows l.
Proof.
  induction l as [|y l IH]; intros rows F; inversion F as [|r e rs es R F']; subst. { split; constructor. }
  destruct (IH rs F') as [I1 I2]. destruct R as [R1 [_ R3]]. cbn [pe_map pe_val] in R1, R3. apply Permutation_sym, Permutation_length_1_inv in R1. split.
  - cbn [map]. rewrite R1, I1. reflexivity.
  - constructor; auto.
Qed.
Theorem c78_printed ops o h i : well_shaped ops -> connected ops -> ord_ok o -> valid_history (net_of ops) h -> Forall hard_call (calls h) ->
  let N := net_of ops in let L := in_force N (calls h) in In i (vars N) -> Forall plain_value (dom N i) ->
  exists j p rows, session o ops h = Ok j /\ get_bbn_potential j i = Ok p /\ read_table (potential_str p) = Some rows /\
    map fst rows = map (fun y => [(i, y)]) (dom N i) /\ Forall2 (fun r y => close (snd r) (exact_posterior N L i y)) rows (dom N i).
Proof.
  intros HW Hc Ho Hh Hd N L Hi Hp. destruct (session_live ops o h HW Ho Hh) as [j [ev [A1 [A2 A3]]]]. fold N in A2.
  assert (HA : agree N (shown N (calls h)) L). { apply shown_in_force. apply (ws_dom _ HW). apply Hh. eapply hard_all_noticed; eauto. apply Hh. }
  assert (A2' : live N (net_name ops) L (set_jevid j ev)) by (eapply live_agree; [exact A2|apply agree_sym; auto]).
  pose proof (live_pot N _ L _ i (net_shape ops HW) A2' (A3 Hc) Hi) as E. change (get_bbn_potential (set_jevid j ev) i) with (get_bbn_potential j i) in E.
  destruct (c78_table (map (fun y => mkPE [(i, y)] (exact_posterior N L i y)) (dom N i))) as [rows [R1 R2]].
  - destruct (ws_dom _ HW i Hi) as [_ Hne]. change (dom N i <> []) in Hne. destruct (dom N i); [congruence|discriminate].
  - apply Forall_forall. intros e He. apply in_map_iff in He. destruct He as [y [<- Hy]]. rewrite Forall_forall in Hp. split.
    + simpl. repeat constructor. intros [].
    + cbn [pe_map]. intros k v [Ek|[]]. inversion Ek; subst. auto.
  - destruct (rows_ok N L i _ _ R2) as [R3 R4]. exists j, (map (fun y => mkPE [(i, y)] (exact_posterior N L i y)) (dom N i)), rows. auto.
Qed.

(** ** cliques by the names of their members *)
Lemma isort_str_unique l l' : Permutation l l' -> isort str_leb l = isort str_leb l'.
Proof.
  intros P. eapply ss_perm_unique; [apply str_leb_anti| | |].
  - apply isort_sorted; [apply str_leb_total|apply str_leb_trans].
  - apply isort_sorted; [apply str_leb_total|apply str_leb_trans].
  - eapply perm_trans; [apply isort_perm|]. eapply perm_trans; [apply P|apply Permutation_sym, isort_perm].
Qed.
Lemma app_inj_l a b c : (a ++ c = b ++ c)%string -> a = b.
Proof.
  intros E. apply (f_equal list_ascii_of_string) in E. assert (G : forall x y, list_ascii_of_string (x ++ y) = list_ascii_of_string x ++ list_ascii_of_string y).
  { induction x as [|u x IH]; intros y; simpl; auto. rewrite IH. auto. }
  rewrite !G in E. apply app_inv_tail in E. rewrite <- (string_of_list_ascii_of_string a), E. apply string_of_list_ascii_of_string.
Qed.
Lemma map_inj_perm (f : Z -> string) l m : (forall x y, In x (l ++ m) -> In y (l ++ m) -> f x = f y -> x = y) -> NoDup l -> NoDup m -> Permutation (map f l) (map f m) -> Permutation l m.
Proof.
  intros H N M P. apply NoDup_Permutation; auto. intros x. split; intros Hx.
  - assert (K : In (f x) (map f m)) by (apply (Permutation_in _ P), in_map; auto). apply in_map_iff in K. destruct K as [y [E Hy]]. apply H in E; [subst; auto|apply in_or_app; auto|apply in_or_app; auto].
  - assert (K : In (f x) (map f l)) by (apply (Permutation_in _ (Permutation_sym P)), in_map; auto). apply in_map_iff in K. destruct K as [y [E Hy]]. apply H in E; [subst; auto|apply in_or_app; auto|apply in_or_app; auto].
Qed.
Section Names.
  Context (h : heap) (c d : clique) (s : ascii).
  Hypothesis Hc : NoDup (cl_nodes c).
  Hypothesis Hd : NoDup (cl_nodes d).
  Hypothesis Hc' : cl_nodes c <> [].
  Hypothesis Hd' : cl_nodes d <> [].
  Hypothesis Hinj : forall x y, In x (cl_nodes c ++ cl_nodes d) -> In y (cl_nodes c ++ cl_nodes d) -> h_name h x = h_name h y -> x = y.
  Hypothesis Hfree : forall x, In x (cl_nodes c ++ cl_nodes d) -> free s (h_name h x).
  Lemma joined_names : join (String s EmptyString) (isort str_leb (names_of h (cl_nodes c))) = join (String s EmptyString) (isort str_leb (names_of h (cl_nodes d))) <-> Permutation (cl_nodes c) (cl_nodes d).
  Proof using Hc Hd Hc' Hd' Hinj Hfree.
    split.
    - intros E. apply (f_equal (split s)) in E.
      assert (N : forall e, cl_nodes e <> [] -> isort str_leb (names_of h (cl_nodes e)) <> []).
      { intros e He Q. pose proof (isort_length str_leb (names_of h (cl_nodes e))) as Z. rewrite Q in Z. unfold names_of in Z. rewrite map_length in Z. destruct (cl_nodes e); [congruence|discriminate]. }
      assert (F : forall e, incl (cl_nodes e) (cl_nodes c ++ cl_nodes d) -> Forall (free s) (isort str_leb (names_of h (cl_nodes e)))).
      { intros e He. apply Forall_forall. intros x Hx. apply isort_In in Hx. apply in_map_iff in Hx. destruct Hx as [i [<- Hi]]. auto. }
      rewrite !split_join_c in E by (auto using incl_appl, incl_appr, incl_refl).
      apply (map_inj_perm (h_name h)); auto. eapply perm_trans; [apply Permutation_sym, isort_perm|]. unfold names_of in E. rewrite E. apply isort_perm.
    - intros P. rewrite (isort_str_unique (names_of h (cl_nodes c)) (names_of h (cl_nodes d))); auto. apply Permutation_map. auto.
  Qed.
End Names.
Lemma c79_text h c d : named_apart h "," c d -> (clique_str h c = clique_str h d <-> Permutation (cl_nodes c) (cl_nodes d)).
Proof.
  intros [H1 [H2 [H3 [H4 [H5 H6]]]]]. rewrite <- (joined_names h c d "," H1 H2 H3 H4 H5 H6). unfold clique_str. split; intros E; [|rewrite E; auto].
  simpl in E. injection E as E. apply app_inj_l in E. auto.
Qed.
Lemma c79_sid h c d : named_apart h "-" c d -> (get_sid h c = get_sid h d <-> Permutation (cl_nodes c) (cl_nodes d)).
Proof. intros [H1 [H2 [H3 [H4 [H5 H6]]]]]. exact (joined_names h c d "-" H1 H2 H3 H4 H5 H6). Qed.

Lemma session_tight ops o h : well_shaped ops -> ord_ok o -> valid_history (net_of ops) h -> exists j, session o ops h = Ok j /\ tight (net_of ops) j.
Proof.
  intros HW Ho Hh. destruct (session_shows ops o h HW Ho Hh) as [b [j [j' [A1 [A2 _]]]]]. exists j'. split; [eapply session_eq; eauto|].
  pose proof (kp_n _ _ (keeps_calls _ _ _ _ A2)) as K. apply tight_ext with j; auto. rewrite apply_compile in A1.
  destruct (compile o (build ops)) as [j0|] eqn:C; cbn [rbind] in A1; [|discriminate]. destruct (infer o j0) as [j1|] eqn:E1; cbn [rbind] in A1; [|discriminate]. inversion A1; subst.
  apply tight_ext with j0; [apply (kp_n _ _ (keeps_infer _ _ _ E1))|]. eapply compile_tight; eauto using net_shape, build_good.
Qed.
Lemma names_inj nm (l : list Z) : NoDup (map nm l) -> forall k i : Z, In k l -> In i l -> nm k = nm i :> string -> k = i.
Proof.
  intros Hd k i Hk Hi E. induction l as [|u l IH]; [destruct Hk|]. inversion Hd as [|? ? Hu Hd']; subst. destruct Hk as [->|Hk], Hi as [->|Hi]; auto.
  - exfalso. apply Hu. rewrite E. apply in_map; auto.
  - exfalso. apply Hu. rewrite <- E. apply in_map; auto.
Qed.
Theorem c79_tree ops o h : well_shaped ops -> ord_ok o -> valid_history (net_of ops) h -> exists j, session o ops h = Ok j /\
  ((forall i, In i (vars (net_of ops)) -> lacks "," (net_name ops i)) -> forall c d, In c (jt_cliques j) -> In d (jt_cliques j) -> clique_str (jt_heap j) c = clique_str (jt_heap j) d -> c = d) /\
  ((forall i, In i (vars (net_of ops)) -> lacks "-" (net_name ops i)) -> forall c d, In c (jt_cliques j) -> In d (jt_cliques j) -> get_sid (jt_heap j) c = get_sid (jt_heap j) d -> c = d).
Proof.
  intros HW Ho Hh. destruct (session_tight ops o h HW Ho Hh) as [j [A1 [_ [_ [T3 T4]]]]]. destruct (session_live ops o h HW Ho Hh) as [j' [ev [B1 [B2 _]]]].
  rewrite A1 in B1. inversion B1; subst j'. clear B1. exists j. split; auto. set (N := net_of ops) in *.
  pose proof (lv_net _ _ _ _ B2) as HN. pose proof (jn_ids _ _ _ HN) as Hids. change (jt_bbn_ids (set_jevid j ev)) with (jt_bbn_ids j) in Hids.
  pose proof (jn_JG _ _ _ HN) as HJ.
  assert (Hn : forall k, In k (vars N) -> h_name (jt_heap j) k = net_name ops k). { intros k Hk. apply (jn_nm _ _ _ HN k Hk). }
  assert (Hm : forall c k, In c (jt_cliques j) -> In k (cl_nodes c) -> In k (vars N)). { intros c k Hc Hk. apply Hids. unfold jt_bbn_ids. rewrite sof_In. apply in_flat_map. eauto. }
  assert (G : forall s, (forall i, In i (vars N) -> lacks s (net_name ops i)) -> forall c d, In c (jt_cliques j) -> In d (jt_cliques j) -> named_apart (jt_heap j) s c d).
  { intros s Hs c d Hc Hd. assert (Hin : forall x, In x (cl_nodes c ++ cl_nodes d) -> In x (vars N)). { intros x Hx. apply in_app_or in Hx. destruct Hx as [Hx|Hx]; eauto. }
    repeat split; auto.
    - apply (jg_cl _ HJ c Hc).
    - apply (jg_cl _ HJ d Hd).
    - intros x y Hx Hy. rewrite !Hn by auto. apply (names_inj _ (vars N)); auto. apply (ws_names _ HW).
    - intros x Hx. rewrite Hn by auto. auto. }
  split; intros Hs c d Hc Hd E.
  - apply (c79_text _ _ _ (G _ Hs c d Hc Hd)) in E. apply T4; auto. intros x. apply (Permutation_in _ E).
  - apply (c79_sid _ _ _ (G _ Hs c d Hc Hd)) in E. apply T4; auto. intros x. apply (Permutation_in _ E).
Qed.
