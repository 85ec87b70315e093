(** What is reported about every variable of every network, connected or not. *)
From Verif Require Import Py M_Graph M_Node M_Pptc Spec SpecNet SpecEv SpecPart L_Base L_PD L_Sums L_Table L_Tree L_Walk L_Forest L_Root L_Good L_Prop L_Init L_Post L_Read
  L_Ids L_Trans L_Elim L_UG L_Tri L_Moral L_Build L_Exact L_Apply L_Net L_Evid L_Hist L_Claims L_Shape L_Shown L_P1 L_Reapply.
Open Scope Qc_scope.

(** ** reading one variable off one table *)
Lemma read_one dm C f i : NoDup C -> In i C -> NoDup (dm i) -> dep C f -> (forall a, okon dm C a -> 0 <= f a) ->
  normalize (marginalize (tab dm C f) (map (fun i => (i, dm i)) [i])) =
  tab dm [i] (fun a => if Qc_eq_dec (sums dm C f no_asg) 0 then 0 else sums dm (minus C [i]) f (upd no_asg i (a i)) / sums dm C f no_asg).
Proof.
  intros HC Hi Hd Hf Hn. assert (Hp : proper f) by (eapply dep_proper; eauto).
  assert (Hi1 : NoDup [i]) by (repeat constructor; simpl; auto). assert (Hii : incl [i] C) by (intros v [<-|[]]; auto).
  rewrite marginalize_tab; auto. 2:{ intros v [<-|[]]; auto. }
  rewrite normalize_tab; auto. 2:{ apply sums_proper; auto. }
  assert (Q2 : sums dm [i] (sums dm (minus C [i]) f) no_asg = sums dm C f no_asg).
  { rewrite <- sums_app. apply sums_perm; auto. symmetry. apply minus_perm; auto. }
  apply tab_ext. intros a Ha. rewrite Q2.
  assert (Q3 : sums dm (minus C [i]) f a = sums dm (minus C [i]) f (upd no_asg i (a i))).
  { apply (sums_dep' dm C [i]); auto.
    - intros v Hv. rewrite minus_In. destruct (in_dec Z.eq_dec v [i]); tauto.
    - intros v [<-|[]]. rewrite upd_eq; auto. }
  rewrite Q3. destruct (Qc_eq_dec _ 0) as [Z|Z]; auto. rewrite Z in Q2.
  eapply (sums_zero_terms dm [i]); [| |exact Q2| |].
  - apply sums_proper; auto.
  - intros b Hb1 Hb2. apply sums_nonneg_ok with (S := [i]); auto. intros b' Hb'. apply Hn. intros v Hv. apply Hb'.
    rewrite in_app_iff, minus_In. destruct (in_dec Z.eq_dec v [i]); auto.
  - intros u Hu. apply upd_neq. intros ->. apply Hu; left; auto.
  - intros v [<-|[]]. rewrite upd_eq. apply Ha. left; auto.
Qed.

Lemma weight_of_proper N L l : proper (weight_of N L l).
Proof. exact (W_proper N L l). Qed.
Lemma from_split N L C l i y : NoDup C -> In i C -> NoDup (dom N i) -> In y (dom N i) ->
  posterior_from N L C l i y = if Qc_eq_dec (sums (dom N) C (weight_of N L l) no_asg) 0 then 0
    else sums (dom N) (minus C [i]) (weight_of N L l) (upd no_asg i y) / sums (dom N) C (weight_of N L l) no_asg.
Proof. intros HC Hi Hd Hy. unfold posterior_from. rewrite sums_split_select; auto using weight_of_proper. Qed.
Lemma from_postv N L V i y : NoDup V -> In i V -> NoDup (dom N i) -> In y (dom N i) ->
  posterior_from N L V V i y = postv (dom N) (W (cpt_entry N) L) V i y.
Proof. intros HC Hi Hd Hy. rewrite from_split; auto. Qed.
Lemma weight_of_perm N L l m a : Permutation l m -> weight_of N L l a = weight_of N L m a.
Proof. intros P. unfold weight_of. apply qprod_perm, Permutation_map, P. Qed.
Lemma from_perm N L C D l m i y : Permutation C D -> Permutation l m -> posterior_from N L C l i y = posterior_from N L D m i y.
Proof.
  intros P Q. assert (E : sums (dom N) C (weight_of N L l) no_asg = sums (dom N) D (weight_of N L m) no_asg).
  { rewrite (sums_perm _ C D) by (auto using weight_of_proper). apply sums_ext. intros b. apply weight_of_perm; auto. }
  unfold posterior_from. rewrite E. destruct (Qc_eq_dec _ 0); auto. f_equal.
  rewrite (sums_perm _ C D); auto.
  - apply sums_ext. intros b. destruct (string_dec (b i) y); auto using weight_of_perm.
  - intros a b Hab. rewrite (Hab i). destruct (string_dec (b i) y); auto. apply weight_of_proper; auto.
Qed.
Lemma from_agree N L L' C l i y : agree N L L' -> incl l C -> incl C (vars N) -> posterior_from N L C l i y = posterior_from N L' C l i y.
Proof.
  intros HA H1 H2. assert (Hw : forall b, okon (dom N) C b -> weight_of N L l b = weight_of N L' l b).
  { intros b Hb. unfold weight_of. apply qprod_map_ext. intros k Hk. f_equal. apply HA; auto. }
  assert (E : sums (dom N) C (weight_of N L l) no_asg = sums (dom N) C (weight_of N L' l) no_asg) by (apply sums_ext_gen; auto).
  unfold posterior_from. rewrite E. destruct (Qc_eq_dec _ 0); auto. f_equal. apply sums_ext_gen. intros b _ Hb. destruct (string_dec (b i) y); auto.
Qed.

(** ** where a node's table goes *)
Definition homed (j : jtree) (c : clique) (k : Z) : bool :=
  match dget (jt_heap j) k with Some n => match n_mclq n with Some s => String.eqb s (cl_id c) | None => false end | None => false end.

(** cliques hold variables that belong together, no clique or separation set is empty, no clique lies within another *)
Definition tight (N : net) (j : jtree) : Prop :=
  (forall c u v, In c (jt_cliques j) -> In u (cl_nodes c) -> In v (cl_nodes c) -> path (sym (is_parent N)) u v) /\
  (forall s, In s (jt_sepsets j) -> ss_nodes s <> []) /\ (forall c, In c (jt_cliques j) -> cl_nodes c <> []) /\
  forall c d, In c (jt_cliques j) -> In d (jt_cliques j) -> incl (cl_nodes c) (cl_nodes d) -> c = d.

Lemma tight_tree N j t : tight N j -> okT t -> incl (cliques_of t) (jt_cliques j) -> incl (seps_of t) (jt_sepsets j) ->
  forall c v, In c (cliques_of t) -> In v (cl_nodes c) -> forall u, In u (cl_nodes (root t)) -> path (sym (is_parent N)) u v.
Proof.
  intros [T1 [T2 _]]. induction t as [r kids IH] using rt_ind'. intros Hok Hc Hs c v Hcc Hv u Hu. simpl in Hcc. destruct Hcc as [<-|Hcc].
  - apply (T1 r); auto. apply Hc; left; auto.
  - apply in_flat_map in Hcc. destruct Hcc as [[s t] [Hk Hct]]. simpl in Hct. destruct (okT_inv _ _ Hok) as [_ K]. destruct (K s t Hk) as [_ [K1 [K2 K3]]].
    assert (Ss : In s (jt_sepsets j)). { apply Hs. simpl. apply in_flat_map. exists (s, t). split; auto. left; auto. }
    destruct (ss_nodes s) as [|w ws] eqn:E; [destruct (T2 s Ss E)|]. apply path_trans with w.
    + apply (T1 r); auto. apply Hc; left; auto. apply K1; left; auto.
    + apply (IH s t Hk) with (c := c); auto.
      * intros d Hd. apply Hc. simpl. right. apply in_flat_map. exists (s, t); auto.
      * intros d Hd. apply Hs. simpl. apply in_flat_map. exists (s, t). split; auto. right; auto.
      * apply K2; left; auto.
Qed.

Section Get.
  Context (N : net) (nm : Z -> string) (HN : nshape N) (L : likelihood) (j0 j2 : jtree) (H0 : jnet N nm j0).
  Context (HL : forall i v, In i (jt_bbn_ids j0) -> In v (dom N i) -> 0 <= L i v).
  Context (o : Ord) (x : clique) (t : rt) (ts : list rt) (O : outcome o (dom N) (cpt_entry N) L j0 j2 x t ts).
  Notation ids := (jt_bbn_ids j0).

  Lemma posteriors_from F : NoDup (map (h_name (jt_heap j0)) ids) ->
    (forall i, In i ids -> get_bbn_potential j2 i = Ok (tab (dom N) [i] (fun a => F i (a i)))) ->
    get_posteriors j2 = Ok (map (fun i => (h_name (jt_heap j0) i, map (fun y => (y, F i y)) (dom N i))) ids).
  Proof using H0 O.
    intros Hnd H1. unfold get_posteriors. rewrite (same_ids _ _ (oc_same _ _ _ _ _ _ _ _ _ O)).
    transitivity (foldM (fun d i => p <- (q <- get_bbn_potential j2 i ;; Ok (pot_to_map q)) ;; Ok (dset d (h_name (jt_heap j0) i) p)) ids []).
    - apply foldM_ext. intros d i Hi. rewrite H1 by auto. cbn [rbind].
      rewrite (name2 _ _ _ _ _ o x t ts O). auto.
    - rewrite (fold_names (h_name (jt_heap j0)) _ (fun i => map (fun y => (y, F i y)) (dom N i))); auto.
      intros i Hi. rewrite H1 by auto. cbn [rbind]. f_equal. rewrite pot_to_map_tab by (apply (hg_dm _ _ _ _ (jn_hg _ _ _ H0)); auto).
      apply map_ext. intros y. f_equal. unfold asg_of. simpl. rewrite Z.eqb_refl. reflexivity.
  Qed.

  Lemma pot_outside i c : In i ids -> ~ In i (vlist t) -> In c (jt_cliques j0) -> assigned j0 i = cl_id c ->
    get_bbn_potential j2 i = Ok (tab (dom N) [i] (fun a => posterior_from N L (cl_nodes c) (filter (fun k => eqb (assigned j0 k) (cl_id c)) ids) i (a i))).
  Proof using HN H0 HL O.
    intros Hi Hv Hc Ea. pose proof (jn_JG _ _ _ H0) as HJ. pose proof (jn_hg _ _ _ H0) as HG. pose proof (oc_tr _ _ _ _ _ _ _ _ _ O) as HT.
    destruct (node2 _ _ _ L j0 j2 HG o x t ts O i Hi) as [n [E0 [E [E1 E2]]]]. unfold get_bbn_potential, dgetE. rewrite E. cbn [rbind]. simpl n_mclq. rewrite Ea.
    pose proof (asn_in (dom N) (par N) (cpt_entry N) j0 HJ HG c i Hc Hi Ea) as Hinc.
    assert (Hic : In i (cl_nodes c)) by (apply Hinc, in_or_app; simpl; auto).
    assert (Hct : ~ In c (cliques_of t)). { intros Hct. apply Hv. apply (vlist_cover t c); auto. eapply trt_ok; apply HT. }
    rewrite (oc_co _ _ _ _ _ _ _ _ _ O c Hc Hct). cbn [rbind]. f_equal. unfold nv. simpl. rewrite E1, E2.
    change [(i, dom N i)] with (map (fun i => (i, dom N i)) [i]).
    assert (Hdi : NoDup (dom N i)) by (apply (hg_dm _ _ _ _ HG); auto).
    rewrite read_one; auto.
    - apply tab_ext. intros a Ha. rewrite (from_split N L (cl_nodes c) _ i (a i)); [reflexivity|apply (jg_cl _ HJ); auto|auto|auto|apply Ha; left; auto].
    - apply (jg_cl _ HJ); auto.
    - exact (Fs_dep (dom N) (par N) (cpt_entry N) L j0 HJ HG c Hc).
    - intros a Ha. exact (Fs_nn (dom N) (par N) (cpt_entry N) L j0 HJ HG HL c a Hc Ha).
  Qed.
End Get.

Section Reads.
  Context (N : net) (nm : Z -> string) (HN : nshape N) (Hnm : NoDup (map nm (vars N))).

  Theorem live_reads L j : live N nm L j -> exists x V f,
    first_clique j x /\ NoDup V /\ incl V (vars N) /\ incl (cl_nodes x) V /\ (forall u v, In u V -> path (sym (is_parent N)) u v -> In v V) /\
    (tight N j -> forall v u, In v V -> In u (cl_nodes x) -> path (sym (is_parent N)) u v) /\
    get_posteriors j = Ok (map (fun i => (nm i, map (fun y => (y, f i y)) (dom N i))) (jt_bbn_ids j)) /\
    (forall i y, In i V -> In y (dom N i) -> f i y = posterior_from N L V V i y) /\
    (forall i y c, In i (vars N) -> ~ In i V -> In y (dom N i) -> In c (jt_cliques j) -> homed j c i = true ->
       f i y = posterior_from N L (cl_nodes c) (filter (homed j c) (jt_bbn_ids j)) i y).
  Proof using HN Hnm.
    intros H. pose proof (ns_nd _ HN) as HV. destruct (lv_from _ _ _ _ H) as [o [L1 [j0 [j1 [x [t [ts [HA [H0 [O E]]]]]]]]]]. subst j.
    change (get_posteriors (set_jlistener j1 true)) with (get_posteriors j1). change (jt_cliques (set_jlistener j1 true)) with (jt_cliques j1).
    change (jt_bbn_ids (set_jlistener j1 true)) with (jt_bbn_ids j1).
    pose proof (oc_same _ _ _ _ _ _ _ _ _ O) as HS. rewrite (same_cl _ _ HS), (same_ids _ _ HS).
    pose proof (jn_JG _ _ _ H0) as HJ. pose proof (jn_hg _ _ _ H0) as HG. pose proof (oc_tr _ _ _ _ _ _ _ _ _ O) as HT.
    assert (HL' : forall i v, In i (jt_bbn_ids j0) -> In v (dom N i) -> (0 <= L1 i v)%Qc) by (intros k v Hk Hv; apply (jn_ids _ _ _ H0) in Hk; rewrite HA by auto; apply (lv_pos _ _ _ _ H); auto).
    set (V := vlist t). set (V2 := flat_map vlist ts).
    assert (P : Permutation (V ++ V2) (vars N)).
    { rewrite <- (jn_perm N nm HV j0 H0). apply NoDup_Permutation; [apply (tr_nd _ _ _ _ _ HT)|apply bbn_ids_NoDup|]. apply (tr_vars _ _ _ _ _ HT). }
    assert (ND : NoDup (V ++ V2)) by apply (tr_nd _ _ _ _ _ HT). pose proof (proj1 (NoDup_app_iff _ _) ND) as ND'. destruct ND' as [NV [_ ND']].
    assert (VN : incl V (vars N)) by (intros v Hv; apply (Permutation_in _ P), in_or_app; auto).
    assert (C1 : forall k, In k V -> incl (par N k) V). { intros k Hk q Hq. apply (fam_V _ _ _ L1 j0 j1 HG o x t ts O k Hk). apply in_or_app; auto. }
    assert (C2 : forall k, In k V2 -> incl (par N k) V2).
    { intros k Hk q Hq. assert (Hki : In k (jt_bbn_ids j0)). { apply (tr_vars _ _ _ _ _ HT). simpl. apply in_or_app; auto. }
      destruct (asn_ok _ _ _ _ HG k Hki) as [c [Hc [_ Hinc]]].
      pose proof Hc as Hc'. apply (Permutation_in _ (Permutation_sym (tr_cl _ _ _ _ _ HT))) in Hc'. unfold tcliques in Hc'. simpl in Hc'. apply in_app_or in Hc'.
      pose proof (tr_ok _ _ _ _ _ HT) as Hok. rewrite Forall_forall in Hok. destruct Hc' as [Hc'|Hc'].
      - exfalso. apply (ND' k); auto. apply (vlist_cover t c); auto. apply Hok; left; auto. apply Hinc, in_or_app; simpl; auto.
      - apply in_flat_map in Hc'. destruct Hc' as [t' [Ht' Hc']]. apply in_flat_map. exists t'. split; auto. apply (vlist_cover t' c); auto. apply Hok; right; auto. apply Hinc, in_or_app; auto. }
    pose proof (oc_x _ _ _ _ _ _ _ _ _ O) as Fx.
    assert (Hfind : forall i, In i (jt_bbn_ids j0) -> exists c, find (fun c => eqb (cl_id c) (assigned j0 i)) (jt_cliques j0) = Some c /\ In c (jt_cliques j0) /\ assigned j0 i = cl_id c).
    { intros i Hi. destruct (asn_ok _ _ _ _ HG i Hi) as [c [Hc [Ea _]]]. destruct (find (fun c => eqb (cl_id c) (assigned j0 i)) (jt_cliques j0)) as [d|] eqn:Ef.
      - exists d. split; auto. apply find_some in Ef. destruct Ef as [Ef1 Ef2]. split; auto. destruct (eqb_spec (cl_id d) (assigned j0 i)); [auto|discriminate].
      - exfalso. pose proof (find_none _ _ Ef c Hc) as Q. simpl in Q. rewrite Ea in Q. change (eqb (cl_id c) (cl_id c)) with (String.eqb (cl_id c) (cl_id c)) in Q. rewrite String.eqb_refl in Q. discriminate. }
    set (loc := fun c => filter (fun k => eqb (assigned j0 k) (cl_id c)) (jt_bbn_ids j0)).
    set (F := fun i y => if in_dec Z.eq_dec i V then postv (dom N) (W (cpt_entry N) L1) V i y
       else match find (fun c => eqb (cl_id c) (assigned j0 i)) (jt_cliques j0) with
            | Some c => posterior_from N L1 (cl_nodes c) (loc c) i y | None => 0 end).
    exists x, V, F. split; [|split; [|split; [|split; [|split; [|split; [|split; [|split]]]]]]]; auto.
    - destruct Fx as [l El]. exists l. change (jt_cliques (set_jlistener j1 true)) with (jt_cliques j1). rewrite (same_cl _ _ HS). exact El.
    - intros v Hv. apply (vlist_cover t x); auto. eapply trt_ok; apply HT. rewrite <- (tr_root _ _ _ _ _ HT). apply root_In.
    - intros u v Hu Hp. eapply path_inv with (P := fun i => In i V); [|exact Hu|exact Hp]. intros a b Ha [[Hb Hab]|[Hb Hab]].
      + apply (Permutation_in _ (Permutation_sym P)) in Hb. apply in_app_or in Hb. destruct Hb as [Hb|Hb]; auto. exfalso. apply (ND' a); auto. apply (C2 b Hb a Hab).
      + apply (C1 a Ha b Hab).
    - intros Ht v u Hv Hu. destruct (vlist_sub t v Hv) as [c [Hc Hvc]].
      assert (Ht0 : tight N j0).
      { destruct Ht as [T1 [T2 [T3 T4]]]. change (jt_cliques (set_jlistener j1 true)) with (jt_cliques j1) in T1, T3, T4. change (jt_sepsets (set_jlistener j1 true)) with (jt_sepsets j1) in T2.
        rewrite (same_cl _ _ HS) in T1, T3, T4. rewrite (same_ss _ _ HS) in T2. split; auto. }
      apply (tight_tree N j0 t) with (c := c); auto.
      + eapply trt_ok; apply HT.
      + intros d Hd. eapply trt_cl; eauto.
      + intros d Hd. eapply trt_ss; eauto.
      + rewrite (tr_root _ _ _ _ _ HT). auto.
    - rewrite (posteriors_from N nm L1 j0 j1 H0 o x t ts O F (names_nd N nm HV Hnm j0 H0)).
      + f_equal. apply map_ext_in. intros i Hi. rewrite (jn_nm _ _ _ H0); auto. apply (jn_ids _ _ _ H0); auto.
      + intros i Hi. unfold F. destruct (in_dec Z.eq_dec i V) as [Hv|Hv].
        * exact (get_pot_tree _ _ _ L1 j0 j1 HJ HG HL' o x t ts O i Hv).
        * destruct (Hfind i Hi) as [c [E1 [E2 E3]]]. rewrite E1. apply (pot_outside N nm HN L1 j0 j1 H0 HL' o x t ts O i c); auto.
    - intros i y Hi Hy. unfold F. destruct (in_dec Z.eq_dec i V) as [_|]; [|tauto].
      assert (Hd : NoDup (dom N i)) by (apply (ns_dom _ HN); auto). rewrite <- from_postv by auto. apply from_agree; auto using incl_refl.
    - intros i y c Hi Hv Hy Hc Hh. unfold F. destruct (in_dec Z.eq_dec i V) as [|_]; [tauto|]. apply (jn_ids _ _ _ H0) in Hi. destruct (Hfind i Hi) as [d [E1 [E2 E3]]]. rewrite E1.
      destruct (oc_fill _ _ _ _ _ _ _ _ _ O) as [_ Fi].
      assert (Hh' : forall k d, In k (jt_bbn_ids j0) -> homed (set_jlistener j1 true) d k = eqb (assigned j0 k) (cl_id d)).
      { intros k d' Hk. unfold homed. change (jt_heap (set_jlistener j1 true)) with (jt_heap j1). rewrite Fi, (proj2 (mem_In _ _) Hk). destruct (hg_node _ _ _ _ HG k Hk) as [n [En _]]. rewrite En. reflexivity. }
      rewrite (Hh' i c Hi) in Hh. destruct (eqb_spec (assigned j0 i) (cl_id c)) as [Eh|]; [|discriminate].
      assert (d = c) by (apply (jg_c_inj j0 HJ); auto; congruence). subst d.
      replace (filter (homed (set_jlistener j1 true) c) (jt_bbn_ids j0)) with (loc c).
      2:{ unfold loc. apply filter_ext_in. intros k Hk. symmetry. apply Hh'; auto. }
      apply from_agree; auto.
      + intros k Hk. apply filter_In in Hk. destruct Hk as [Hk Ek]. destruct (eqb_spec (assigned j0 k) (cl_id c)) as [Ek'|]; [|discriminate].
        apply (asn_in (dom N) (par N) (cpt_entry N) j0 HJ HG c k); auto. apply in_or_app; simpl; auto.
      + intros k Hk. apply (jn_ids _ _ _ H0). apply bbn_ids_In. exists c; auto.
  Qed.
End Reads.
