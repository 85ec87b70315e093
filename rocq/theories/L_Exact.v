(** What a well-formed join tree for a network answers: the exact posteriors of the network. *)
From Verif Require Import Py M_Graph M_Node M_Pptc Spec L_Base L_PD L_Sums L_Table L_Tree L_Walk L_Forest L_Root L_Good L_Prop L_Init L_Post L_Read.

Open Scope Qc_scope.

(** ** sums over permuted variables *)
Lemma sums_split_select dm V i x f : proper f -> NoDup V -> In i V -> NoDup (dm i) -> In x (dm i) ->
  sums dm V (fun a => if string_dec (a i) x then f a else 0) no_asg = sums dm (minus V [i]) f (upd no_asg i x).
Proof.
  intros Hf HN Hi Hd Hx.
  assert (P : Permutation V ([i] ++ minus V [i])). { apply minus_perm; auto. constructor; [tauto|constructor]. intros y [<-|[]]; auto. }
  rewrite (sums_perm dm _ _ (fun a => if string_dec (a i) x then f a else 0) no_asg (fun a b E => ltac:(simpl; rewrite (E i); destruct (string_dec (b i) x); auto)) P).
  rewrite sums_app.
  transitivity (sums dm [i] (fun b => if string_dec (b i) x then sums dm (minus V [i]) f b else 0) no_asg).
  - apply sums_ext. intros b. destruct (string_dec (b i) x) as [E|E].
    + apply sums_ext_gen. intros c Hc _. rewrite Hc. destruct (string_dec (b i) x); auto; congruence. rewrite minus_In. simpl. tauto.
    + apply sums_zero. intros c Hc _. rewrite Hc. destruct (string_dec (b i) x); auto; congruence. rewrite minus_In. simpl. tauto.
  - apply sums_select; auto.
Qed.

Lemma W_weight (N : net) L V a : Permutation V (vars N) -> W (cpt_entry N) L V a = weight N L a.
Proof.
  intros P. unfold W, weight. rewrite <- qprod_map_mult. apply qprod_perm, Permutation_map; auto.
Qed.

Lemma cpt_entry_dep N i : dep (par N i ++ [i]) (cpt_entry N i).
Proof. intros a b H. unfold cpt_entry. f_equal. apply row_index_ext. auto. Qed.
Lemma cpt_entry_proper N i : proper (cpt_entry N i).
Proof. eapply dep_proper, cpt_entry_dep. Qed.
Lemma W_proper N L V : proper (W (cpt_entry N) L V).
Proof. intros a b E. unfold W. apply qprod_map_ext. intros i _. rewrite (cpt_entry_proper N i a b E), E. auto. Qed.
Lemma weight_proper N L : proper (weight N L).
Proof. intros a b E. rewrite <- !(W_weight N L (vars N)) by auto. apply W_proper; auto. Qed.

Lemma postv_exact (N : net) L V i x : Permutation V (vars N) -> NoDup (vars N) -> In i (vars N) -> NoDup (dom N i) -> In x (dom N i) ->
  postv (dom N) (W (cpt_entry N) L) V i x = exact_posterior N L i x.
Proof.
  intros P HN Hi Hd Hx. unfold postv, exact_posterior, total, mass_of.
  assert (NV : NoDup V) by (eapply Permutation_NoDup; [symmetry; eauto|auto]).
  assert (E1 : sums (dom N) V (W (cpt_entry N) L V) no_asg = sums (dom N) (vars N) (weight N L) no_asg).
  { rewrite (sums_perm _ _ (vars N)) by (auto; apply W_proper). apply sums_ext. intros b. apply W_weight; auto. }
  rewrite E1. destruct (Qc_eq_dec (sums (dom N) (vars N) (weight N L) no_asg) 0); auto. f_equal.
  rewrite (sums_split_select (dom N) (vars N) i x (weight N L)); auto using weight_proper.
  rewrite (sums_perm _ _ (minus (vars N) [i])) by (first [apply W_proper|apply Permutation_filter; auto]).
  apply sums_ext. intros b. apply W_weight; auto.
Qed.

(** several components: the posterior is decided by the component of the variable *)
Lemma postv_component (N : net) L V V2 i x : Permutation (V ++ V2) (vars N) -> NoDup (vars N) -> In i V -> NoDup (dom N i) -> In x (dom N i) ->
  (forall k, In k V -> incl (par N k) V) -> (forall k, In k V2 -> incl (par N k) V2) ->
  sums (dom N) V2 (W (cpt_entry N) L V2) no_asg <> 0 ->
  postv (dom N) (W (cpt_entry N) L) V i x = exact_posterior N L i x.
Proof.
  intros P HN Hi Hd Hx C1 C2 Hz.
  assert (NV : NoDup (V ++ V2)) by (eapply Permutation_NoDup; [symmetry; eauto|auto]). apply NoDup_app_iff in NV. destruct NV as [NV1 [NV2 ND]].
  assert (D : forall U, (forall k, In k U -> incl (par N k) U) -> dep U (W (cpt_entry N) L U)).
  { intros U C. unfold W. apply dep_qprod with (F := fun i a => cpt_entry N i a * L i (a i)). intros k Hk. apply dep_mult.
    - apply (dep_mono (par N k ++ [k])); [|apply cpt_entry_dep]. intros y Hy. apply in_app_or in Hy. destruct Hy as [Hy|[<-|[]]]; auto. eapply C; eauto.
    - intros a b H. rewrite (H k); auto. }
  assert (EW : forall a, weight N L a = W (cpt_entry N) L V a * W (cpt_entry N) L V2 a).
  { intros a. rewrite <- (W_weight N L (V ++ V2)) by auto. unfold W. rewrite map_app, qprod_app. auto. }
  set (t2 := sums (dom N) V2 (W (cpt_entry N) L V2) no_asg) in *.
  assert (E2 : forall a U f, dep V f -> incl U V -> sums (dom N) (U ++ V2) (fun b => f b * W (cpt_entry N) L V2 b) a = sums (dom N) U f a * t2).
  { intros a U f Df HU. rewrite <- (sums_prod (dom N) V V2 U V2 f (W (cpt_entry N) L V2) a Df (D V2 C2)).
    - f_equal. unfold t2. apply (sums_dep' (dom N) V2 [] V2 _ (D V2 C2)). auto. intros v [].
    - intros v Hv. apply ND, HU; auto.
    - intros v Hv Hv'. apply (ND v); auto. }
  assert (Et : total N L = sums (dom N) V (W (cpt_entry N) L V) no_asg * t2).
  { unfold total. rewrite <- (sums_perm _ (V ++ V2)) by (auto; apply weight_proper). rewrite <- (E2 no_asg V); auto using incl_refl. apply sums_ext; auto. }
  assert (Em : mass_of N L i x = sums (dom N) (minus V [i]) (W (cpt_entry N) L V) (upd no_asg i x) * t2).
  { unfold mass_of. rewrite (sums_split_select (dom N) (vars N) i x (weight N L)); auto using weight_proper.
    2:{ apply (Permutation_in _ P), in_or_app; auto. }
    rewrite <- (E2 (upd no_asg i x) (minus V [i])).
    - rewrite (sums_perm _ (minus (vars N) [i]) (minus V [i] ++ V2)); [apply sums_ext; auto|apply weight_proper|].
      apply NoDup_Permutation.
      + apply minus_NoDup; auto.
      + apply NoDup_app_intro; auto using minus_NoDup. intros v Hv. apply minus_In in Hv. apply ND; tauto.
      + intros v. rewrite in_app_iff, !minus_In. split.
        * intros [H1 H2]. apply (Permutation_in _ (Permutation_sym P)) in H1. apply in_app_or in H1. tauto.
        * intros [[H1 H2]|H1]; split; auto; try (apply (Permutation_in _ P), in_or_app; auto). intros [->|[]]. apply (ND v); auto.
    - auto.
    - intros v Hv. apply minus_In in Hv; tauto. }
  unfold postv, exact_posterior. rewrite Et, Em. set (t1 := sums (dom N) V (W (cpt_entry N) L V) no_asg).
  destruct (Qc_eq_dec t1 0) as [Z1|Z1].
  - rewrite Z1. destruct (Qc_eq_dec (0 * t2) 0) as [|n]; auto. exfalso. apply n. ring.
  - destruct (Qc_eq_dec (t1 * t2) 0) as [Z2|Z2].
    + apply Qcmult_integral in Z2. tauto.
    + field. auto.
Qed.

(** ** join trees for a network *)
Record jnet (N : net) (nm : Z -> string) (j : jtree) : Prop := {
  jn_JG : JG j;
  jn_hg : hgood j (dom N) (par N) (cpt_entry N);
  jn_cnt : jcount j;
  jn_ids : forall i, In i (jt_bbn_ids j) <-> In i (vars N);
  jn_nm : forall i, In i (vars N) -> h_name (jt_heap j) i = nm i;
  jn_ne : jt_cliques j <> [] }.
Definition jconn (j : jtree) : Prop :=
  forall c d, In c (jt_cliques j) -> In d (jt_cliques j) -> conn (map ends (jt_sepsets j)) (cl_id c) (cl_id d).

Lemma trees_single o j x t ts : JG j -> jconn j -> In x (jt_cliques j) -> trees o j x t ts -> ts = [].
Proof.
  intros HJ Hc Hx HT. destruct ts as [|t' ts]; auto. exfalso.
  pose proof (tr_cl _ _ _ _ _ HT) as Pc. pose proof (tr_ss _ _ _ _ _ HT) as Ps.
  assert (Hr : In (root t') (jt_cliques j)). { apply (Permutation_in _ Pc). unfold tcliques. simpl. apply in_or_app; right. apply in_or_app; left. apply root_In. }
  assert (HNc : NoDup (map cl_id (tcliques (t :: t' :: ts)))).
  { eapply Permutation_NoDup; [symmetry; apply Permutation_map, Pc|]. pose proof (jg_ids_NoDup j HJ) as H. apply NoDup_app_iff in H. tauto. }
  unfold tcliques in HNc. simpl in HNc. rewrite map_app in HNc. apply NoDup_app_iff in HNc. destruct HNc as [_ [_ HD]].
  assert (HJT : Forall joinsT (t :: t' :: ts)) by apply HT. rewrite Forall_forall in HJT.
  assert (Hjo : forall t0 s, joinsT t0 -> In s (seps_of t0) -> In (ss_left s) (cliques_of t0) /\ In (ss_right s) (cliques_of t0)).
  { clear. induction t0 as [c kids IH] using rt_ind'. intros s Hj Hs. rewrite seps_eq in Hs. unfold sepsL in Hs. apply in_flat_map in Hs. destruct Hs as [[s' t1] [Hi Hs]]. simpl in Hs.
    destruct (joinsT_inv c kids Hj s' t1 Hi) as [J1 J2]. rewrite cliques_eq.
    assert (Hin : forall d, In d (cliques_of t1) -> In d (c :: cliquesL kids)). { intros d Hd. right. unfold cliquesL. apply in_flat_map. exists (s', t1); auto. }
    destruct Hs as [<-|Hs].
    - destruct J1 as [[-> ->]|[-> ->]]; split; try (left; reflexivity); apply Hin, root_In.
    - destruct (IH s' t1 Hi s J2 Hs). auto. }
  assert (G : forall a b, conn (map ends (jt_sepsets j)) a b -> In a (map cl_id (cliques_of t)) -> In b (map cl_id (cliques_of t))).
  { intros a b Hab Ha. unfold conn in Hab. eapply path_inv with (P := fun y => In y (map cl_id (cliques_of t))); [|exact Ha|exact Hab].
    simpl. intros u v Hu [Hs|Hs]; apply in_map_iff in Hs; destruct Hs as [s [Es Hs]]; inversion Es; subst; clear Es;
      apply (Permutation_in _ (Permutation_sym Ps)) in Hs; unfold tseps in Hs; apply in_flat_map in Hs; destruct Hs as [t0 [Ht0 Hs]];
      destruct (Hjo t0 s (HJT t0 Ht0) Hs) as [H1 H2]; (destruct Ht0 as [<-|Ht0]; [apply in_map; auto|]); exfalso; apply (HD _ Hu);
      rewrite <- ?map_app; apply in_map; change (In (ss_left s) (tcliques (t' :: ts))) || change (In (ss_right s) (tcliques (t' :: ts)));
      apply in_flat_map; exists t0; auto. }
  assert (Hroot : In (cl_id x) (map cl_id (cliques_of t))). { rewrite <- (tr_root _ _ _ _ _ HT). apply in_map, root_In. }
  pose proof (G _ _ (Hc x (root t') Hx Hr) Hroot) as H. apply (HD _ H). rewrite map_app. apply in_or_app; left. apply in_map, root_In.
Qed.

Section Net.
  Context (N : net) (nm : Z -> string) (HV : NoDup (vars N)) (Hnm : NoDup (map nm (vars N))).

  Lemma jn_perm j : jnet N nm j -> Permutation (jt_bbn_ids j) (vars N).
  Proof using HV. clear Hnm. intros H. apply NoDup_Permutation; auto. apply bbn_ids_NoDup. apply (jn_ids _ _ _ H). Qed.

  (** inference on a well-formed tree gives the exact posteriors and a well-formed tree again *)
  Theorem infer_net0 o j L : ord_ok o -> jnet N nm j -> egood j (dom N) L ->
    (forall i v, In i (vars N) -> In v (dom N i) -> 0 <= L i v) ->
    exists j2 x t ts, infer o j = Ok j2 /\ outcome o (dom N) (cpt_entry N) L j j2 x t ts /\ jnet N nm j2 /\ efull j2 (dom N) L.
  Proof using HV.
    intros Ho H HE HL. assert (HL' : forall i v, In i (jt_bbn_ids j) -> In v (dom N i) -> 0 <= L i v) by (intros; apply HL; auto; apply (jn_ids _ _ _ H); auto).
    destruct (infer_ok _ _ _ L j (jn_JG _ _ _ H) (jn_hg _ _ _ H) HE (jn_cnt _ _ _ H) HL' o Ho (jn_ne _ _ _ H)) as [j2 [x [t [ts [E O]]]]].
    exists j2, x, t, ts. split; auto. split; auto. pose proof (oc_same _ _ _ _ _ _ _ _ _ O) as S.
    pose proof (oc_fill _ _ _ _ _ _ _ _ _ O) as [_ F]. pose proof (jn_hg _ _ _ H) as G.
    split; [|apply (oc_ev _ _ _ _ _ _ _ _ _ O)]. constructor.
    - eapply same_JG; eauto. apply (jn_JG _ _ _ H).
    - constructor; rewrite ?(same_ids _ _ S), ?(same_cl _ _ S).
      + intros i Hi. destruct (hg_node _ _ _ _ G i Hi) as [n [E1 [E2 [E3 [E4 [E5 E6]]]]]]. exists (set_mclq n (assigned j i)).
        assert (Ei : dget (jt_heap j2) i = Some (set_mclq n (assigned j i))). { rewrite F. rewrite (proj2 (mem_In _ _) Hi), E1. auto. }
        split; auto. split; auto. split; auto. split; auto. split.
        * intros p. rewrite <- E5. unfold jt_parent_ids. rewrite Ei, E1. simpl. reflexivity.
        * intros k Hk. simpl in Hk. inversion Hk; subst k. destruct (asn_ok _ _ _ _ G i Hi) as [c [Hc [Ea Hinc]]]. exists c. auto.
      + apply (hg_dm _ _ _ _ G).
      + apply (hg_nd _ _ _ _ G).
      + apply (hg_dep _ _ _ _ G).
      + apply (hg_nn _ _ _ _ G).
      + apply (hg_fam _ _ _ _ G).
    - eapply same_jcount; eauto. apply (jn_cnt _ _ _ H).
    - intros i. rewrite (same_ids _ _ S). apply (jn_ids _ _ _ H).
    - intros i Hi. unfold h_name. rewrite F. rewrite <- (jn_nm _ _ _ H i Hi). unfold h_name. destruct (mem i (jt_bbn_ids j)); auto. destruct (dget (jt_heap j) i); auto.
    - rewrite (same_cl _ _ S). apply (jn_ne _ _ _ H).
  Qed.

  Theorem infer_net o j L : ord_ok o -> jnet N nm j -> egood j (dom N) L ->
    (forall i v, In i (vars N) -> In v (dom N i) -> 0 <= L i v) ->
    exists j2 x t ts, infer o j = Ok j2 /\ outcome o (dom N) (cpt_entry N) L j j2 x t ts /\ jnet N nm j2 /\ efull j2 (dom N) L.
  Proof using HV Hnm. exact (infer_net0 o j L). Qed.

  Lemma names_nd j : jnet N nm j -> NoDup (map (h_name (jt_heap j)) (jt_bbn_ids j)).
  Proof using HV Hnm.
    intros H. apply (Permutation_NoDup (l := map nm (vars N))); auto. rewrite <- (map_ext_in _ _ _ (fun i Hi => jn_nm _ _ _ H i Hi)).
    apply Permutation_map. symmetry. apply jn_perm; auto.
  Qed.

  Lemma vlist_perm o j x t : jnet N nm j -> trees o j x t [] -> Permutation (vlist t) (vars N).
  Proof using HV.
    clear Hnm. intros H HT. rewrite <- (jn_perm j H). apply NoDup_Permutation.
    - pose proof (tr_nd _ _ _ _ _ HT) as Hd. simpl in Hd. rewrite app_nil_r in Hd. auto.
    - apply bbn_ids_NoDup.
    - intros v. rewrite <- (tr_vars _ _ _ _ _ HT v). simpl. rewrite app_nil_r. tauto.
  Qed.

  Lemma x_clique j x : first_clique j x -> In x (jt_cliques j).
  Proof. clear. intros [l E]. apply (isort_In cl_leb). rewrite E. left; auto. Qed.

  Theorem posterior_net o j L j2 x t ts : jnet N nm j -> jconn j -> outcome o (dom N) (cpt_entry N) L j j2 x t ts ->
    (forall i v, In i (vars N) -> In v (dom N i) -> 0 <= L i v) ->
    forall i y, In i (vars N) -> In y (dom N i) -> posterior j2 (nm i) y = Ok (exact_posterior N L i y).
  Proof using HV Hnm.
    intros H Hc O HL i y Hi Hy. assert (HL' : forall i v, In i (jt_bbn_ids j) -> In v (dom N i) -> 0 <= L i v) by (intros; apply HL; auto; apply (jn_ids _ _ _ H); auto).
    pose proof (oc_tr _ _ _ _ _ _ _ _ _ O) as HT. pose proof (trees_single _ _ _ _ _ (jn_JG _ _ _ H) Hc (x_clique _ _ (oc_x _ _ _ _ _ _ _ _ _ O)) HT) as Ets. subst ts.
    pose proof (vlist_perm _ _ _ _ H HT) as P. assert (Hv : In i (vlist t)) by (apply (Permutation_in _ (Permutation_sym P)); auto).
    rewrite <- (jn_nm _ _ _ H i Hi).
    rewrite (posterior_ok _ _ _ L j j2 (jn_JG _ _ _ H) (jn_hg _ _ _ H) HL' o x t [] O (names_nd j H) i y Hv Hy). f_equal.
    apply postv_exact; auto. apply (hg_dm _ _ _ _ (jn_hg _ _ _ H)). apply (jn_ids _ _ _ H); auto.
  Qed.
End Net.
