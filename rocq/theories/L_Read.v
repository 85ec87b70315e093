(** Reading the posteriors of a propagated join tree. *)
From Verif Require Import Py M_Graph M_Node M_Pptc Spec L_Base L_PD L_Sums L_Table L_Tree L_Walk L_Forest L_Root L_Good L_Prop L_Init L_Post.

Open Scope Qc_scope.

Lemma sums_marg dm V C S f a : proper f -> NoDup V -> NoDup C -> NoDup S -> incl S C -> incl C V ->
  sums dm (minus C S) (sums dm (minus V C) f) a = sums dm (minus V S) f a.
Proof.
  intros Hf NV NC NS I1 I2. rewrite <- sums_app. apply sums_perm; auto. apply NoDup_Permutation.
  - apply NoDup_app_intro; auto using minus_NoDup. intros v. rewrite !minus_In. tauto.
  - apply minus_NoDup; auto.
  - intros v. rewrite in_app_iff, !minus_In. split.
    + intros [[H1 H2]|[H1 H2]]; split; auto.
    + intros [H1 H2]. destruct (in_dec Z.eq_dec v C); auto.
Qed.

Lemma cartesian_one l : cartesian [l] = map (fun x => [x]) l.
Proof. simpl. induction l as [|x l IH]; simpl; auto. Qed.

Lemma tab_one dm v f : tab dm [v] f = map (fun x => mkPE [(v, x)] (f (asg_of [v] [x]))) (dm v).
Proof. unfold tab. change (map dm [v]) with [dm v]. rewrite cartesian_one, map_map. reflexivity. Qed.

Lemma pot_to_map_tab dm v f : NoDup (dm v) -> pot_to_map (tab dm [v] f) = map (fun x => (x, f (asg_of [v] [x]))) (dm v).
Proof.
  intros HN. rewrite tab_one. unfold pot_to_map.
  rewrite <- (fold_dset_id (map (fun x => (x, f (asg_of [v] [x]))) (dm v))).
  - generalize (@nil (string * Qc)) as d. induction (dm v) as [|x l IH]; intros d; simpl; auto. inversion HN; subst. apply IH; auto.
  - rewrite map_map. simpl. rewrite map_id. auto.
Qed.

Lemma dget_map_key {V} (f : string -> V) l x : In x l -> dget (map (fun x => (x, f x)) l) x = Some (f x).
Proof.
  induction l as [|y l IH]; simpl; [tauto|]. intros Hi. destruct (String.eqb_spec x y); subst; auto. destruct Hi; [congruence|auto].
Qed.

Lemma fold_names {V} (nm : Z -> string) (f : Z -> res V) (v : Z -> V) l : (forall i, In i l -> f i = Ok (v i)) ->
  NoDup (map nm l) -> forall d, (forall i, In i l -> ~ In (nm i) (dkeys d)) ->
  foldM (fun d i => p <- f i ;; Ok (dset d (nm i) p)) l d = Ok (d ++ map (fun i => (nm i, v i)) l).
Proof.
  intros Hf HN. induction l as [|i l IH]; intros d Hd; simpl.
  - rewrite app_nil_r; auto.
  - inversion HN as [|? ? N1 N2]; subst. rewrite Hf by (left; auto). cbn [rbind]. rewrite IH; auto.
    + rewrite dkeys_dset_notin by (apply Hd; left; auto). rewrite <- app_assoc. reflexivity.
    + intros; apply Hf; right; auto.
    + intros k Hk. rewrite dkeys_dset_In. intros [H|H]; [apply (Hd k); auto; right; auto|]. apply N1. rewrite <- H. apply in_map; auto.
Qed.

Definition postv (dm : Z -> list string) (w : list Z -> asg -> Qc) (V : list Z) (i : Z) (x : string) : Qc :=
  let tot := sums dm V (w V) no_asg in
  if Qc_eq_dec tot 0 then 0 else sums dm (minus V [i]) (w V) (upd no_asg i x) / tot.

Section Read.
  Context (dm : Z -> list string) (pr : Z -> list Z) (g : Z -> asg -> Qc) (L : likelihood) (j0 j2 : jtree).
  Context (HJ : JG j0) (HG : hgood j0 dm pr g).
  Context (HL : forall i v, In i (jt_bbn_ids j0) -> In v (dm i) -> 0 <= L i v).
  Context (o : Ord) (x : clique) (t : rt) (ts : list rt) (HO : outcome o dm g L j0 j2 x t ts).
  Notation ids := (jt_bbn_ids j0).
  Notation V := (vlist t).
  Notation HT := (oc_tr _ _ _ _ _ _ _ _ _ HO).

  Lemma fam_V i : In i V -> incl (pr i ++ [i]) V.
  Proof using HG HO.
    intros Hi. assert (Hi' : In i ids) by (eapply trt_v; eauto; apply HT).
    destruct (asn_ok dm pr g j0 HG i Hi') as [c [Hc [E Hinc]]].
    assert (Hct : In c (cliques_of t)). { eapply vlist_tree; eauto. apply HT. apply Hinc, in_or_app; simpl; auto. }
    intros v Hv. apply (vlist_cover t c); auto. eapply trt_ok; apply HT.
  Qed.
  Lemma W_dep : dep V (W g L V).
  Proof using HG HO.
    unfold W. apply dep_qprod with (F := fun i a => g i a * L i (a i)). intros i Hi.
    assert (Hi' : In i ids) by (eapply trt_v; eauto; apply HT). apply dep_mult.
    - apply (dep_mono (pr i ++ [i])); [apply fam_V; auto|]. apply (hg_dep _ _ _ _ HG); auto.
    - intros a b Hab. rewrite (Hab i); auto.
  Qed.
  Lemma W_nonneg a : okon dm V a -> 0 <= W g L V a.
  Proof using HG HO HL.
    intros Ha. unfold W. apply qprod_nonneg. intros y Hy. apply in_map_iff in Hy. destruct Hy as [i [<- Hi]].
    assert (Hi' : In i ids) by (eapply trt_v; eauto; apply HT). apply Qcle_0_mult.
    - apply (hg_nn _ _ _ _ HG); auto. intros v Hv. apply Ha, (fam_V i); auto.
    - apply HL; auto.
  Qed.

  Lemma node2 i : In i ids -> exists n, dget (jt_heap j0) i = Some n /\ dget (jt_heap j2) i = Some (set_mclq n (assigned j0 i)) /\
     n_id n = i /\ n_values n = dm i.
  Proof using HG HO.
    intros Hi. destruct (hg_node _ _ _ _ HG i Hi) as [n [E [E1 [E2 _]]]]. exists n. split; auto. split; auto.
    destruct (oc_fill _ _ _ _ _ _ _ _ _ HO) as [_ H]. rewrite H. destruct (mem_spec i ids); [|tauto]. rewrite E; auto.
  Qed.

  Definition postf (i : Z) (a : asg) : Qc := postv dm (W g L) V i (a i).

  (** the distribution of a variable, read from any clique of the tree that contains it *)
  Lemma read_clique i c : In c (cliques_of t) -> In i (cl_nodes c) ->
    dget (jt_pots j2) (cl_id c) = Some (tab dm (cl_nodes c) (sums dm (minus V (cl_nodes c)) (W g L V))) /\
    normalize (marginalize (tab dm (cl_nodes c) (sums dm (minus V (cl_nodes c)) (W g L V))) (map (fun i => (i, dm i)) [i])) = tab dm [i] (postf i).
  Proof using HJ HG HO HL.
    intros Hct Hic. split; [exact (oc_c _ _ _ _ _ _ _ _ _ HO c Hct)|].
    assert (Hc : In c (jt_cliques j0)) by (eapply trt_cl; eauto; apply HT).
    assert (Hi : In i V) by (apply (vlist_cover t c); auto; eapply trt_ok; apply HT).
    assert (Hi' : In i ids) by (eapply trt_v; eauto; apply HT).
    assert (Hdom : NoDup (dm i)) by (apply (hg_dm _ _ _ _ HG); auto).
    assert (HcV : incl (cl_nodes c) V). { intros v Hv. apply (vlist_cover t c); auto. eapply trt_ok; apply HT. }
    assert (HV : NoDup V) by (eapply trt_nd; apply HT).
    assert (Hpw : proper (W g L V)) by (eapply dep_proper; apply W_dep).
    rewrite marginalize_tab.
    - rewrite normalize_tab.
      + apply tab_ext. intros a Ha. unfold postf, postv.
        assert (Q1 : forall b, sums dm (minus (cl_nodes c) [i]) (sums dm (minus V (cl_nodes c)) (W g L V)) b = sums dm (minus V [i]) (W g L V) b).
        { intros b. apply sums_marg; auto. apply (jg_cl _ HJ); auto. repeat constructor; simpl; auto. intros v [<-|[]]; auto. }
        assert (Q2 : sums dm [i] (sums dm (minus (cl_nodes c) [i]) (sums dm (minus V (cl_nodes c)) (W g L V))) no_asg = sums dm V (W g L V) no_asg).
        { rewrite (sums_ext dm [i] _ _ _ Q1). rewrite <- sums_app. apply sums_perm; auto. symmetry. apply minus_perm; auto.
          repeat constructor; simpl; auto. intros v [<-|[]]; auto. }
        rewrite Q2, Q1. assert (Q3 : sums dm (minus V [i]) (W g L V) a = sums dm (minus V [i]) (W g L V) (upd no_asg i (a i))).
        { apply (sums_dep' dm V [i]). apply W_dep.
          - intros v Hv. rewrite minus_In. destruct (in_dec Z.eq_dec v [i]); tauto.
          - intros v [<-|[]]. rewrite upd_eq; auto. }
        rewrite Q3. destruct (Qc_eq_dec _ 0) as [Z|Z]; auto.
        assert (Z' : sums dm [i] (sums dm (minus V [i]) (W g L V)) no_asg = 0). { rewrite <- (sums_ext dm [i] _ _ _ Q1). rewrite Q2. auto. }
        eapply (sums_zero_terms dm [i]); [| |exact Z'| |].
        * apply sums_proper; auto.
        * intros b Hb1 Hb2. apply sums_nonneg_ok with (S := [i]); auto. intros b' Hb'. apply W_nonneg. intros v Hv. apply Hb'.
          rewrite in_app_iff, minus_In. destruct (in_dec Z.eq_dec v [i]); auto.
        * intros u Hu. apply upd_neq. intros ->. apply Hu; left; auto.
        * intros v [<-|[]]. rewrite upd_eq. apply Ha. left; auto.
      + repeat constructor; simpl; auto.
      + apply sums_proper, sums_proper; auto.
    - apply (jg_cl _ HJ); auto.
    - repeat constructor; simpl; auto.
    - intros v [<-|[]]; auto.
    - intros v [<-|[]]; auto.
    - eapply sums_dep'; [apply W_dep|]. intros v Hv. rewrite minus_In. destruct (in_dec Z.eq_dec v (cl_nodes c)); auto.
  Qed.

  Lemma get_pot_tree i : In i V -> get_bbn_potential j2 i = Ok (tab dm [i] (postf i)).
  Proof using HJ HG HO HL.
    intros Hi. assert (Hi' : In i ids) by (eapply trt_v; eauto; apply HT).
    destruct (node2 i Hi') as [n [E0 [E [E1 E2]]]]. unfold get_bbn_potential, dgetE. rewrite E. cbn [rbind]. simpl n_mclq.
    destruct (asn_ok dm pr g j0 HG i Hi') as [c [Hc [Ea Hinc]]]. rewrite Ea.
    assert (Hic : In i (cl_nodes c)) by (apply Hinc, in_or_app; simpl; auto).
    assert (Hct : In c (cliques_of t)). { eapply vlist_tree; eauto. apply HT. }
    destruct (read_clique i c Hct Hic) as [R1 R2]. rewrite R1. f_equal. unfold nv. simpl. rewrite E1, E2. exact R2.
  Qed.

  Lemma get_pot_all i : In i ids -> exists f, get_bbn_potential j2 i = Ok (tab dm [i] f).
  Proof using HJ HG HO HL.
    intros Hi. destruct (asn_ok dm pr g j0 HG i Hi) as [c [Hc [Ea Hinc]]].
    assert (Hic : In i (cl_nodes c)) by (apply Hinc, in_or_app; simpl; auto).
    destruct (in_dec Z.eq_dec i V) as [HV|HV]. { eexists. apply get_pot_tree; auto. }
    destruct (node2 i Hi) as [n [E0 [E [E1 E2]]]]. unfold get_bbn_potential, dgetE. rewrite E. cbn [rbind]. simpl n_mclq. rewrite Ea.
    rewrite (oc_co _ _ _ _ _ _ _ _ _ HO c Hc).
    - unfold nv. simpl. rewrite E1, E2. change [(i, dm i)] with (map (fun i => (i, dm i)) [i]).
      assert (Hdom : NoDup (dm i)) by (apply (hg_dm _ _ _ _ HG); auto).
      assert (Hd : dep (cl_nodes c) (prodI j0 (fun i a => g i a * L i (a i)) ids c)).
      { exact (Fs_dep dm pr g L j0 HJ HG c Hc). }
      rewrite marginalize_tab; auto.
      + eexists. rewrite normalize_tab; [reflexivity| |].
        * repeat constructor; simpl; auto.
        * apply sums_proper. eapply dep_proper; eauto.
      + apply (jg_cl _ HJ); auto.
      + repeat constructor; simpl; auto.
      + intros v [<-|[]]; auto.
      + intros v [<-|[]]; auto.
    - intros Hct. apply HV. apply (vlist_cover t c); auto. eapply trt_ok; apply HT.
  Qed.

  Lemma name2 i : h_name (jt_heap j2) i = h_name (jt_heap j0) i.
  Proof using HO.
    unfold h_name. destruct (oc_fill _ _ _ _ _ _ _ _ _ HO) as [_ H]. rewrite H. destruct (mem i ids); auto. destruct (dget (jt_heap j0) i); auto.
  Qed.

  Context (HN : NoDup (map (h_name (jt_heap j0)) ids)).

  (** all the posteriors, in the order of the cliques *)
  Theorem get_posteriors_ok : exists f : Z -> asg -> Qc,
    get_posteriors j2 = Ok (map (fun i => (h_name (jt_heap j0) i, map (fun y => (y, f i (asg_of [i] [y]))) (dm i))) ids) /\
    (forall i y, In i V -> f i (asg_of [i] [y]) = postv dm (W g L) V i y).
  Proof using HJ HG HO HL HN.
    assert (Hch : forall l, incl l ids -> exists f : Z -> asg -> Qc, (forall i, In i l -> get_bbn_potential j2 i = Ok (tab dm [i] (f i))) /\
       (forall i y, In i V -> f i (asg_of [i] [y]) = postv dm (W g L) V i y)).
    { induction l as [|i l IH]; intros Hl.
      - exists postf. split; [intros ? []|]. intros i y Hi. unfold postf, asg_of. simpl. rewrite Z.eqb_refl. auto.
      - destruct IH as [f [IH1 IH2]]. { intros k Hk; apply Hl; right; auto. }
        destruct (in_dec Z.eq_dec i V) as [Hi|Hi].
        + exists f. split; auto. intros k [<-|Hk]; auto. rewrite get_pot_tree by auto. f_equal. rewrite !tab_one. apply map_ext. intros y.
          f_equal. rewrite IH2 by auto. unfold postf, asg_of. simpl. rewrite Z.eqb_refl. auto.
        + destruct (get_pot_all i) as [fi Hfi]. { apply Hl; left; auto. }
          exists (fun k => if Z.eqb k i then fi else f k). split.
          * intros k Hk. destruct (Z.eqb_spec k i); subst; auto. destruct Hk; [congruence|auto].
          * intros k y Hk. destruct (Z.eqb_spec k i); subst; [tauto|]. auto. }
    destruct (Hch ids (incl_refl _)) as [f [H1 H2]]. exists f. split; auto.
    unfold get_posteriors. rewrite (same_ids _ _ (oc_same _ _ _ _ _ _ _ _ _ HO)).
    transitivity (foldM (fun d i => p <- (q <- get_bbn_potential j2 i ;; Ok (pot_to_map q)) ;; Ok (dset d (h_name (jt_heap j0) i) p)) ids []).
    - apply foldM_ext. intros d i Hi. rewrite H1 by auto. cbn [rbind]. rewrite name2. auto.
    - rewrite (fold_names (h_name (jt_heap j0)) _ (fun i => map (fun y => (y, f i (asg_of [i] [y]))) (dm i))); auto.
      intros i Hi. rewrite H1 by auto. cbn [rbind]. f_equal. apply pot_to_map_tab. apply (hg_dm _ _ _ _ HG); auto.
  Qed.

  Theorem posterior_ok i y : In i V -> In y (dm i) -> posterior j2 (h_name (jt_heap j0) i) y = Ok (postv dm (W g L) V i y).
  Proof using HJ HG HO HL HN.
    intros Hi Hy. destruct get_posteriors_ok as [f [H1 H2]]. unfold posterior. rewrite H1. cbn [rbind].
    assert (Hi' : In i ids) by (eapply trt_v; eauto; apply HT).
    assert (Q : dget (map (fun i => (h_name (jt_heap j0) i, map (fun y => (y, f i (asg_of [i] [y]))) (dm i))) ids) (h_name (jt_heap j0) i) =
       Some (map (fun y => (y, f i (asg_of [i] [y]))) (dm i))).
    { apply dget_In_NoDup.
      - unfold dkeys. rewrite map_map. simpl. auto.
      - apply in_map_iff. exists i. auto. }
    unfold dgetE. rewrite Q. cbn [rbind]. rewrite (dget_map_key (fun y => f i (asg_of [i] [y]))) by auto. rewrite H2; auto.
  Qed.
End Read.
