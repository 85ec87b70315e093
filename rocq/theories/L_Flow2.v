(** Where no message changes anything the tables are marginals; sweeps towards and away from any clique get there. *)
From Verif Require Import Py M_Graph M_Node M_Pptc Spec SpecNet SpecEv SpecMsg SpecJoint L_Base L_PD L_Sums L_Table L_Tree L_Walk L_Forest L_Root L_Good L_Prop L_Init L_Joint
  L_Post L_Read L_Ids L_Trans L_Elim L_UG L_Tri L_Moral L_Build L_Exact L_Apply L_Net L_Evid L_Hist L_Rip L_Claims L_Shape L_Shown L_P1 L_Joint2 L_Msg L_Flow.
Open Scope Qc_scope.

(** the separation sets of a tree with what hangs from them *)
Fixpoint subs (t : rt) : list kid := match t with RN c kids => flat_map (fun p => p :: subs (snd p)) kids end.
Lemma subs_cliques t : cliques_of t = root t :: map (fun p => root (snd p)) (subs t).
Proof.
  induction t as [c kids IH] using rt_ind'. simpl. f_equal. induction kids as [|[s u] kids IHk]; simpl; auto. rewrite map_app.
  rewrite (IH s u) by (simpl; auto). simpl. f_equal. f_equal. apply IHk. intros s' u' Hi. apply (IH s' u'); simpl; auto.
Qed.
Lemma subs_seps t : seps_of t = map fst (subs t).
Proof.
  induction t as [c kids IH] using rt_ind'. simpl. induction kids as [|[s u] kids IHk]; simpl; auto. rewrite map_app.
  rewrite (IH s u) by (simpl; auto). f_equal. f_equal. apply IHk. intros s' u' Hi. apply (IH s' u'); simpl; auto.
Qed.
Lemma subs_kid c kids s u : In (s, u) kids -> In (s, u) (subs (RN c kids)) /\ incl (subs u) (subs (RN c kids)).
Proof.
  intros Hi. simpl. split; [|intros p Hp]; apply in_flat_map; exists (s, u); simpl; auto.
Qed.

Section Flow2.
  Context (N : net) (HN : nshape N) (L : likelihood) (j : jtree) (HJ : JG j).
  Context (Hids : forall i, In i (jt_bbn_ids j) <-> In i (vars N)).
  Context (Hh : forall v, In v (vars N) -> h_values (jt_heap j) v = dom N v).
  Notation dm := (dom N).
  Notation h := (jt_heap j).
  Notation cs := (jt_cliques j).
  Notation ss := (jt_sepsets j).
  Notation marg := (marg N).
  Notation flow := (flow N L j).
  Notation edge := (edge j).

  Definition level (fc fs : fun_at) : Prop :=
    forall x s y, edge (x, s, y) -> forall a, okon dm (ss_nodes s) a -> marg x s fc a = fs (ss_id s) a.

  Lemma tab_inj ids f g : NoDup ids -> dep ids f -> dep ids g -> tab dm ids f = tab dm ids g -> forall a, okon dm ids a -> f a = g a.
  Proof using.
    intros HD Hf Hg E a Ha. destruct (tab_tabulates dm ids f HD Hf) as [_ A]. destruct (tab_tabulates dm ids g HD Hg) as [_ B].
    specialize (A a Ha). specialize (B a Ha). rewrite E in A. congruence.
  Qed.
  Lemma settled_level fc fs ps : flow fc fs ps -> (forall m, edge m -> send h ps m = Ok ps) -> level fc fs.
  Proof using HJ HN Hids Hh.
    intros F H x s y He a Ha. destruct (edge_facts j HJ _ _ _ He) as [H1 [H2 [H3 [H4 [H5 [H6 [H7 [H8 H9]]]]]]]].
    pose proof (H _ He) as E. rewrite (pass_tab N HN L j HJ Hids Hh ps fc fs) in E by auto. injection E as E.
    pose proof (fl_s _ _ _ _ _ _ F s H3) as E2. rewrite <- E in E2. rewrite dget_dset_neq in E2 by (apply not_eq_sym, (jg_cs j HJ); auto).
    rewrite dget_dset_eq in E2. injection E2 as E2. revert a Ha. eapply tab_inj; eauto.
    - apply marg_dep, (fl_dc _ _ _ _ _ _ F); auto.
    - apply (fl_ds _ _ _ _ _ _ F); auto.
  Qed.
  Lemma level_settled fc fs ps : flow fc fs ps -> level fc fs -> forall m, edge m -> send h ps m = Ok ps.
  Proof using HJ HN Hids Hh.
    intros F H [[x s] y] He. destruct (edge_facts j HJ _ _ _ He) as [H1 [H2 [H3 [H4 [H5 [H6 [H7 [H8 H9]]]]]]]].
    rewrite (pass_tab N HN L j HJ Hids Hh ps fc fs) by auto. f_equal.
    rewrite (dset_same ps (ss_id s)).
    - apply dset_same. rewrite (fl_c _ _ _ _ _ _ F) by auto. f_equal. apply tab_ext. intros a Ha.
      assert (Hs : okon dm (ss_nodes s) a) by (intros v Hv; apply Ha; auto). rewrite (H x s y He a Hs).
      destruct (Qc_eq_dec (fs (ss_id s) a) 0) as [E|E].
      + rewrite E, qquot_0l, Qcmult_0_r. apply (marg_zero N y s); auto.
        * apply (fl_dc _ _ _ _ _ _ F); auto.
        * intros b Hb. apply (fl_nc _ _ _ _ _ _ F); auto.
        * rewrite (H y s x); auto. split; [apply He|]. destruct He as [_ [[Q1 Q2]|[Q1 Q2]]]; [right|left]; auto.
      + replace (qquot (fs (ss_id s) a) (fs (ss_id s) a)) with 1; [ring|]. apply (qc_cancel _ _ (fs (ss_id s) a) E). rewrite qquot_mul by auto. ring.
    - rewrite (fl_s _ _ _ _ _ _ F) by auto. f_equal. apply tab_ext. intros a Ha. symmetry. apply (H x s y He); auto.
  Qed.

  Section Marg.
    Context (fc fs : fun_at) (ps : pots) (F : flow fc fs ps) (HL : level fc fs).

    (** the clique tables divided by those of the separation set towards the root *)
    Definition quot (G : fun_at) (l : list kid) : Prop :=
      forall s u, In (s, u) l -> forall a, G (cl_id (root u)) a = qquot (fc (cl_id (root u)) a) (fs (ss_id s) a).

    Lemma sub_phi G t : okT t -> NoDup (cl_nodes (root t) ++ elk t) -> joinsT t -> incl (cliques_of t) cs -> incl (seps_of t) ss -> Fok G t -> quot G (subs t) ->
      (forall a, fc (cl_id (root t)) a = 0 -> G (cl_id (root t)) a = 0) ->
      forall a, okon dm (cl_nodes (root t)) a -> phi h G t a = G (cl_id (root t)) a.
    Proof using HJ HN Hids Hh F HL.
      induction t as [c kids IH] using rt_ind'. intros Hok HD Hj Hc Hs HF HQ H0 a Ha. simpl root in *. rewrite elk_eq in HD. rewrite (phi_eq h G c kids a Hok HF HD).
      destruct (okT_inv _ _ Hok) as [O1 O2].
      assert (Hk : kidsok G (cl_nodes c) kids).
      { intros s' t' Hi. destruct (O2 s' t' Hi) as [? [? [? ?]]]. repeat split; auto. eapply Fok_kid; eauto. }
      assert (K : forall s u, In (s, u) kids -> edge (root u, s, c) /\ edge (c, s, root u) /\ mu h G s u a = qquot (fs (ss_id s) a) (fs (ss_id s) a)).
      { intros s u Hi. destruct (O2 s u Hi) as [N1 [I1 [I2 Ou]]]. destruct (joinsT_inv _ _ Hj s u Hi) as [J1 J2].
        assert (Hsi : In s ss) by (apply Hs; simpl; apply in_flat_map; exists (s, u); simpl; auto).
        assert (Hcu : incl (cliques_of u) cs). { intros d Hd. apply Hc. simpl. right. apply in_flat_map. exists (s, u); auto. }
        assert (Hsu : incl (seps_of u) ss). { intros d Hd. apply Hs. simpl. apply in_flat_map. exists (s, u); simpl; auto. }
        assert (E1 : edge (root u, s, c)) by (split; auto; destruct J1 as [[Q1 Q2]|[Q1 Q2]]; [right|left]; auto).
        assert (E2 : edge (c, s, root u)) by (split; auto). split; auto. split; auto.
        destruct (subs_kid c kids s u Hi) as [S1 S2].
        assert (Hru : In (root u) cs) by (apply Hcu, root_In).
        rewrite mu_phi. rewrite (sums_dom_ext _ dm) by (intros v Hv; apply minus_In in Hv; apply Hh, (c_vars N j Hids (root u)); tauto).
        assert (Hsa : okon dm (ss_nodes s) a) by (intros v Hv; apply Ha; auto).
        rewrite (sums_ext_ok dm (ss_nodes s) _ _ (fun b => fc (cl_id (root u)) b * qquot 1 (fs (ss_id s) b)) a Hsa).
        - rewrite (sums_factor_r dm (ss_nodes s)).
          + fold (L_Flow.marg N (root u) s fc a). rewrite (HL _ _ _ E1) by auto. destruct (Qc_eq_dec (fs (ss_id s) a) 0) as [E|E]; [rewrite E, qquot_0l; ring|].
            apply (qc_cancel _ _ (fs (ss_id s) a) E). rewrite <- Qcmult_assoc, !qquot_mul by auto. ring.
          + intros b b' Hb. rewrite (fl_ds _ _ _ _ _ _ F s Hsi b b'); auto.
          + intros v Hv. apply minus_In in Hv. tauto.
        - intros b Hb. assert (Hbu : okon dm (cl_nodes (root u)) b).
          { intros v Hv. apply Hb. rewrite in_app_iff, minus_In. destruct (in_dec Z.eq_dec v (ss_nodes s)); auto. }
          rewrite (IH s u Hi Ou).
          + rewrite (HQ s u S1). destruct (Qc_eq_dec (fs (ss_id s) b) 0) as [E|E]; [rewrite E, !qquot_0r; ring|].
            apply (qc_cancel _ _ (fs (ss_id s) b) E). rewrite <- Qcmult_assoc, !qquot_mul by auto. ring.
          + apply (sub_NoDup G (cl_nodes c) s u kids); auto.
          + auto.
          + auto.
          + auto.
          + eapply Fok_kid; eauto.
          + intros s' u' Hi'. apply HQ. apply S2; auto.
          + intros b' E. rewrite (HQ s u S1), E. apply qquot_0l.
          + auto. }
      destruct (Qc_eq_dec (fc (cl_id c) a) 0) as [E|E]; [rewrite (H0 a E); ring|].
      rewrite qprod_map_one; [ring|]. intros [s u] Hi. destruct (K s u Hi) as [K1 [K2 K3]]. simpl. rewrite K3.
      assert (E1 : fs (ss_id s) a <> 0).
      { intros Q. apply E. destruct (O2 s u Hi) as [N1 [I1 [I2 Ou]]]. rewrite <- (HL _ _ _ K2) in Q by (intros v Hv; apply Ha; auto).
        assert (Hcc : In c cs) by (apply Hc; simpl; auto). apply (marg_zero N c s) in Q; auto.
        - apply (fl_dc _ _ _ _ _ _ F); auto.
        - intros b Hb. apply (fl_nc _ _ _ _ _ _ F); auto. }
      apply (qc_cancel _ _ (fs (ss_id s) a) E1). rewrite qquot_mul by auto. ring.
    Qed.

    (** [G] for a tree *)
    Definition divided (t : rt) : fun_at := fun k a =>
      match find (fun p => String.eqb (cl_id (root (snd p))) k) (subs t) with Some p => qquot (fc k a) (fs (ss_id (fst p)) a) | None => fc k a end.
    Lemma divided_quot t : NoDup (cids t) -> quot (divided t) (subs t) /\ forall a, divided t (cl_id (root t)) a = fc (cl_id (root t)) a.
    Proof using.
      unfold cids. rewrite subs_cliques. simpl. intros HD. inversion HD as [|? ? D1 D2]; subst. rewrite map_map in *. split.
      - intros s u Hi a. unfold divided. pose proof (find_id (fun p => cl_id (root (snd p))) (subs t) (s, u) Hi) as FI. cbn [snd] in FI. rewrite FI; auto. clear FI.
        clear D1 HD. revert Hi D2. generalize (subs t) as l. induction l as [|p l IH]; simpl; intros Hi D2 q Hq E; [destruct Hq|]. inversion D2 as [|? ? D3 D4]; subst.
        destruct Hi as [->|Hi], Hq as [->|Hq]; auto.
        + destruct D3. simpl in *. rewrite <- E. apply (in_map (fun p => cl_id (root (snd p)))); auto.
        + destruct D3. simpl in *. rewrite E. apply (in_map (fun p => cl_id (root (snd p))) _ _ Hi).
      - intros a. unfold divided. rewrite find_id_none; auto. intros p Hp E. apply D1. rewrite <- E. apply (in_map (fun p => cl_id (root (snd p)))); auto.
    Qed.
    Lemma divided_dep t : okT t -> incl (cliques_of t) cs -> incl (seps_of t) ss -> NoDup (cids t) -> Fok (divided t) t.
    Proof using F HJ.
      intros Ho Hc Hs HD c Hct. destruct (divided_quot t HD) as [A B]. rewrite subs_cliques in Hct. destruct Hct as [<-|Hct].
      - eapply dep_ext; [intros a; symmetry; apply B|]. apply (fl_dc _ _ _ _ _ _ F). apply Hc, root_In.
      - apply in_map_iff in Hct. destruct Hct as [[s u] [<- Hi]]. simpl. eapply dep_ext; [intros a; symmetry; apply (A s u Hi)|].
        assert (Hu : In (root u) cs). { apply Hc. rewrite subs_cliques. right. apply in_map_iff. exists (s, u); auto. }
        assert (Hsi : In s ss). { apply Hs. rewrite subs_seps. apply in_map_iff. exists (s, u); auto. }
        assert (I : incl (ss_nodes s) (cl_nodes (root u))).
        { clear - Ho Hi. revert Hi. induction t as [c kids IH] using rt_ind'. destruct (okT_inv _ _ Ho) as [_ O2]. simpl. intros Hi. apply in_flat_map in Hi.
          destruct Hi as [[s' u'] [Hk Hi]]. destruct (O2 s' u' Hk) as [_ [_ [I2 I3]]]. destruct Hi as [E|Hi]; [injection E as -> ->; auto|]. apply (IH s' u' Hk I3 Hi). }
        intros a b Hab. rewrite (fl_dc _ _ _ _ _ _ F (root u) Hu a b), (fl_ds _ _ _ _ _ _ F s Hsi a b); auto.
    Qed.
    (** the joint is the product *)
    Lemma divided_joint t a : NoDup (cids t) -> Permutation (cliques_of t) cs -> Permutation (seps_of t) ss -> okon dm (vars N) a -> prodT (divided t) t a = weight N L a.
    Proof using F.
      intros HD Pc Ps Ha. destruct (divided_quot t HD) as [A B]. rewrite prodT_cliques, subs_cliques. simpl. rewrite qprod_cons, B, map_map.
      rewrite (qprod_map_ext _ (fun p => qquot (fc (cl_id (root (snd p))) a) (fs (ss_id (fst p)) a))) by (intros [s u] Hi; apply (A s u Hi)).
      pose proof (fl_eq _ _ _ _ _ _ F a Ha) as E. rewrite <- (qprod_perm _ _ (Permutation_map (fun c => fc (cl_id c) a) Pc)) in E.
      rewrite <- (qprod_perm _ _ (Permutation_map (fun s => fs (ss_id s) a) Ps)) in E. rewrite subs_cliques, subs_seps in E. simpl in E. rewrite qprod_cons, !map_map in E.
      set (X := fc (cl_id (root t)) a) in *.
      assert (Z : (exists p, In p (subs t) /\ fs (ss_id (fst p)) a = 0) \/ (forall p, In p (subs t) -> fs (ss_id (fst p)) a <> 0)).
      { clear. induction (subs t) as [|p l IH]; [right; intros p []|]. destruct (Qc_eq_dec (fs (ss_id (fst p)) a) 0) as [E|E]; [left; exists p; simpl; auto|].
        destruct IH as [[q [Q1 Q2]]|IH]; [left; exists q; simpl; auto|]. right. intros q [<-|Hq]; auto. }
      destruct Z as [[[s u] [Hp Hz]]|Hz].
      - simpl in Hz. rewrite (qprod_has_zero _ (subs t) (s, u) Hp) by (simpl; rewrite Hz; apply qquot_0r).
        rewrite (fl_z _ _ _ _ _ _ F a s Ha); auto; [ring|]. apply (Permutation_in _ Ps). rewrite subs_seps. apply (in_map fst _ _ Hp).
      - set (S := qprod (map (fun x => fs (ss_id (fst x)) a) (subs t))) in *. set (Q := qprod (map (fun p => qquot (fc (cl_id (root (snd p))) a) (fs (ss_id (fst p)) a)) (subs t))). set (C := qprod (map (fun x => fc (cl_id (root (snd x))) a) (subs t))) in *.
        assert (SN : S <> 0). { intros Q0. apply qprod_zero in Q0. destruct Q0 as [p [Q1 Q2]]. apply (Hz p Q1 Q2). }
        assert (QS : Q * S = C). { unfold Q, S, C. clear - Hz. induction (subs t) as [|p l IH]; simpl; [rewrite qprod_nil; ring|]. rewrite !qprod_cons.
          rewrite <- IH by (intros q Hq; apply Hz; simpl; auto). rewrite <- (qquot_mul (fc (cl_id (root (snd p))) a) (fs (ss_id (fst p)) a)) at 2 by (apply Hz; simpl; auto). ring. }
        apply (qc_cancel _ _ S SN). rewrite <- E, <- QS. ring.
    Qed.

    Lemma level_marginals : jcount j -> jconn j ->
      (forall c a, In c cs -> okon dm (cl_nodes c) a -> fc (cl_id c) a = marginal N L (cl_nodes c) a) /\
      (forall s a, In s ss -> okon dm (ss_nodes s) a -> fs (ss_id s) a = marginal N L (ss_nodes s) a).
    Proof using HJ HN Hids Hh F HL.
      intros Hcnt Hcon. pose proof (ns_nd _ HN) as HV.
      assert (Hd : forall i, In i (vars N) -> NoDup (dom N i)) by (intros i Hi; apply (ns_dom _ HN i Hi)).
      assert (Hp : forall i, In i (vars N) -> incl (par N i) (vars N)) by (intros i Hi p Hpi; apply (ns_ends _ HN _ _ Hpi)).
      assert (Wd : dep (vars N) (weight N L)).
      { intros b c E. rewrite <- !(W_weight N L (vars N)) by auto. unfold W. apply qprod_map_ext. intros i Hiv. rewrite (E i Hiv). f_equal. apply cpt_entry_dep. intros v Hv. apply E.
        apply in_app_or in Hv. destruct Hv as [Hv|[<-|[]]]; auto. eapply Hp; eauto. }
      assert (A : forall c a, In c cs -> okon dm (cl_nodes c) a -> fc (cl_id c) a = marginal N L (cl_nodes c) a).
      { intros c a Hc Ha. assert (Ho : ord_ok ord_id) by apply ord_id_ok.
        destruct (trees_exist ord_id j c Ho HJ Hcnt Hc) as [t [ts HT]]. pose proof (trees_single _ _ _ _ _ HJ Hcon Hc HT) as ->.
        assert (Pc : Permutation (cliques_of t) cs). { pose proof (tr_cl _ _ _ _ _ HT) as P. unfold tcliques in P. simpl in P. rewrite app_nil_r in P. auto. }
        assert (Ps : Permutation (seps_of t) ss). { pose proof (tr_ss _ _ _ _ _ HT) as P. unfold tseps in P. simpl in P. rewrite app_nil_r in P. auto. }
        assert (HD : NoDup (cids t)) by (eapply trt_cids; eauto).
        assert (Hok : okT t) by (eapply trt_ok; eauto). assert (Hnd : NoDup (vlist t)) by (eapply trt_nd; eauto).
        assert (Hr : root t = c) by apply (tr_root _ _ _ _ _ HT).
        assert (Ic : incl (cliques_of t) cs) by (intros d; apply Permutation_in; auto). assert (Is : incl (seps_of t) ss) by (intros d; apply Permutation_in; auto).
        assert (HF : Fok (divided t) t) by (apply divided_dep; auto).
        destruct (divided_quot t HD) as [D1 D2].
        assert (Hjt : joinsT t). { pose proof (tr_j _ _ _ _ _ HT) as Q. inversion Q; auto. }
        assert (Pv : Permutation (vlist t) (vars N)).
        { apply NoDup_Permutation; auto. intros v. rewrite <- Hids. rewrite <- (tr_vars _ _ _ _ _ HT). simpl. rewrite app_nil_r. tauto. }
        assert (E : phi h (divided t) t a = fc (cl_id c) a).
        { rewrite (sub_phi (divided t) t); auto; rewrite ?Hr; auto.
          - rewrite <- Hr. apply D2.
          - rewrite <- Hr. intros b Q. rewrite D2. auto. }
        rewrite <- E. rewrite <- sums_marginal; auto; [|apply (jg_cl _ HJ); auto|apply (c_vars N j Hids); auto].
        unfold phi. assert (Ie : incl (elk t) (vars N)). { intros v Hv. apply (Permutation_in _ Pv). apply in_or_app; auto. }
        rewrite (sums_dom_ext _ dm) by auto.
        assert (Pe : Permutation (minus (vars N) (cl_nodes c)) (elk t)). { apply perm_minus; auto. rewrite <- Hr. symmetry. exact Pv. }
        rewrite (sums_perm _ _ _ _ a (dep_proper _ _ Wd) Pe). apply (sums_ext_ok dm (cl_nodes c)); auto. intros b Hb. apply divided_joint; auto.
        intros v Hv. apply Hb. apply (Permutation_in _ (Permutation_sym Pv)) in Hv. unfold vlist in Hv. rewrite Hr in Hv. rewrite in_app_iff in *. tauto. }
      split; auto. intros s a Hs Ha. destruct (jg_ends _ HJ s Hs) as [E1 [E2 E3]]. destruct (jg_ss _ HJ s Hs) as [S1 [S2 S3]].
      rewrite <- (HL (ss_left s) s (ss_right s)); auto; [|split; auto; left; auto].
      unfold L_Flow.marg. rewrite (sums_ext_ok dm (ss_nodes s) _ _ (sums dm (minus (vars N) (cl_nodes (ss_left s))) (weight N L)) a Ha).
      - assert (Iv : incl (cl_nodes (ss_left s)) (vars N)) by (apply (c_vars N j Hids); auto).
        rewrite <- sums_app. rewrite <- sums_marginal; auto; [|eapply incl_tran; [exact S2|auto]].
        apply sums_perm; [eapply dep_proper; exact Wd|]. symmetry. apply perm_minus; auto.
        pose proof (jg_cl _ HJ _ E1) as Nc. rewrite (minus_perm (vars N) (cl_nodes (ss_left s))) at 1 by auto.
        rewrite (minus_perm (cl_nodes (ss_left s)) (ss_nodes s)) at 1 by auto. rewrite app_assoc. auto.
      - intros b Hb. assert (Hbc : okon dm (cl_nodes (ss_left s)) b).
        { intros v Hv. apply Hb. rewrite in_app_iff, minus_In. destruct (in_dec Z.eq_dec v (ss_nodes s)); auto. }
        rewrite A by auto. rewrite sums_marginal; auto. apply (jg_cl _ HJ); auto. apply (c_vars N j Hids); auto.
    Qed.
  End Marg.
End Flow2.
