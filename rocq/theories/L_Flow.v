(** Messages in any order: the tables keep representing the joint, and where no message changes anything they are its marginals. *)
From Verif Require Import Py M_Graph M_Node M_Pptc Spec SpecNet SpecEv SpecMsg SpecJoint L_Base L_PD L_Sums L_Table L_Tree L_Walk L_Forest L_Root L_Good L_Prop L_Init L_Joint
  L_Post L_Read L_Ids L_Trans L_Elim L_UG L_Tri L_Moral L_Build L_Exact L_Apply L_Net L_Evid L_Hist L_Rip L_Claims L_Shape L_Shown L_P1 L_Joint2.
Open Scope Qc_scope.

Definition fun_at := string -> asg -> Qc.
Definition put (f : fun_at) (k : string) (g : asg -> Qc) : fun_at := fun k' a => if String.eqb k' k then g a else f k' a.
Lemma put_eq f k g a : put f k g k a = g a.
Proof. unfold put. rewrite String.eqb_refl. auto. Qed.
Lemma put_neq f k g k' a : k' <> k -> put f k g k' a = f k' a.
Proof. unfold put. destruct (String.eqb_spec k' k); tauto. Qed.

Lemma qprod_put {A} (key : A -> string) l x (f : fun_at) g a : NoDup (map key l) -> In x l ->
  qprod (map (fun y => put f (key x) g (key y) a) l) * f (key x) a = qprod (map (fun y => f (key y) a) l) * g a.
Proof.
  induction l as [|y l IH]; simpl; intros HN Hx; [destruct Hx|]. inv HN. rewrite !qprod_cons. destruct Hx as [->|Hx].
  - rewrite put_eq. rewrite (qprod_map_ext _ (fun y => f (key y) a)). ring. intros z Hz. apply put_neq. intros E. apply H1. rewrite <- E. apply in_map; auto.
  - rewrite put_neq. 2: { intros E. apply H1. rewrite E. apply in_map; auto. } rewrite <- Qcmult_assoc, IH by auto. ring.
Qed.
Lemma qprod_scale {A} (key : A -> string) l x (f : fun_at) g a : NoDup (map key l) -> In x l ->
  qprod (map (fun y => put f (key x) (fun b => f (key x) b * g b) (key y) a) l) = qprod (map (fun y => f (key y) a) l) * g a.
Proof.
  induction l as [|y l IH]; simpl; intros HN Hx; [destruct Hx|]. inv HN. rewrite !qprod_cons. destruct Hx as [->|Hx].
  - rewrite put_eq. rewrite (qprod_map_ext _ (fun y => f (key y) a)). ring. intros z Hz. apply put_neq. intros E. apply H1. rewrite <- E. apply in_map; auto.
  - rewrite put_neq. 2: { intros E. apply H1. rewrite E. apply in_map; auto. } rewrite IH by auto. ring.
Qed.
Lemma qprod_zero {A} (f : A -> Qc) l : qprod (map f l) = 0 -> exists x, In x l /\ f x = 0.
Proof.
  induction l as [|x l IH]; simpl; intros Q. { rewrite qprod_nil in Q. destruct (one_ne Q). }
  rewrite qprod_cons in Q. apply Qcmult_integral in Q. destruct Q as [Q|Q]; eauto. destruct (IH Q) as [y [H1 H2]]; eauto.
Qed.
Lemma qprod_has_zero {A} (f : A -> Qc) l x : In x l -> f x = 0 -> qprod (map f l) = 0.
Proof.
  induction l as [|y l IH]; simpl; intros Hx E; [destruct Hx|]. rewrite qprod_cons. destruct Hx as [->|Hx]; [rewrite E|rewrite IH by auto]; ring.
Qed.
Lemma qc_cancel (x y z : Qc) : z <> 0 -> x * z = y * z -> x = y.
Proof. intros Hz E. replace x with (x * z / z) by (field; auto). rewrite E. field. auto. Qed.
Lemma qquot_0l y : qquot 0 y = 0.
Proof. unfold qquot, is_zero. rewrite (proj2 (qeqb_true 0 0) eq_refl). auto. Qed.
Lemma qquot_0r x : qquot x 0 = 0.
Proof. unfold qquot, is_zero. rewrite (proj2 (qeqb_true 0 0) eq_refl). rewrite orb_true_r. auto. Qed.
Lemma qquot_mul x y : y <> 0 -> qquot x y * y = x.
Proof.
  intros H. unfold qquot, is_zero. destruct (qeqb 0 x) eqn:E; simpl. { apply qeqb_true in E. rewrite <- E. ring. }
  destruct (qeqb 0 y) eqn:E2; simpl. { apply qeqb_true in E2. congruence. } field. auto.
Qed.
Lemma qquot_nonneg x y : 0 <= x -> 0 <= y -> 0 <= qquot x y.
Proof. intros Hx Hy. unfold qquot. destruct (is_zero x || is_zero y); [apply Qcle_refl|]. apply qdiv_nonneg; auto. Qed.

Section Flow.
  Context (N : net) (HN : nshape N) (L : likelihood) (j : jtree) (HJ : JG j).
  Context (Hids : forall i, In i (jt_bbn_ids j) <-> In i (vars N)).
  Context (Hh : forall v, In v (vars N) -> h_values (jt_heap j) v = dom N v).
  Notation dm := (dom N).
  Notation h := (jt_heap j).
  Notation cs := (jt_cliques j).
  Notation ss := (jt_sepsets j).

  Definition marg (x : clique) (s : sepset) (fc : fun_at) : asg -> Qc := sums dm (minus (cl_nodes x) (ss_nodes s)) (fc (cl_id x)).

  Record flow (fc fs : fun_at) (ps : pots) : Prop := {
    fl_c : forall c, In c cs -> dget ps (cl_id c) = Some (tab dm (cl_nodes c) (fc (cl_id c)));
    fl_s : forall s, In s ss -> dget ps (ss_id s) = Some (tab dm (ss_nodes s) (fs (ss_id s)));
    fl_dc : forall c, In c cs -> dep (cl_nodes c) (fc (cl_id c));
    fl_ds : forall s, In s ss -> dep (ss_nodes s) (fs (ss_id s));
    fl_nc : forall c a, In c cs -> okon dm (cl_nodes c) a -> 0 <= fc (cl_id c) a;
    fl_ns : forall s a, In s ss -> okon dm (ss_nodes s) a -> 0 <= fs (ss_id s) a;
    fl_eq : forall a, okon dm (vars N) a -> qprod (map (fun c => fc (cl_id c) a) cs) = weight N L a * qprod (map (fun s => fs (ss_id s) a) ss);
    fl_z : forall a s, okon dm (vars N) a -> In s ss -> fs (ss_id s) a = 0 -> weight N L a = 0 }.

  Definition fc_after (fc fs : fun_at) (m : msg) : fun_at :=
    let '(x, s, y) := m in put fc (cl_id y) (fun a => fc (cl_id y) a * qquot (marg x s fc a) (fs (ss_id s) a)).
  Definition fs_after (fc fs : fun_at) (m : msg) : fun_at :=
    let '(x, s, y) := m in put fs (ss_id s) (marg x s fc).
  Definition edge (m : msg) : Prop := In (across m) ss /\ between (across m) (fst (fst m)) (snd m).

  Lemma c_vars c : In c cs -> incl (cl_nodes c) (vars N).
  Proof using Hids. intros Hc v Hv. apply Hids. apply bbn_ids_In. eauto. Qed.
  Lemma edge_facts x s y : edge (x, s, y) -> In x cs /\ In y cs /\ In s ss /\ cl_id x <> cl_id y /\ NoDup (ss_nodes s) /\ incl (ss_nodes s) (cl_nodes x) /\ incl (ss_nodes s) (cl_nodes y) /\
    NoDup (cl_nodes x) /\ NoDup (cl_nodes y).
  Proof using HJ.
    intros [H1 H2]. unfold across in *. simpl in *. destruct (jg_ends _ HJ s H1) as [A1 [A2 A3]]. destruct (jg_ss _ HJ s H1) as [A4 [A5 A6]].
    destruct H2 as [[<- <-]|[<- <-]].
    - repeat split; auto; apply (jg_cl _ HJ); auto.
    - assert (cl_id (ss_right s) <> cl_id (ss_left s)) by congruence. repeat split; auto; apply (jg_cl _ HJ); auto.
  Qed.
  Lemma cids_ND : NoDup (map cl_id cs).
  Proof using HJ. pose proof (jg_ids_NoDup j HJ) as H. apply NoDup_app_iff in H. tauto. Qed.
  Lemma sids_ND : NoDup (map ss_id ss).
  Proof using HJ. pose proof (jg_ids_NoDup j HJ) as H. apply NoDup_app_iff in H. tauto. Qed.
  Lemma s_inj s s' : In s ss -> In s' ss -> ss_id s = ss_id s' -> s = s'.
  Proof using HJ. intros Q1 Q2 E. apply (jg_get_s j HJ) in Q1. apply (jg_get_s j HJ) in Q2. rewrite E in Q1. congruence. Qed.

  Lemma marg_dep x s fc : dep (cl_nodes x) (fc (cl_id x)) -> dep (ss_nodes s) (marg x s fc).
  Proof using. intros H. eapply sums_dep'; [exact H|]. intros v Hv. rewrite minus_In. destruct (in_dec Z.eq_dec v (ss_nodes s)); tauto. Qed.
  Lemma marg_nn x s fc a : (forall b, okon dm (cl_nodes x) b -> 0 <= fc (cl_id x) b) -> okon dm (ss_nodes s) a -> 0 <= marg x s fc a.
  Proof using.
    intros H Ha. unfold marg. apply sums_nonneg_ok with (S := ss_nodes s); auto. intros b Hb. apply H. intros v Hv. apply Hb. rewrite in_app_iff, minus_In.
    destruct (in_dec Z.eq_dec v (ss_nodes s)); auto.
  Qed.
  (** a vanishing marginal makes the entries vanish *)
  Lemma marg_zero x s fc a : dep (cl_nodes x) (fc (cl_id x)) -> (forall b, okon dm (cl_nodes x) b -> 0 <= fc (cl_id x) b) -> okon dm (cl_nodes x) a ->
    marg x s fc a = 0 -> fc (cl_id x) a = 0.
  Proof using.
    intros Hd H Ha E. eapply (sums_zero_terms dm (minus (cl_nodes x) (ss_nodes s))); [eapply dep_proper; exact Hd| |exact E| |]; auto.
    - intros b Hb1 Hb2. apply H. intros v Hv. destruct (in_dec Z.eq_dec v (minus (cl_nodes x) (ss_nodes s))) as [I|I]; [auto|]. rewrite Hb1 by auto. auto.
    - intros v Hv. apply minus_In in Hv. apply Ha. tauto.
  Qed.

  Lemma pass_tab ps fc fs x s y : flow fc fs ps -> edge (x, s, y) ->
    send h ps (x, s, y) = Ok (dset (dset ps (ss_id s) (tab dm (ss_nodes s) (marg x s fc))) (cl_id y)
       (tab dm (cl_nodes y) (fun a => fc (cl_id y) a * qquot (marg x s fc a) (fs (ss_id s) a)))).
  Proof using HJ HN Hids Hh.
    intros F He. destruct (edge_facts _ _ _ He) as [H1 [H2 [H3 [H4 [H5 [H6 [H7 [H8 H9]]]]]]]].
    assert (Dx : forall v, In v (cl_nodes x) -> h_values h v = dm v) by (intros v Hv; apply Hh, (c_vars x); auto).
    assert (Dy : forall v, In v (cl_nodes y) -> h_values h v = dm v) by (intros v Hv; apply Hh, (c_vars y); auto).
    assert (Ds : forall v, In v (ss_nodes s) -> h_values h v = dm v) by auto.
    unfold send. simpl fst. simpl snd. rewrite pass_message_tab with (fx := fc (cl_id x)) (fs := fs (ss_id s)) (fy := fc (cl_id y)); auto.
    - assert (E : forall a, sums (h_values h) (minus (cl_nodes x) (ss_nodes s)) (fc (cl_id x)) a = marg x s fc a).
      { intros a. apply sums_dom_ext. intros v Hv. apply minus_In in Hv. apply Dx. tauto. }
      f_equal. f_equal.
      + f_equal. rewrite (tab_dom_ext _ dm) by auto. apply tab_ext. intros a _. apply E.
      + rewrite (tab_dom_ext _ dm) by auto. apply tab_ext. intros a _. rewrite E. auto.
    - apply (jg_cs j HJ); auto.
    - intros v Hv. rewrite Ds by auto. apply (ns_dom _ HN), (c_vars x); auto.
    - apply (fl_dc _ _ _ F); auto.
    - rewrite (fl_c _ _ _ F) by auto. f_equal. symmetry. apply tab_dom_ext. auto.
    - rewrite (fl_s _ _ _ F) by auto. f_equal. symmetry. apply tab_dom_ext. auto.
    - rewrite (fl_c _ _ _ F) by auto. f_equal. symmetry. apply tab_dom_ext. auto.
    - apply (fl_ds _ _ _ F); auto.
  Qed.

  Lemma flow_step ps fc fs m : flow fc fs ps -> edge m -> exists ps', send h ps m = Ok ps' /\ flow (fc_after fc fs m) (fs_after fc fs m) ps'.
  Proof using HJ HN Hids Hh.
    intros F He. destruct m as [[x s] y]. destruct (edge_facts _ _ _ He) as [H1 [H2 [H3 [H4 [H5 [H6 [H7 [H8 H9]]]]]]]].
    eexists. split; [apply (pass_tab ps fc fs); auto|]. simpl.
    assert (Dm : dep (ss_nodes s) (marg x s fc)) by (apply marg_dep, (fl_dc _ _ _ F); auto).
    assert (Nm : forall a, okon dm (ss_nodes s) a -> 0 <= marg x s fc a) by (intros a Ha; apply marg_nn; auto; intros b Hb; apply (fl_nc _ _ _ F); auto).
    assert (Hys : cl_id y <> ss_id s) by (apply (jg_cs j HJ); auto).
    constructor.
    - intros c Hc. destruct (string_dec (cl_id c) (cl_id y)) as [E|E].
      + apply (jg_c_inj j HJ) in E; auto. subst c. rewrite dget_dset_eq. f_equal. apply tab_ext. intros a _. rewrite put_eq. auto.
      + rewrite !dget_dset_neq; auto; [|apply (jg_cs j HJ); auto]. rewrite (fl_c _ _ _ F) by auto. f_equal. apply tab_ext. intros a _. rewrite put_neq; auto.
    - intros s' Hs'. rewrite dget_dset_neq by (apply not_eq_sym, (jg_cs j HJ); auto). destruct (string_dec (ss_id s') (ss_id s)) as [E|E].
      + apply s_inj in E; auto. subst s'. rewrite dget_dset_eq. f_equal. apply tab_ext. intros a _. rewrite put_eq. auto.
      + rewrite dget_dset_neq by auto. rewrite (fl_s _ _ _ F) by auto. f_equal. apply tab_ext. intros a _. rewrite put_neq; auto.
    - intros c Hc. destruct (string_dec (cl_id c) (cl_id y)) as [E|E].
      + apply (jg_c_inj j HJ) in E; auto. subst c. eapply dep_ext; [intros a; symmetry; apply put_eq|].
        apply dep_mult; [apply (fl_dc _ _ _ F); auto|]. intros a b Hab. rewrite (Dm a b), (fl_ds _ _ _ F s H3 a b); auto.
      + eapply dep_ext; [intros a; symmetry; apply put_neq; auto|]. apply (fl_dc _ _ _ F); auto.
    - intros s' Hs'. destruct (string_dec (ss_id s') (ss_id s)) as [E|E].
      + apply s_inj in E; auto. subst s'. eapply dep_ext; [intros a; symmetry; apply put_eq|]. auto.
      + eapply dep_ext; [intros a; symmetry; apply put_neq; auto|]. apply (fl_ds _ _ _ F); auto.
    - intros c a Hc Ha. destruct (string_dec (cl_id c) (cl_id y)) as [E|E].
      + apply (jg_c_inj j HJ) in E; auto. subst c. rewrite put_eq. assert (Hs : okon dm (ss_nodes s) a) by (intros v Hv; apply Ha; auto).
        apply Qcle_0_mult; [apply (fl_nc _ _ _ F); auto|]. apply qquot_nonneg; auto. apply (fl_ns _ _ _ F); auto.
      + rewrite put_neq by auto. apply (fl_nc _ _ _ F); auto.
    - intros s' a Hs' Ha. destruct (string_dec (ss_id s') (ss_id s)) as [E|E].
      + apply s_inj in E; auto. subst s'. rewrite put_eq. auto.
      + rewrite put_neq by auto. apply (fl_ns _ _ _ F); auto.
    - intros a Ha. rewrite (qprod_scale cl_id cs y fc (fun b => qquot (marg x s fc b) (fs (ss_id s) b))) by auto using cids_ND.
      pose proof (qprod_put ss_id ss s fs (marg x s fc) a sids_ND H3) as Q. set (S' := qprod (map (fun y0 => put fs _ _ _ a) ss)) in *.
      rewrite (fl_eq _ _ _ F) by auto. set (S := qprod (map (fun s => fs (ss_id s) a) ss)) in *.
      destruct (Qc_eq_dec (fs (ss_id s) a) 0) as [E|E].
      + rewrite (fl_z _ _ _ F a s) by auto. ring.
      + assert (E2 : S' = S * qquot (marg x s fc a) (fs (ss_id s) a)).
        { apply (qc_cancel _ _ (fs (ss_id s) a)); auto. rewrite <- Qcmult_assoc, (qquot_mul _ _ E). exact Q. }
        rewrite E2. ring.
    - intros a s' Ha Hs'. destruct (string_dec (ss_id s') (ss_id s)) as [E|E].
      + apply s_inj in E; auto. subst s'. rewrite put_eq. intros E.
        assert (E1 : fc (cl_id x) a = 0).
        { apply (marg_zero x s); auto; [apply (fl_dc _ _ _ F); auto|intros b Hb; apply (fl_nc _ _ _ F); auto|]. intros v Hv. apply Ha, (c_vars x); auto. }
        pose proof (fl_eq _ _ _ F a Ha) as Q. rewrite (qprod_has_zero (fun c => fc (cl_id c) a) cs x H1 E1) in Q.
        symmetry in Q. apply Qcmult_integral in Q. destruct Q as [Q|Q]; auto.
        apply qprod_zero in Q. destruct Q as [s0 [Q1 Q2]]. apply (fl_z _ _ _ F a s0); auto.
      + rewrite put_neq by auto. apply (fl_z _ _ _ F); auto.
  Qed.

  Fixpoint fc_run (fc fs : fun_at) (ms : list msg) : fun_at :=
    match ms with [] => fc | m :: r => fc_run (fc_after fc fs m) (fs_after fc fs m) r end.
  Fixpoint fs_run (fc fs : fun_at) (ms : list msg) : fun_at :=
    match ms with [] => fs | m :: r => fs_run (fc_after fc fs m) (fs_after fc fs m) r end.
  Lemma flow_run ms : forall ps fc fs, flow fc fs ps -> (forall m, In m ms -> edge m) ->
    exists ps', foldM (send h) ms ps = Ok ps' /\ flow (fc_run fc fs ms) (fs_run fc fs ms) ps'.
  Proof using HJ HN Hids Hh.
    induction ms as [|m ms IH]; intros ps fc fs F He; simpl; [eauto|].
    destruct (flow_step ps fc fs m F) as [ps1 [E1 F1]]; [apply He; simpl; auto|]. rewrite E1. cbn [rbind]. apply IH; auto. intros; apply He; simpl; auto.
  Qed.
  Lemma fc_run_app m1 : forall fc fs m2, fc_run fc fs (m1 ++ m2) = fc_run (fc_run fc fs m1) (fs_run fc fs m1) m2.
  Proof using. induction m1; simpl; auto. Qed.
  Lemma fs_run_app m1 : forall fc fs m2, fs_run fc fs (m1 ++ m2) = fs_run (fc_run fc fs m1) (fs_run fc fs m1) m2.
  Proof using. induction m1; simpl; auto. Qed.

  Lemma flow_represents fc fs ps : flow fc fs ps -> represents N L (set_jpots j ps).
  Proof using HJ.
    intros F. exists fc, fs. split; [|split].
    - intros c Hc. eexists. split; [apply (fl_c _ _ _ F); auto|]. apply tab_tabulates; [apply (jg_cl _ HJ); auto|apply (fl_dc _ _ _ F); auto].
    - intros s Hs. eexists. split; [apply (fl_s _ _ _ F); auto|]. apply tab_tabulates; [apply (jg_ss _ HJ); auto|apply (fl_ds _ _ _ F); auto].
    - intros a Ha. cbv zeta. split; [apply (fl_eq _ _ _ F); auto|]. intros Q. apply qprod_zero in Q. destruct Q as [s [Q1 Q2]]. apply (fl_z _ _ _ F a s); auto.
  Qed.
End Flow.
