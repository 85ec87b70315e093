(** Virtual evidence is an observed effect. *)
From Verif Require Import Py M_Graph M_Node M_Pptc Spec SpecNet SpecEv SpecSep SpecSub L_Base L_PD L_Sums L_Table L_Tree L_Walk L_Forest L_Root L_Good L_Prop L_Init L_Post L_Read L_Ids L_Trans L_Elim L_UG L_Tri L_Moral L_Build L_Exact L_Apply L_Net L_Evid L_Hist L_Claims L_P1 L_P2 L_Sub SpecCohere SpecVirt.
Open Scope nat_scope.

(** ** one more node, with one arc into it *)
Section Leaf.
  Context (ops : list bop) (a b : bnode) (Ha : In (n_id a) (net_vars ops)) (Hb : ~ In (n_id b) (net_vars ops)).
  Let ops' := ops ++ [AddEdge a b].

  Lemma leaf_vars : net_vars ops' = net_vars ops ++ [n_id b].
  Proof using Ha Hb.
    unfold ops'. rewrite net_vars_snoc. cbn [op_nodes map fold_left]. unfold vars_add at 2. rewrite (proj2 (mem_In _ _) Ha). unfold vars_add. rewrite (proj2 (mem_false _ _) Hb). reflexivity.
  Qed.
  Lemma leaf_old i : In i (net_vars ops) -> node_of ops' i = node_of ops i.
  Proof using. intros Hi. unfold ops'. rewrite node_of_app. destruct (node_of ops i) eqn:E; auto. apply node_of_None in E. contradiction. Qed.
  Lemma leaf_new : node_of ops' (n_id b) = Some b.
  Proof using Ha Hb.
    unfold ops'. rewrite node_of_app. destruct (node_of ops (n_id b)) as [n|] eqn:E. { exfalso. apply Hb. destruct (in_dec Z.eq_dec (n_id b) (net_vars ops)); auto. apply node_of_None in n0. congruence. }
    cbn [op_nodes find]. destruct (Z.eqb_spec (n_id a) (n_id b)) as [Q|]; [rewrite Q in Ha; contradiction|]. rewrite Z.eqb_refl. reflexivity.
  Qed.
  Lemma leaf_par_old j : In j (net_vars ops) -> net_par ops' j = net_par ops j.
  Proof using Hb. intros Hj. unfold ops'. rewrite net_par_snoc. destruct (Z.eqb_spec (n_id b) j) as [<-|]; [contradiction|reflexivity]. Qed.
  Lemma leaf_par_new : net_par ops' (n_id b) = [n_id a].
  Proof using Hb.
    unfold ops'. rewrite net_par_snoc, Z.eqb_refl. destruct (net_par ops (n_id b)) as [|x l] eqn:E; [reflexivity|].
    exfalso. apply Hb. apply (bi_ends _ _ (build_inv ops) x). rewrite E. left. auto.
  Qed.
  Lemma leaf_dom i : In i (net_vars ops) -> net_dom ops' i = net_dom ops i.
  Proof using. intros Hi. unfold net_dom. rewrite leaf_old; auto. Qed.
  Lemma leaf_cpt i : In i (net_vars ops) -> net_cpt ops' i = net_cpt ops i.
  Proof using. intros Hi. unfold net_cpt. rewrite leaf_old; auto. Qed.
  Lemma leaf_name i : In i (net_vars ops) -> net_name ops' i = net_name ops i.
  Proof using. intros Hi. unfold net_name. rewrite leaf_old; auto. Qed.
  Lemma leaf_size l : incl l (net_vars ops) -> size (net_dom ops') l = size (net_dom ops) l.
  Proof using. induction l as [|x l IH]; intros H; [reflexivity|]. cbn [size]. rewrite leaf_dom, IH; auto. intros z Hz. apply H. right. auto. apply H. left. auto. Qed.
  Lemma leaf_row l m : incl l (net_vars ops) -> row_index (net_dom ops') l m = row_index (net_dom ops) l m.
  Proof using.
    induction l as [|x l IH]; intros H; [reflexivity|]. assert (Hl : incl l (net_vars ops)) by (intros z Hz; apply H; right; auto). cbn [row_index]. rewrite leaf_dom, IH, leaf_size; auto. apply H. left. auto.
  Qed.
  Lemma family i : In i (net_vars ops) -> incl (net_par ops i ++ [i]) (net_vars ops).
  Proof using. intros Hi x Hx. apply in_app_or in Hx. destruct Hx as [Hx|[<-|[]]]; auto. apply (bi_ends _ _ (build_inv ops) x i Hx). Qed.
  Lemma leaf_sub : subnetwork (net_of ops) (net_of ops').
  Proof using Ha Hb.
    intros i Hi. cbn [net_of vars dom par] in *. split; [rewrite leaf_vars; apply in_or_app; auto|]. split; [apply leaf_dom; auto|]. split; [apply leaf_par_old; auto|].
    intros m _. unfold cpt_entry. cbn [net_of cpt dom par]. rewrite leaf_par_old, leaf_cpt, leaf_row by (auto using family). reflexivity.
  Qed.
  Lemma leaf_shaped : well_shaped ops -> n_mclq a = None -> n_mclq b = None -> NoDup (n_values b) -> n_values b <> [] ->
    List.length (net_dom ops (n_id a)) * List.length (n_values b) <= List.length (n_probs b) -> (forall q, In q (n_probs b) -> (0 <= q)%Qc) ->
    ~ In (n_name b) (map (net_name ops) (net_vars ops)) -> well_shaped ops'.
  Proof using Ha Hb.
    intros HW F1 F2 V1 V2 C1 C2 Hn.
    assert (S : forall i, In i (net_vars ops') -> In i (net_vars ops) \/ i = n_id b). { intros i Hi. rewrite leaf_vars in Hi. apply in_app_or in Hi. destruct Hi as [Hi|[<-|[]]]; auto. }
    assert (D : net_dom ops' (n_id b) = n_values b) by (unfold net_dom; rewrite leaf_new; reflexivity).
    assert (Cb : net_cpt ops' (n_id b) = n_probs b) by (unfold net_cpt; rewrite leaf_new; reflexivity).
    constructor.
    - intros n Hn'. unfold ops', mentioned in Hn'. rewrite flat_map_app in Hn'. apply in_app_or in Hn'. destruct Hn' as [Hn'|Hn']; [apply (ws_fresh _ HW n Hn')|]. cbn in Hn'. destruct Hn' as [<-|[<-|[]]]; auto.
    - rewrite leaf_vars. destruct (net_vars ops); discriminate.
    - intros i Hi. destruct (S i Hi) as [Hi'| ->]; [rewrite leaf_dom by auto; apply (ws_dom _ HW); auto|]. rewrite D. auto.
    - intros i Hi. destruct (S i Hi) as [Hi'| ->].
      + rewrite leaf_par_old, leaf_cpt, leaf_size by (auto using family). apply (ws_cpt _ HW); auto.
      + rewrite leaf_par_new, Cb. cbn [List.app size]. rewrite leaf_dom, D, Nat.mul_1_r by auto. exact C1.
    - intros i q Hi Hq. destruct (S i Hi) as [Hi'| ->]; [rewrite leaf_cpt in Hq by auto; apply (ws_pos _ HW i q); auto|]. rewrite Cb in Hq. auto.
    - intros i Hi. destruct (in_dec Z.eq_dec i (net_vars ops)) as [H|H].
      + rewrite leaf_par_old in Hi by auto. apply (ws_loop _ HW i Hi).
      + destruct (Z.eq_dec i (n_id b)) as [->|Hne]; [rewrite leaf_par_new in Hi; destruct Hi as [Q|[]]; rewrite Q in Ha; contradiction|].
        apply H. pose proof (bi_ends _ _ (build_inv ops') i i Hi) as [Q _]. destruct (S i Q); [auto|contradiction].
    - rewrite leaf_vars, map_app. cbn [map]. replace (map (net_name ops') (net_vars ops)) with (map (net_name ops) (net_vars ops)) by (apply map_ext_in; intros i Hi; symmetry; apply leaf_name; auto).
      replace (net_name ops' (n_id b)) with (n_name b) by (unfold net_name; rewrite leaf_new; reflexivity).
      pose proof (NoDup_rev (ws_names _ HW)) as W. rewrite <- (rev_involutive (map _ _ ++ _)). apply NoDup_rev. rewrite rev_app_distr. cbn [rev List.app]. constructor; auto. rewrite <- in_rev. exact Hn.
  Qed.
  Lemma leaf_connected : connected ops -> connected ops'.
  Proof using Ha Hb.
    intros Hc. assert (M : forall u v, path (sym (is_parent (net_of ops))) u v -> path (sym (is_parent (net_of ops'))) u v).
    { intros u v. apply path_mono. intros x y H. assert (P : forall x y, is_parent (net_of ops) x y -> is_parent (net_of ops') x y).
      { intros p q [H1 H2]. cbn [net_of vars par] in *. split; [cbn [net_of vars]; rewrite leaf_vars; apply in_or_app; auto|]. cbn [net_of par]. rewrite leaf_par_old; auto. }
      destruct H as [H|H]; [left|right]; apply P; auto. }
    assert (A1 : is_parent (net_of ops') (n_id a) (n_id b)). { split; cbn [net_of vars par]; [rewrite leaf_vars; apply in_or_app; right; left; auto|rewrite leaf_par_new; left; auto]. }
    assert (G : forall u, In u (net_vars ops') -> path (sym (is_parent (net_of ops'))) u (n_id a)).
    { intros u Hu. rewrite leaf_vars in Hu. apply in_app_or in Hu. destruct Hu as [Hu|[<-|[]]]; [apply M, Hc; auto|]. eapply path_step; [right; exact A1|constructor]. }
    intros u v Hu Hv. apply (path_trans _ u (n_id a) v); [apply G; auto|]. apply path_sym; [intros x y [H|H]; [right|left]; auto|apply G; auto].
  Qed.
End Leaf.

(** ** posteriors *)
Section Mass.
  Context (ops : list bop) (a b : bnode) (e : evidence) (yes no : string).
  Context (HW : well_shaped ops) (Ha : In (n_id a) (net_vars ops)) (He : ev_node e = n_id a) (HB : witness ops e b yes no).
  Let N := net_of ops.
  Let N' := net_of (ops ++ [AddEdge a b]).
  Context (L L' : likelihood) (HK : keeps N N' L L') (HF : free N L (n_id a)).
  Open Scope Qc_scope.

  Lemma qprod_assim (l : list Z) (m : asg) : NoDup l -> In (n_id a) l -> L (n_id a) (m (n_id a)) = 1 ->
    qprod (map (fun x => assimilate L e x (m x)) l) = like_of e (m (n_id a)) * qprod (map (fun x => L x (m x)) l).
  Proof using He.
    clear HW HB HK HF Ha. intros HD Hi H1. assert (G : forall l, ~ In (n_id a) l -> map (fun x => assimilate L e x (m x)) l = map (fun x => L x (m x)) l).
    { intros k Hm. apply map_ext_in. intros x Hx. unfold assimilate. rewrite He. destruct (Z.eqb_spec x (n_id a)) as [->|]; [contradiction|reflexivity]. }
    induction l as [|x l IH]; [destruct Hi|]. inversion HD; subst. cbn [map]. rewrite !qprod_cons. destruct Hi as [->|Hi].
    - rewrite G by auto. unfold assimilate at 1. rewrite He, Z.eqb_refl, H1. ring.
    - rewrite IH by auto. unfold assimilate. rewrite He. destruct (Z.eqb_spec x (n_id a)) as [->|]; [contradiction|]. ring.
  Qed.
  Lemma nth_pairs (f g : string -> Qc) l x : In x l -> nth (pos x l * 2) (flat_map (fun v => [f v; g v]) l) 0 = f x.
  Proof.
    clear. induction l as [|y l IH]; intros H; [destruct H|]. cbn [pos flat_map]. destruct (String.eqb_spec x y) as [->|E]; [reflexivity|].
    cbn [Nat.mul Nat.add List.app nth]. apply IH. destruct H; [congruence|auto].
  Qed.
  Lemma leaf_entry m : In (m (n_id a)) (net_dom ops (n_id a)) -> m (n_id b) = yes -> cpt_entry N' (n_id b) m = like_of e (m (n_id a)).
  Proof using Ha HB He.
    intros Hm Hy. unfold cpt_entry, N'. cbn [net_of cpt dom par]. rewrite (leaf_par_new ops a b (wt_new _ _ _ _ _ HB)). unfold net_cpt. rewrite (leaf_new ops a b Ha (wt_new _ _ _ _ _ HB)).
    rewrite (wt_probs _ _ _ _ _ HB), He. destruct (wt_values _ _ _ _ _ HB) as [V _].
    cbn [List.app row_index size]. assert (D : net_dom (ops ++ [AddEdge a b]) (n_id b) = [yes; no]) by (unfold net_dom; rewrite (leaf_new ops a b Ha (wt_new _ _ _ _ _ HB)); exact V).
    rewrite D, Hy, (leaf_dom ops a b (n_id a) Ha). cbn [pos List.length]. rewrite String.eqb_refl. cbn [Nat.mul Nat.add]. rewrite Nat.add_0_r. apply nth_pairs; auto.
  Qed.
  Lemma leaf_weight m : okon (dom N) (vars N) m ->
    weight N' (observing L' (n_id b) yes) (upd m (n_id b) yes) = weight N (assimilate L e) m.
  Proof using HW Ha He HB HK HF.
    intros Hm. pose proof (wt_new _ _ _ _ _ HB) as Hb. set (m' := upd m (n_id b) yes).
    assert (Em : forall i, In i (vars N) -> m' i = m i). { intros i Hi. unfold m', upd. destruct (Z.eqb_spec i (n_id b)) as [->|]; [contradiction|reflexivity]. }
    assert (Eb : m' (n_id b) = yes) by (unfold m', upd; rewrite Z.eqb_refl; reflexivity).
    unfold weight. replace (vars N') with (vars N ++ [n_id b]) by (symmetry; apply leaf_vars; auto). rewrite !map_app, !qprod_app. cbn [map]. rewrite !qprod_cons.
    rewrite leaf_entry; [|rewrite Em by exact Ha; apply Hm; exact Ha|exact Eb].
    rewrite (qprod_assim (vars N) m (firsts_NoDup _) Ha (HF _ (Hm _ Ha))). rewrite Em by exact Ha.
    replace (map (fun v => cpt_entry N' v m') (vars N)) with (map (fun v => cpt_entry N v m) (vars N)).
    2:{ apply map_ext_in. intros i Hi. destruct (leaf_sub ops a b Ha Hb i Hi) as (_ & _ & _ & C). fold N' in C. rewrite C.
        - apply cpt_entry_dep. intros v Hv. symmetry. apply Em. apply (family ops i Hi v Hv).
        - intros v Hv. rewrite Em by auto. apply Hm; auto. }
    replace (map (fun v => observing L' (n_id b) yes v (m' v)) (vars N)) with (map (fun v => L v (m v)) (vars N)).
    2:{ apply map_ext_in. intros i Hi. unfold observing. destruct (Z.eqb_spec i (n_id b)) as [->|]; [contradiction|]. rewrite Em by auto. symmetry. apply HK; auto. }
    unfold observing. rewrite Z.eqb_refl, Eb, String.eqb_refl. change (qprod []) with 1. ring.
  Qed.
  Lemma leaf_no m : m (n_id b) <> yes -> weight N' (observing L' (n_id b) yes) m = 0.
  Proof using Ha HB.
    intros H. unfold weight. replace (vars N') with (vars N ++ [n_id b]) by (symmetry; apply leaf_vars; auto; apply (wt_new _ _ _ _ _ HB)). rewrite !map_app, !qprod_app. cbn [map]. rewrite !qprod_cons.
    unfold observing at 2. rewrite Z.eqb_refl. apply String.eqb_neq in H. rewrite H. ring.
  Qed.
  (** summing out the new variable *)
  Lemma leaf_sums (F : asg -> Qc) (G : asg -> Qc) : (forall m, okon (dom N) (vars N) m -> F (upd m (n_id b) yes) = G m) -> (forall m, m (n_id b) <> yes -> F m = 0) ->
    sums (dom N') (vars N') F no_asg = sums (dom N) (vars N) G no_asg.
  Proof using HW Ha HB.
    intros H1 H2. pose proof (wt_new _ _ _ _ _ HB) as Hb. replace (vars N') with (vars N ++ [n_id b]) by (symmetry; apply leaf_vars; auto). rewrite sums_app.
    assert (D : dom N' (n_id b) = [yes; no]) by (unfold N'; cbn [net_of dom]; unfold net_dom; rewrite (leaf_new ops a b Ha Hb); apply (wt_values _ _ _ _ _ HB)).
    transitivity (sums (dom N) (vars N) (sums (dom N') [n_id b] F) no_asg).
    { apply sums_dom_ext. intros v Hv. apply (leaf_dom ops a b v Hv). }
    apply sums_ext_gen. intros m _ Hm. cbn [sums]. rewrite D. cbn [map]. rewrite !qsum_cons. change (qsum []) with 0. rewrite H1 by auto. rewrite H2; [ring|].
    unfold upd. rewrite Z.eqb_refl. destruct (wt_values _ _ _ _ _ HB) as [_ V]. congruence.
  Qed.
  Lemma leaf_total : total N' (observing L' (n_id b) yes) = total N (assimilate L e).
  Proof using HW Ha He HB HK HF. unfold total. apply leaf_sums; [apply leaf_weight|apply leaf_no]. Qed.
  Lemma leaf_mass i y : In i (vars N) -> mass_of N' (observing L' (n_id b) yes) i y = mass_of N (assimilate L e) i y.
  Proof using HW Ha He HB HK HF.
    intros Hi. unfold mass_of. apply leaf_sums.
    - intros m Hm. rewrite leaf_weight by auto. replace (upd m (n_id b) yes i) with (m i); [reflexivity|]. unfold upd. destruct (Z.eqb_spec i (n_id b)) as [->|]; [|reflexivity]. destruct (wt_new _ _ _ _ _ HB Hi).
    - intros m Hm. rewrite leaf_no by auto. destruct (string_dec (m i) y); reflexivity.
  Qed.
  Lemma leaf_posterior i y : In i (vars N) -> exact_posterior N' (observing L' (n_id b) yes) i y = exact_posterior N (assimilate L e) i y.
  Proof using HW Ha He HB HK HF. intros Hi. unfold exact_posterior. rewrite leaf_total, leaf_mass by auto. reflexivity. Qed.
End Mass.

(** ** evidence *)
Section Noticed.
  Context (N N' : net) (HI : subnetwork N N').
  Lemma sub_overlooked L L' e : keeps N N' L L' -> In (ev_node e) (vars N) -> overlooked N' L' e -> overlooked N L e.
  Proof using HI.
    intros [R _] Hn (y & O1 & O2 & v & O3 & O4). pose proof (sb_dom N N' HI _ Hn) as D. unfold only_one in *. rewrite D in *. exists y.
    destruct O1 as (A1 & A2 & A3). split. { split; auto. split; [rewrite <- R; auto|]. intros w Hw Ew. apply A3; auto. rewrite R; auto. }
    split; auto. exists v. split; auto. rewrite <- R; auto.
  Qed.
  Lemma sub_noticed L L' c : keeps N N' L L' -> valid_call N c -> noticed N L c -> noticed N' L' c.
  Proof using HI.
    intros R HV. destruct c as [es|ns| |e]; simpl in *; auto.
    - intros H e He O. rewrite Forall_forall in HV. apply (H e He). apply (sub_overlooked L L' e R); auto. apply (HV e He).
    - destruct HV as [[HV _] _]. rewrite (sub_toggles N N' HI L L' e R HV). intros H T O. apply (H T). apply (sub_overlooked L L' e R); auto.
  Qed.
  Lemma sub_all_noticed h : Forall (valid_call N) h -> forall L L', keeps N N' L L' -> all_noticed N L h -> all_noticed N' L' h.
  Proof using HI.
    induction 1 as [|c h H1 H2 IH]; intros L L' R; simpl; auto. intros [A B]. split; [eapply sub_noticed; eauto|]. eapply IH; eauto. apply keeps_effect; auto.
  Qed.
  Lemma keeps_force h : Forall (valid_call N) h -> keeps N N' (in_force N h) (in_force N' h).
  Proof using HI.
    intros HV. unfold in_force. assert (G : forall L L', keeps N N' L L' -> keeps N N' (fold_left (effect N) h L) (fold_left (effect N') h L')).
    { induction HV as [|c h H1 H2 IH]; intros L L' R; simpl; auto. apply IH. apply keeps_effect; auto. }
    apply G. split; intros; reflexivity.
  Qed.
End Noticed.
Lemma all_noticed_snoc N h c : forall L, all_noticed N L (h ++ [c]) <-> all_noticed N L h /\ noticed N (fold_left (effect N) h L) c.
Proof. induction h as [|d h IH]; intros L; simpl; [tauto|]. rewrite IH. tauto. Qed.
Lemma free_noticed N L e : free N L (ev_node e) -> ~ overlooked N L e.
Proof.
  intros F (y & (A1 & A2 & A3) & (B1 & B2 & B3) & v & H1 & H2). apply H2. assert (E : v = y) by (apply A3; auto). subst. rewrite F, B2; auto.
Qed.

Lemma like_unit e v : (0 <= like_of e v)%Qc /\ (like_of e v <= 1)%Qc.
Proof.
  assert (U : unitL (mkNet [ev_node e] (fun _ => [v]) (fun _ => []) (fun _ => [])) (assimilate no_evidence e)) by (apply unit_assim, unit_none).
  specialize (U (ev_node e) v (or_introl eq_refl) (or_introl eq_refl)). unfold assimilate in U. rewrite Z.eqb_refl in U. exact U.
Qed.

Theorem c96 ops a b o o' h h' oe ob e yes no : let N := net_of ops in let ops' := ops ++ [AddEdge a b] in
  well_shaped ops -> connected ops -> ord_ok o -> ord_ok o' -> ord_ok oe -> ord_ok ob ->
  valid_history N h -> all_noticed N no_evidence (calls h) -> Forall (fun p => ord_ok (fst p)) h' -> calls h' = calls h ->
  known N e -> free N (in_force N (calls h)) (ev_node e) -> n_id a = ev_node e -> n_mclq a = None -> witness ops e b yes no ->
  exists j t j' t', session o ops (h ++ [(oe, Update [e])]) = Ok j /\ get_posteriors j = Ok t /\
    session o' ops' (h' ++ [(ob, observe (net_of ops') (n_id b) yes)]) = Ok j' /\ get_posteriors j' = Ok t' /\
    forall i, In i (net_vars ops) -> exists m, dget t (net_name ops i) = Some m /\ dget t' (net_name ops i) = Some m.
Proof.
  intros N ops' HW Hc Ho Ho' Hoe Hob Hh Hn Hoh' E K F Ea Fa HB.
  assert (Ha : In (n_id a) (net_vars ops)) by (rewrite Ea; apply K). pose proof (wt_new _ _ _ _ _ HB) as Hb.
  destruct (wt_values _ _ _ _ _ HB) as [V1 V2].
  assert (HW' : well_shaped ops').
  { apply leaf_shaped; auto; try apply HB.
    - rewrite V1. constructor; [intros [Q|[]]; congruence|]. constructor; [intros []|constructor].
    - rewrite V1. discriminate.
    - rewrite V1, (wt_probs _ _ _ _ _ HB), Ea. generalize (net_dom ops (ev_node e)) as l. induction l as [|x l IH]; [simpl; lia|]. cbn [flat_map List.app List.length] in *. lia.
    - intros q Hq. rewrite (wt_probs _ _ _ _ _ HB) in Hq. apply in_flat_map in Hq. destruct Hq as (v & _ & Hq). destruct (like_unit e v) as [U1 U2].
      destruct Hq as [<-|[<-|[]]]; auto. apply Qcle_minus_iff in U2. exact U2. }
  assert (HC' : connected ops') by (apply leaf_connected; auto).
  set (N' := net_of ops') in *. assert (HI : subnetwork N N') by (apply leaf_sub; auto).
  assert (Vh : Forall (valid_call N) (calls h)) by apply Hh.
  assert (Vh' : valid_history N' h'). { split; auto. rewrite E. eapply Forall_impl; [|exact Vh]. intros c. apply sub_valid; auto. }
  set (L := in_force N (calls h)) in *. set (L' := in_force N' (calls h')). assert (R : keeps N N' L L') by (unfold L', L; rewrite E; apply keeps_force; auto).
  assert (D : dom N' (n_id b) = [yes; no]) by (unfold N'; cbn [net_of dom]; unfold net_dom, ops'; rewrite (leaf_new ops a b Ha Hb); exact V1).
  assert (Hbv : In (n_id b) (vars N')) by (unfold N', ops'; cbn [net_of vars]; rewrite (leaf_vars ops a b Ha Hb); apply in_or_app; right; left; auto).
  set (eb := mkEv (n_id b) (dom N' (n_id b)) OBSERVATION [(yes, 1%Qc)]).
  assert (Kb : known N' eb). { split; [exact Hbv|]. split; [reflexivity|]. split; [repeat constructor; intros []|]. intros z [<-|[]]. change (In yes (dom N' (n_id b))). rewrite D. left. auto. }
  destruct (c03_noticed ops o (h ++ [(oe, Update [e])]) HW Hc Ho) as (j & t & A1 & A2 & A3 & A4).
  { apply valid_app. split; auto. apply valid_one; auto. simpl. constructor; auto. }
  { rewrite app_calls. apply all_noticed_snoc. split; auto. cbn [noticed]. intros e' [<-|[]]. apply free_noticed. exact F. }
  destruct (c03_noticed ops' o' (h' ++ [(ob, observe N' (n_id b) yes)]) HW' HC' Ho') as (j' & t' & B1 & B2 & B3 & B4).
  { apply valid_app. split; auto. apply valid_one; auto. simpl. constructor; auto. }
  { rewrite app_calls. apply all_noticed_snoc. split. { rewrite E. apply (sub_all_noticed N N' HI (calls h) Vh no_evidence no_evidence); auto. split; intros; reflexivity. }
    cbn [noticed observe calls map snd]. intros e' [<-|[]]. apply free_noticed. intros v Hv. apply R; auto. }
  exists j, t, j', t'. split; [exact A1|]. split; [exact A2|]. split; [exact B1|]. split; [exact B2|].
  intros i Hi. eexists. split; [apply (A4 i Hi)|]. rewrite <- (leaf_name ops a b i Hi). fold ops'. rewrite (B4 i (sb_in N N' HI i Hi)). f_equal. fold N'. rewrite (sb_dom N N' HI i Hi). apply map_ext_in. intros y Hy. f_equal.
  rewrite !app_calls. change (calls [(ob, observe N' (n_id b) yes)]) with [observe N' (n_id b) yes]. change (calls [(oe, Update [e])]) with [Update [e]]. rewrite !in_force_snoc. fold N. fold L. fold L'.
  cbn [effect observe fold_left]. fold eb.
  rewrite <- (leaf_posterior ops a b e yes no HW Ha (eq_sym Ea) HB L L' R) by (auto; rewrite Ea; exact F).
  apply posterior_agree. intros x v Hx Hv. unfold assimilate, observing. change (ev_node eb) with (n_id b). destruct (Z.eqb_spec x (n_id b)) as [->|]; auto. apply (like_observes N' eb yes Kb); auto. split; reflexivity.
Qed.
