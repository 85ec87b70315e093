(** get_ace computes the adjustment formula with the product of the parents' marginals. *)
From Verif Require Import Py M_Graph M_Node M_Pptc M_Ace Spec SpecNet SpecEv SpecPot SpecAce L_Base L_PD L_Sums L_Table L_Init L_UG L_Build L_Exact L_Apply L_Net L_Evid L_Hist L_Claims L_Shown
  L_P1 L_P2 L_P4 L_Serde L_P8 L_Cut.
Open Scope nat_scope.

(** ** sums over cartesian products *)
Definition over (vs : list Z) (ws : list string) (a : asg) : asg := fun u => match dget (combine vs ws) u with Some x => x | None => a u end.
Lemma qsum_flat {A B} (f : B -> Qc) (g : A -> list B) l : qsum (map f (flat_map g l)) = qsum (map (fun x => qsum (map f (g x))) l).
Proof. induction l as [|x l IH]; simpl; auto. rewrite map_app, qsum_app, IH, qsum_cons. auto. Qed.
Lemma cart_sums dm vs f : proper f -> NoDup vs -> forall a, sums dm vs f a = qsum (map (fun ws => f (over vs ws a)) (cartesian (map dm vs))).
Proof.
  intros Hf. induction vs as [|v vs IH]; intros HD a; simpl.
  - rewrite qsum_cons, qsum_nil. rewrite Qcplus_0_r. apply Hf. intros u. reflexivity.
  - inversion HD; subst. rewrite qsum_flat. apply qsum_map_ext. intros x _. rewrite IH by auto. rewrite map_map. apply qsum_map_ext. intros ws _. apply Hf.
    intros u. unfold over. simpl. unfold upd. change (eqb u v) with (Z.eqb u v). destruct (Z.eqb_spec u v) as [->|Hn]; auto.
    replace (dget (combine vs ws) v) with (@None string); auto. symmetry. apply dget_None. intros Hk. apply in_map_iff in Hk. destruct Hk as [[k w] [E Hk]]. simpl in E. subst k.
    apply in_combine_l in Hk. tauto.
Qed.

Lemma Forall2_impl_in {A B} (P Q : A -> B -> Prop) l l' : (forall a b, In a l -> P a b -> Q a b) -> Forall2 P l l' -> Forall2 Q l l'.
Proof. intros H F. induction F; constructor. apply H; auto. left; auto. apply IHF. intros; apply H; auto. right; auto. Qed.

(** ** evidence *)
Section Ev.
  Context (N : net) (HD : forall i, In i (vars N) -> NoDup (dom N i) /\ dom N i <> []).
  Definition sees (i : Z) (v : string) (e : evidence) : Prop :=
    known N e /\ ev_node e = i /\ ev_type e = OBSERVATION /\ In v (dom N i) /\ forall w, In w (dom N i) -> supplied e w = if String.eqb w v then 1%Qc else 0%Qc.
  Lemma sees_like i v e : sees i v e -> forall w, like_of e w = if String.eqb w v then 1%Qc else 0%Qc.
  Proof using HD.
    intros [[K1 [K2 [K3 K4]]] [E [O1 [Hv Hs]]]] w. subst i. unfold like_of. rewrite O1.
    assert (Ey : best (supplied e) (considered e) = v); [|rewrite Ey; auto].
    assert (Hy : In v (considered e)). { apply considered_In. right. rewrite K2; auto. }
    assert (Hb : In (best (supplied e) (considered e)) (dom N (ev_node e))).
    { assert (G : In (best (supplied e) (considered e)) (considered e)). { apply best_In. intros Ec. rewrite Ec in Hy. destruct Hy. }
      apply considered_In in G. rewrite K2 in *. destruct G as [G|G]; auto. }
    pose proof (best_max (supplied e) _ v Hy) as Hm. rewrite (Hs v), String.eqb_refl, (Hs (best _ _)) in Hm by auto.
    destruct (String.eqb_spec (best (supplied e) (considered e)) v) as [E|E]; auto. exfalso. revert Hm. apply Qclt_not_le. reflexivity.
  Qed.
  Lemma sees_built n i v : In i (vars N) -> n_id n = i -> n_values n = dom N i -> In v (dom N i) -> sees i v (build_evidence n OBSERVATION [(v, 1%Qc)]).
  Proof.
    clear. intros Hi E1 E2 Hv. unfold build_evidence. simpl. rewrite E1, E2. split; [|split; [|split; [|split]]]; auto.
    - split; auto. split; auto. simpl. split. repeat constructor; intros []. intros w [<-|[]]. auto.
    - intros w _. unfold supplied. simpl. change (eqb w v) with (String.eqb w v). destruct (String.eqb w v); auto.
  Qed.
  Lemma sees_again i v e : sees i v e -> exists e', revalidated (Some e) = Some e' /\ sees i v e'.
  Proof using HD.
    intros Hs. pose proof (sees_like i v e Hs) as Hl. destruct Hs as [K [E [O1 [Hv Hs]]]].
    destruct (validate_known N e HD K) as [m [V1 [V2 [V3 V4]]]]. unfold revalidated. rewrite V1. eexists. split; [reflexivity|].
    destruct K as [K1 [K2 [K3 K4]]]. subst i. split; [|split; [|split; [|split]]]; auto.
    - split; auto. split; auto. simpl. split; auto. intros w Hw. rewrite K2. apply V3; auto.
    - intros w Hw. unfold supplied. simpl. rewrite V4 by auto. apply Hl.
  Qed.
  Lemma fold_seen c es : (forall e w, In e es -> like_of e w = if String.eqb w (c (ev_node e)) then 1%Qc else 0%Qc) -> forall L i v,
    fold_left assimilate es L i v = if mem i (map ev_node es) then (if String.eqb v (c i) then 1%Qc else 0%Qc) else L i v.
  Proof.
    clear. induction es as [|e es IH]; intros H L i v; simpl; auto. rewrite IH by (intros; apply H; right; auto).
    change (mem i (ev_node e :: map ev_node es)) with (Z.eqb i (ev_node e) || mem i (map ev_node es))%bool.
    destruct (mem i (map ev_node es)); [rewrite orb_true_r; auto|]. rewrite orb_false_r. unfold assimilate. destruct (Z.eqb_spec i (ev_node e)) as [->|]; auto. apply H. left; auto.
  Qed.
End Ev.

Section Ace.
  Context (ops : list bop) (o0 o : Ord) (HW : well_shaped ops) (HC : connected ops) (Ho0 : ord_ok o0) (Ho : ord_ok o).
  Let N := net_of ops.
  Let nm := net_name ops.

  (** trees reached by observations and withdrawals *)
  Definition reached (j : jtree) (h : history) : Prop := valid_history N h /\ Forall hard_call (calls h) /\ session o0 ops h = Ok j.
  Lemma reached_step j h c : reached j h -> valid_call N c -> hard_call c -> exists j', do_call o j c = (j', None) /\ reached j' (h ++ [(o, c)]).
  Proof using HW HC Ho0 Ho.
    intros [[V1 V2] [H1 H2]] Vc Hc.
    assert (V : valid_history N (h ++ [(o, c)])). { split; [|unfold calls; rewrite map_app]; apply Forall_app; split; auto; repeat constructor; auto. }
    assert (Hh : Forall hard_call (calls (h ++ [(o, c)]))). { unfold calls. rewrite map_app. apply Forall_app; split; auto; repeat constructor; auto. }
    destruct (c02 ops o0 (h ++ [(o, c)]) HW HC Ho0 V Hh) as [j' [t [A1 _]]]. exists j'. split; [|split; auto].
    unfold session in H2, A1. destruct (apply o0 (build ops)) as [[b j0]|]; [|discriminate]. cbn [rbind snd] in *. rewrite do_calls_app in A1.
    destruct (do_calls j0 h) as [j1 [|]]; [discriminate|]. injection H2 as ->. simpl in A1. destruct (do_call o j c) as [j2 [|]]; [discriminate|]. congruence.
  Qed.
  Lemma reached_table j h : reached j h -> exists t, get_posteriors j = Ok t /\ exact_table N nm (in_force N (calls h)) t.
  Proof using HW HC Ho0.
    intros [V [Hh HJ]]. destruct (c02 ops o0 h HW HC Ho0 V Hh) as [j' [t [A1 [A2 A3]]]]. rewrite HJ in A1. injection A1 as <-. eauto.
  Qed.
  Lemma dget_map_dom (f : string -> Qc) d v : NoDup d -> In v d -> dget (map (fun y => (y, f y)) d) v = Some (f v).
  Proof.
    clear. intros Hd Hv. apply In_dget. unfold dkeys. rewrite map_map. simpl. rewrite map_id. auto. apply in_map_iff. exists v; auto.
  Qed.
  Lemma reached_node j h i : reached j h -> In i (vars N) -> exists n, get_bbn_node_by_name j (nm i) = Some n /\ n_id n = i /\ n_values n = dom N i.
  Proof using HW Ho0.
    intros [V [Hh HJ]] Hi. destruct (session_live ops o0 h HW Ho0 V) as [j' [ev [A1 [A2 _]]]]. rewrite HJ in A1. injection A1 as <-.
    pose proof (lv_net _ _ _ _ A2) as HN. pose proof (jn_ids _ _ _ HN) as Hids. fold N nm in Hids, HN.
    change (jt_bbn_ids (set_jevid j ev)) with (jt_bbn_ids j) in Hids.
    destruct (hg_node _ _ _ _ (jn_hg _ _ _ HN) i (proj2 (Hids i) Hi)) as [n [E1 [E2 [E3 _]]]]. change (jt_heap (set_jevid j ev)) with (jt_heap j) in E1.
    exists n. split; auto. unfold get_bbn_node_by_name.
    assert (Hm : forall k, In k (flat_map cl_nodes (jt_cliques j)) -> In k (vars N)). { intros k Hk. apply Hids. unfold jt_bbn_ids. rewrite sof_In. auto. }
    assert (Him : In i (flat_map cl_nodes (jt_cliques j))). { apply Hids in Hi. unfold jt_bbn_ids in Hi. rewrite sof_In in Hi. auto. }
    assert (Hn : forall k, In k (vars N) -> h_name (jt_heap j) k = nm k). { intros k Hk. apply (jn_nm _ _ _ HN k Hk). }
    assert (Hinj : forall k, In k (vars N) -> nm k = nm i -> k = i).
    { intros k Hk E. pose proof (ws_names _ HW) as Hd. change (NoDup (map nm (vars N))) in Hd. revert Hd Hk Hi E. clear. generalize (vars N). intros l Hd Hk Hi E.
      induction l as [|u l IH]; [destruct Hk|]. inversion Hd as [|? ? Hu Hd']; subst. destruct Hk as [->|Hk], Hi as [->|Hi]; auto.
      - exfalso. apply Hu. rewrite E. apply in_map; auto.
      - exfalso. apply Hu. rewrite <- E. apply in_map; auto. }
    set (l := flat_map cl_nodes (jt_cliques j)) in *. clearbody l.
    assert (G : forall acc, acc = Some n \/ In i l -> (forall k, In k l -> In k (vars N)) ->
      fold_left (fun acc k => if eqb (h_name (jt_heap j) k) (nm i) then dget (jt_heap j) k else acc) l acc = Some n).
    { clear Hm Him. induction l as [|k l IH]; intros acc Hacc Hm; simpl. { destruct Hacc as [|[]]; auto. }
      apply IH; [|intros; apply Hm; right; auto]. rewrite (Hn k) by (apply Hm; left; auto). change (eqb (nm k) (nm i)) with (String.eqb (nm k) (nm i)).
      destruct (String.eqb_spec (nm k) (nm i)) as [E|E].
      - left. apply Hinj in E; [|apply Hm; left; auto]. subst k. auto.
      - destruct Hacc as [->|[->|Hi']]; [left; auto|congruence|right; auto]. }
    apply G; auto.
  Qed.
  Lemma ev_of j h i v : reached j h -> In i (vars N) -> In v (dom N i) -> exists e, ace_evidence j (nm i) v = Some e /\ sees N i v e.
  Proof using HW Ho0.
    intros Hj Hi Hv. destruct (reached_node j h i Hj Hi) as [n [E1 [E2 E3]]]. unfold ace_evidence. rewrite E1. simpl. eexists. split; [reflexivity|]. apply sees_built; auto.
  Qed.

  Context (x y : Z) (yv : string) (Hx : In x (vars N)) (Hy : In y (vars N)) (Hyv : In yv (dom N y)).
  Context (Zs : list Z) (HZ : NoDup Zs) (HZv : incl Zs (vars N)) (HxZ : ~ In x Zs).

  Definition term (xv : string) (a : asg) : Qc :=
    (exact_posterior N (seeing (x :: Zs) (upd a x xv)) y yv * qprod (map (fun p => exact_posterior N no_evidence p (a p)) Zs))%Qc.

  Lemma evs_of j h ws : reached j h -> In ws (cartesian (map (dom N) Zs)) ->
    exists es, map (fun nv => ace_evidence j (fst nv) (snd nv)) (combine (map nm Zs) ws) = map Some es /\ Forall2 (fun p e => sees N p (asg_of Zs ws p) e) Zs es.
  Proof using HW Ho0 HZ HZv.
    intros Hj. revert ws HZ HZv. clear HxZ. induction Zs as [|p Zs' IH]; intros ws HD HI Hws; simpl in *.
    - destruct Hws as [<-|[]]. exists []. split; auto.
    - apply in_flat_map in Hws. destruct Hws as [v [Hv Hws]]. apply in_map_iff in Hws. destruct Hws as [ws' [<- Hws]]. inversion HD; subst.
      destruct (IH ws') as [es [E1 E2]]; auto. { intros u Hu. apply HI. right; auto. }
      destruct (ev_of j h p v Hj) as [e [F1 F2]]; auto. { apply HI. left; auto. }
      exists (e :: es). simpl. rewrite F1, E1. split; auto. constructor.
      + rewrite asg_of_cons, Z.eqb_refl. auto.
      + eapply Forall2_impl_in; [|exact E2]. intros q b Hq Hs. rewrite asg_of_cons. destruct (Z.eqb_spec q p) as [->|]; [contradiction|auto].
  Qed.

  Lemma unobserve_reached j h : reached j h -> exists j', done (unobserve_all o j) = Ok j' /\ reached j' (h ++ [(o, UnobserveAll)]).
  Proof using HW HC Ho0 Ho.
    intros Hj. destruct (reached_step j h UnobserveAll Hj I I) as [j' [E1 E2]]. exists j'. split; auto. change (do_call o j UnobserveAll) with (unobserve_all o j) in E1. rewrite E1. auto.
  Qed.
  Lemma in_force_app h c : in_force N (calls (h ++ [(o, c)])) = effect N (in_force N (calls h)) c.
  Proof. unfold in_force, calls. rewrite map_app, fold_left_app. reflexivity. Qed.

  Lemma y_prob j h xv e ws : reached j h -> sees N x xv e -> In ws (cartesian (map (dom N) Zs)) ->
    exists j' h', y_xz_prob o (nm y) yv j (Some e) (map (fun nv => ace_evidence j (fst nv) (snd nv)) (combine (map nm Zs) ws)) =
      Ok (j', exact_posterior N (seeing (x :: Zs) (upd (asg_of Zs ws) x xv)) y yv) /\ reached j' h'.
  Proof using HW HC Ho0 Ho HZ HZv HxZ Hy Hyv.
    intros Hj He Hws. destruct (evs_of j h ws Hj Hws) as [es [E1 E2]]. rewrite E1. unfold y_xz_prob.
    destruct (unobserve_reached j h Hj) as [j1 [A1 A2]]. rewrite A1. cbn [rbind].
    assert (Em : mapM with_node (Some e :: map Some es) = Ok (e :: es)). { simpl. assert (G : mapM with_node (map Some es) = Ok es). { clear. induction es as [|a es IH]; simpl; auto. rewrite IH. auto. } rewrite G. auto. }
    rewrite Em. cbn [rbind].
    assert (HK : Forall (fun e => known N e /\ ev_type e = OBSERVATION) (e :: es)).
    { constructor. split; apply He. clear - E2. induction E2 as [|p e l es A B IH]; constructor; auto. split; apply A. }
    destruct (reached_step j1 (h ++ [(o, UnobserveAll)]) (Update (e :: es)) A2) as [j2 [B1 B2]].
    { simpl. eapply Forall_impl; [|exact HK]. intros a Ha. apply Ha. }
    { simpl. eapply Forall_impl; [|exact HK]. intros a [_ Ha]. unfold hard. rewrite Ha. discriminate. }
    change (do_call o j1 (Update (e :: es))) with (update_evidences o j1 (e :: es)) in B1. rewrite B1. cbn [done rbind].
    destruct (reached_table j2 _ B2) as [t [T1 T2]].
    assert (HA : agree N (in_force N (calls ((h ++ [(o, UnobserveAll)]) ++ [(o, Update (e :: es))]))) (seeing (x :: Zs) (upd (asg_of Zs ws) x xv))).
    { rewrite in_force_app, in_force_app. intros i v Hi Hv. cbn [effect].
      rewrite (fold_seen (upd (asg_of Zs ws) x xv)).
      - unfold seeing. assert (En : map ev_node (e :: es) = x :: Zs).
        { simpl. f_equal. apply He. clear - E2. induction E2 as [|p e l es A B IH]; simpl; auto. f_equal; auto. apply A. }
        rewrite En. reflexivity.
      - intros a w Ha. pose proof (ws_dom _ HW) as HD. destruct Ha as [<-|Ha].
        + rewrite (sees_like N HD x xv e He). destruct He as [_ [He _]]. rewrite He, upd_eq. auto.
        + assert (Hp : exists p, In p Zs /\ sees N p (asg_of Zs ws p) a).
          { clear - E2 Ha. revert E2. generalize (asg_of Zs ws). intros c E2. induction E2 as [|p e l es A B IH]; [destruct Ha|]. destruct Ha as [->|Ha]. exists p. split; auto. left; auto.
            destruct (IH Ha) as [q [Q1 Q2]]. exists q. split; auto. right; auto. }
          destruct Hp as [p [Hp Sp]]. rewrite (sees_like N HD p _ a Sp). destruct Sp as [_ [Sp _]]. rewrite Sp, upd_neq; auto. intros ->. auto. }
    pose proof (exact_table_agree _ _ _ _ _ HA T2) as T3.
    unfold posterior. rewrite T1. cbn [rbind]. unfold dgetE at 1. destruct T3 as [_ T3]. rewrite (T3 y Hy). cbn [rbind]. unfold dgetE.
    rewrite dget_map_dom; auto. 2:{ apply (ws_dom _ HW y Hy). } cbn [rbind]. eexists _, _. split; [reflexivity|]. exact B2.
  Qed.

  Lemma zs_prob j h ws : reached j h -> In ws (cartesian (map (dom N) Zs)) ->
    exists j' h', z_prob o j (combine (map nm Zs) ws) = Ok (j', qprod (map (fun p => exact_posterior N no_evidence p (asg_of Zs ws p)) Zs)) /\ reached j' h'.
  Proof using HW HC Ho0 Ho HZ HZv.
    intros Hj Hws. unfold z_prob. destruct (unobserve_reached j h Hj) as [j1 [A1 A2]]. rewrite A1. cbn [rbind].
    destruct (reached_table j1 _ A2) as [t [T1 T2]]. rewrite T1. cbn [rbind]. rewrite in_force_app in T2. cbn [effect] in T2.
    assert (Em : mapM (fun nv => m <- dgetE t (fst nv) ;; dgetE m (snd nv)) (combine (map nm Zs) ws) = Ok (map (fun p => exact_posterior N no_evidence p (asg_of Zs ws p)) Zs)).
    { destruct T2 as [_ T2]. pose proof (asg_of_ok (dom N) Zs ws Hws) as Hok. pose proof (asg_of_map (dom N) Zs ws HZ (cart_In (dom N) Zs ws Hws)) as Ew. rewrite <- Ew at 1.
      revert Hok HZv. generalize (asg_of Zs ws). clear - T2 HW. intros a. induction Zs as [|p l IH]; intros Hok HI; simpl; auto.
      assert (Hp : In p (vars N)) by (apply HI; left; auto). unfold dgetE at 1. rewrite (T2 p Hp). cbn [rbind]. unfold dgetE at 1.
      rewrite (dget_map_dom (fun y0 => exact_posterior N no_evidence p y0)); [|apply (ws_dom _ HW p Hp)|apply Hok; left; auto]. cbn [rbind].
      rewrite IH; auto. { intros u Hu. apply Hok. right; auto. } { intros u Hu. apply HI. right; auto. } }
    rewrite Em. cbn [rbind]. eexists _, _. split; [reflexivity|exact A2].
  Qed.

  Lemma round_ok j h xv e tot ws : reached j h -> sees N x xv e -> In ws (cartesian (map (dom N) Zs)) ->
    exists j' h' e', ace_round o (nm y) yv (j, Some e, tot) (combine (map nm Zs) ws) = Ok (j', Some e', (tot + term xv (asg_of Zs ws))%Qc) /\ reached j' h' /\ sees N x xv e'.
  Proof using HW HC Ho0 Ho HZ HZv HxZ Hy Hyv.
    intros Hj He Hws. unfold ace_round. destruct (y_prob j h xv e ws Hj He Hws) as [j1 [h1 [A1 A2]]]. rewrite A1. cbn [rbind fst snd].
    destruct (zs_prob j1 h1 ws A2 Hws) as [j2 [h2 [B1 B2]]]. rewrite B1. cbn [rbind fst snd].
    destruct (sees_again N (ws_dom _ HW) x xv e He) as [e' [C1 C2]]. rewrite C1. exists j2, h2, e'. split; auto.
  Qed.
  Lemma rounds_ok xv wss : forall j h e tot, reached j h -> sees N x xv e -> incl wss (cartesian (map (dom N) Zs)) ->
    exists j' h' e', foldM (ace_round o (nm y) yv) (map (combine (map nm Zs)) wss) (j, Some e, tot) = Ok (j', Some e', (tot + qsum (map (fun ws => term xv (asg_of Zs ws)) wss))%Qc) /\ reached j' h'.
  Proof using HW HC Ho0 Ho HZ HZv HxZ Hy Hyv.
    induction wss as [|ws wss IH]; intros j h e tot Hj He Hi.
    - exists j, h, e. simpl. rewrite qsum_nil, Qcplus_0_r. auto.
    - destruct (round_ok j h xv e tot ws Hj He) as [j1 [h1 [e1 [A1 [A2 A3]]]]]. { apply Hi. left; auto. }
      destruct (IH j1 h1 e1 (tot + term xv (asg_of Zs ws))%Qc A2 A3) as [j2 [h2 [e2 [B1 B2]]]]. { intros u Hu. apply Hi. right; auto. }
      exists j2, h2, e2. split; auto. change (foldM (ace_round o (nm y) yv) (map (combine (map nm Zs)) (ws :: wss)) (j, Some e, tot))
        with (st <- ace_round o (nm y) yv (j, Some e, tot) (combine (map nm Zs) ws) ;; foldM (ace_round o (nm y) yv) (map (combine (map nm Zs)) wss) st).
      rewrite A1. cbn [rbind]. rewrite B1. simpl map. rewrite qsum_cons, Qcplus_assoc. auto.
  Qed.
  Lemma values_ok xvs : forall j h d, reached j h -> incl xvs (dom N x) -> NoDup (dkeys d ++ xvs) ->
    exists j' h', foldM (ace_value o (nm x) (nm y) yv (map (combine (map nm Zs)) (cartesian (map (dom N) Zs)))) xvs (j, d) =
      Ok (j', d ++ map (fun xv => (xv, qsum (map (fun ws => term xv (asg_of Zs ws)) (cartesian (map (dom N) Zs))))) xvs) /\ reached j' h'.
  Proof using HW HC Ho0 Ho HZ HZv HxZ Hx Hy Hyv.
    induction xvs as [|xv xvs IH]; intros j h d Hj Hi Hd.
    - exists j, h. simpl. rewrite app_nil_r. auto.
    - destruct (ev_of j h x xv Hj Hx) as [e [E1 E2]]. { apply Hi. left; auto. }
      destruct (rounds_ok xv (cartesian (map (dom N) Zs)) j h e 0%Qc Hj E2 (incl_refl _)) as [j1 [h1 [e1 [A1 A2]]]].
      set (q := qsum (map (fun ws => term xv (asg_of Zs ws)) (cartesian (map (dom N) Zs)))) in *.
      assert (Hn : ~ In xv (dkeys d)). { intros Hk. apply NoDup_remove_2 in Hd. apply Hd. apply in_or_app; auto. }
      destruct (IH j1 h1 (d ++ [(xv, q)]) A2) as [j2 [h2 [B1 B2]]]. { intros u Hu. apply Hi. right; auto. }
      { unfold dkeys. rewrite map_app. simpl. rewrite <- app_assoc. auto. }
      exists j2, h2. split; auto. match goal with |- foldM ?f _ _ = _ => change (foldM f (xv :: xvs) (j, d)) with (st <- f (j, d) xv ;; foldM f xvs st) end.
      unfold ace_value at 1. cbn [fst snd]. rewrite E1, A1. cbn [rbind]. rewrite dkeys_dset_notin by auto. rewrite Qcplus_0_l, B1. rewrite <- app_assoc. auto.
  Qed.
End Ace.
