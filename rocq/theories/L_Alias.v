(** Reapplying a tree after edges have been added to the network it was made from. *)
From Verif Require Import Py M_Graph M_Node M_Pptc Spec SpecNet SpecEv SpecRe SpecAgain SpecPart SpecMany L_Base L_PD L_Sums L_Table L_Tree L_Walk L_Forest L_Root L_Good L_Prop L_Init L_Post L_Read
  L_Ids L_Trans L_Elim L_UG L_Tri L_Moral L_Build L_Exact L_Apply L_Net L_Evid L_Hist L_Claims L_Shape L_Shown L_P1 L_P2 L_Reapply L_Det L_Again L_Again3 L_Part L_Part2 L_Part4 L_Part5.
Open Scope nat_scope.

(** adding nodes and edges changes no node there is *)
Lemma add_node_get b n i m : dget (g_nodes (b_g b)) i = Some m -> dget (g_nodes (b_g (bbn_add_node b n))) i = Some m.
Proof.
  intros E. unfold bbn_add_node, add_node. simpl. destruct (dmem (g_nodes (b_g b)) (n_id n)) eqn:D; auto. simpl. rewrite dget_dset. destruct (eqb_spec i (n_id n)) as [->|]; auto.
  unfold dmem in D. rewrite E in D. discriminate.
Qed.
Lemma bstep_get b op i m : dget (g_nodes (b_g b)) i = Some m -> dget (g_nodes (b_g (bstep b op))) i = Some m.
Proof.
  destruct op as [n|x y]; simpl; [apply add_node_get|]. intros E. change (dget (g_nodes (b_g (bbn_add_node (bbn_add_node b x) y))) i = Some m). apply add_node_get, add_node_get; auto.
Qed.
Lemma bsteps_get new : forall b i m, dget (g_nodes (b_g b)) i = Some m -> dget (g_nodes (b_g (fold_left bstep new b))) i = Some m.
Proof. induction new as [|op new IH]; intros b i m E; simpl; auto. apply IH, bstep_get; auto. Qed.

(** the parents of a network depend on the calls alone *)
Lemma bstep_parents b b' op : b_parents b = b_parents b' -> b_parents (bstep b op) = b_parents (bstep b' op).
Proof. destruct op; simpl; auto. intros ->. auto. Qed.
Lemma bsteps_parents new : forall b b', b_parents b = b_parents b' -> b_parents (fold_left bstep new b) = b_parents (fold_left bstep new b').
Proof. induction new as [|op new IH]; intros b b' E; simpl; auto. apply IH, bstep_parents; auto. Qed.
Lemma parents_after ops new b i : b_parents b = b_parents (build ops) -> dgets (b_parents (fold_left bstep new b)) i = net_par (ops ++ new) i.
Proof.
  intros E. rewrite (bsteps_parents new b (build ops) E). unfold build. rewrite <- fold_left_app. exact (bg_par _ _ _ (build_good (ops ++ new)) i).
Qed.

(** the parent_info of a tree has entries for nodes with parents only *)
Lemma dget_map2 {V W} (f : Z -> W) (d : list (Z * V)) i : dget (map (fun p => (fst p, f (fst p))) d) i = match dget d i with Some _ => Some (f i) | None => None end.
Proof. induction d as [|[k v] d IH]; simpl; auto. destruct (Z.eqb_spec i k) as [->|]; auto. Qed.
Lemma parents_some ops i l : dget (b_parents (build ops)) i = Some l -> l <> [].
Proof.
  unfold build. assert (H : forall ops b, (forall i l, dget (b_parents b) i = Some l -> l <> []) -> forall i l, dget (b_parents (fold_left bstep ops b)) i = Some l -> l <> []).
  { clear. induction ops as [|op ops IH]; intros b H i l E; simpl in E; [eapply H; eauto|]. revert E. apply IH. clear IH i l. intros i l. destruct op as [n|x y]; simpl; [apply H|].
    unfold edge_added, dmem, dgets. destruct (dget (b_parents b) (n_id y)) as [l0|] eqn:E0; cbv zeta.
    - rewrite E0. destruct (mem (n_id x) l0) eqn:Em; [apply H|]. rewrite dget_dset. destruct (eqb_spec i (n_id y)); [|apply H]. intros E. injection E as <-. destruct l0; discriminate.
    - rewrite dget_dset, eqb_refl. simpl. rewrite !dget_dset. destruct (eqb_spec i (n_id y)); [|apply H]. intros E. injection E as <-. discriminate. }
  apply H. intros k m E. discriminate.
Qed.

Lemma pinfo_dget b : forall ns, NoDup (map n_id ns) -> forall i, In i (map n_id ns) -> dget (pinfo_of b ns) i = dget (b_parents b) i.
Proof.
  induction ns as [|n ns IH]; intros Hn i Hi; [destruct Hi|]. inversion Hn as [|? ? N1 N2]; subst.
  assert (Hout : forall k, ~ In k (map n_id ns) -> dget (pinfo_of b ns) k = None).
  { clear. intros k Hk. destruct (dget (pinfo_of b ns) k) as [l|] eqn:E; auto. exfalso. apply Hk. apply dget_In in E. unfold pinfo_of in E. apply in_flat_map in E. destruct E as [m [Hm E]].
    destruct (dget (b_parents b) (n_id m)); [|destruct E]. destruct E as [E|[]]. inversion E; subst. apply in_map; auto. }
  unfold pinfo_of. cbn [flat_map]. fold (pinfo_of b ns). destruct (Z.eq_dec i (n_id n)) as [->|Hne].
  - destruct (dget (b_parents b) (n_id n)) as [l|] eqn:E; simpl.
    + rewrite Z.eqb_refl. auto.
    + apply Hout; auto.
  - destruct Hi as [Hi|Hi]; [congruence|]. specialize (IH N2 i Hi). destruct (dget (b_parents b) (n_id n)) as [l|] eqn:E; simpl; auto.
    destruct (Z.eqb_spec i (n_id n)); [congruence|]. auto.
Qed.

Section Old.
  Context (ops : list bop) (HW : well_shaped ops).
  Notation N := (net_of ops).
  Notation nm := (net_name ops).

  Lemma apply_pinfo o b j : ord_ok o -> apply o (build ops) = Ok (b, j) ->
    b_parents b = b_parents (build ops) /\ forall i, In i (vars N) -> dget (jt_pinfo j) i = dget (b_parents (build ops)) i.
  Proof using HW.
    intros Ho E. pose proof (net_shape ops HW) as HN. pose proof (build_good ops) as HB.
    destruct (compile_full N nm (build ops) HN HB o Ho) as [u [Ks [j0 [F [C1 [C2 [C3 [C4 [C5 [C6 [C7 [C8 [C9 [C10 [C11 _]]]]]]]]]]]]]]].
    rewrite apply_compile, C1 in E. cbn [rbind] in E. destruct (infer o j0) as [j1|] eqn:E1; cbn [rbind] in E; [|discriminate]. injection E as <- <-. split; auto.
    pose proof (keeps_infer _ _ _ E1) as K. intros i Hi. simpl. rewrite (kp_p _ _ K), C11. apply pinfo_dget.
    - assert (Ek : map n_id (get_nodes (gp N (build ops))) = vars N).
      { rewrite <- (ids_gp N nm (build ops) HB). unfold get_nodes, dvals, ids, dkeys. rewrite map_map. apply map_ext_in. intros [k n] Hk. simpl. apply (kid_gp N nm (build ops) HB k n Hk). }
      rewrite Ek. apply (ns_nd _ HN).
    - rewrite <- (ids_gp N nm (build ops) HB) in Hi. unfold get_nodes, dvals. rewrite map_map. unfold ids, dkeys in Hi. apply in_map_iff in Hi. destruct Hi as [[k n] [<- Hk]].
      apply in_map_iff. exists (k, n). split; auto. simpl. apply (kid_gp N nm (build ops) HB k n Hk).
  Qed.

  (** what the tree says the parents are *)
  Definition parents_seen (new : list bop) (i : Z) : list Z := match net_par ops i with [] => [] | _ => net_par (ops ++ new) i end.

  Lemma old_tree o h new : ord_ok o -> valid_history N h ->
    exists b j j1, apply o (build ops) = Ok (b, j) /\ do_calls j h = (j1, None) /\ (connected ops -> jconn j1) /\ ready N nm j1 /\
      let j2 := aliased (fold_left bstep new (shared b j1)) j1 in
      (forall i m, dget (jt_heap j1) i = Some m -> dget (jt_heap j2) i = Some m) /\ (forall i, In i (vars N) -> dgets (jt_pinfo j2) i = parents_seen new i).
  Proof using HW.
    intros Ho Hh. destruct (session_shows ops o h HW Ho Hh) as [b [j [j1 [A1 [A2 [A3 [A4 [A5 A6]]]]]]]].
    pose proof (keeps_calls _ _ _ A2) as K. destruct (apply_pinfo o b j Ho A1) as [P1 P2].
    exists b, j, j1. split; auto. split; auto. split; [intros Hc; apply (A6 Hc)|]. split.
    { apply jnet_ready; [apply (st_net _ _ _ _ (sw_st _ _ _ _ _ A3))|]. eapply carries_keeps; [exact K|]. eapply apply_carries; eauto. }
    cbv zeta. split.
    - intros i m E. unfold aliased. simpl. apply bsteps_get. exact E.
    - intros i Hi. unfold aliased. unfold dgets at 1. cbn [jt_pinfo set_jpinfo]. rewrite (kp_p _ _ K).
      rewrite (dget_map2 (fun k => dgets (b_parents (fold_left bstep new (shared b j1))) k) (jt_pinfo j) i), (P2 i Hi), (parents_after ops new (shared b j1) i) by exact P1.
      unfold parents_seen. pose proof (bg_par _ _ _ (build_good ops) i) as Q. change (par N i) with (net_par ops i) in Q. unfold dgets in Q. destruct (dget (b_parents (build ops)) i) as [l|] eqn:E.
      + rewrite <- Q. pose proof (parents_some ops i l E). destruct l; [congruence|auto].
      + rewrite <- Q. auto.
  Qed.

  Theorem c60_kept o h o' cpts new : connected ops -> ord_ok o -> ord_ok o' -> valid_history N h -> fitting N cpts ->
    (forall i, In i (net_vars ops) -> net_par ops i <> [] -> net_par (ops ++ new) i = net_par ops i) ->
    exists b j j1 j2 t, apply o (build ops) = Ok (b, j) /\ do_calls j h = (j1, None) /\
      reapply o' (aliased (fold_left bstep new (shared b j1)) j1) cpts = Ok j2 /\ get_posteriors j2 = Ok t /\ exact_table (replaced N cpts) nm no_evidence t.
  Proof using HW.
    intros Hc Ho Ho' Hh HF Hp. destruct (old_tree o h new Ho Hh) as [b [j [j1 [A1 [A2 [A3 [A4 [A5 A6]]]]]]]]. set (j2 := aliased (fold_left bstep new (shared b j1)) j1) in *.
    assert (R : ready N nm j2).
    { destruct A4 as [R1 R2 R3 R4 R5 R6 R7]. constructor; auto.
      - destruct R1; constructor; auto.
      - intros i Hi. rewrite A6 by auto. unfold parents_seen. change (par N i) with (net_par ops i). destruct (net_par ops i) eqn:E; auto. rewrite <- E. apply Hp; auto. rewrite E. discriminate.
      - intros i Hi. destruct (R6 i Hi) as [n [E1 E2]]. exists n. split; auto. }
    pose proof (net_shape ops HW) as HN. pose proof (ws_names _ HW) as Hnm.
    destruct (serde_live (replaced N cpts) nm (replaced_shape _ _ HN HF) Hnm o' _ Ho' (update_ready _ _ _ _ R HF)) as [j3 [C1 [C2 [C3 [C4 C5]]]]].
    destruct (live_exact_table (replaced N cpts) nm _ _ (ns_nd _ HN) Hnm C2) as [t [T1 T2]]. { apply jconn_ext with j1; auto. }
    exists b, j, j1, j3, t. split; auto.
  Qed.

  Theorem c60_raises o h o' cpts new i p : ord_ok o -> ord_ok o' -> valid_history N h ->
    In i (net_vars ops) -> net_par ops i <> [] -> In p (net_par (ops ++ new) i) -> ~ In p (net_vars ops) ->
    exists b j j1, apply o (build ops) = Ok (b, j) /\ do_calls j h = (j1, None) /\
      reapply o' (aliased (fold_left bstep new (shared b j1)) j1) cpts = Err KeyError.
  Proof using HW.
    intros Ho Ho' Hh Hi Hne Hp Hn. destruct (old_tree o h new Ho Hh) as [b [j [j1 [A1 [A2 [A3 [A4 [A5 A6]]]]]]]]. exists b, j, j1. split; auto. split; auto.
    set (j2 := aliased (fold_left bstep new (shared b j1)) j1) in *. unfold reapply, apply_from_serde, pot_reinit.
    set (j3 := set_jevid (set_jlistener (update_bbn_cpts j2 cpts) false) []).
    assert (Eids : jt_bbn_ids j3 = jt_bbn_ids j1) by reflexivity. assert (Epi : jt_pinfo j3 = jt_pinfo j2) by reflexivity.
    assert (Hh3 : forall k, In k (vars N) -> exists n, dget (jt_heap j3) k = Some n).
    { intros k Hk. destruct (rd_node _ _ _ A4 k Hk) as [n [E1 _]]. apply A5 in E1. unfold j3, update_bbn_cpts. cbn [jt_heap set_jevid set_jlistener set_jheap].
      assert (Q : forall cp h, (exists n, dget h k = Some n) -> exists n, dget (fold_left (fun h p => if mem (fst p) (jt_bbn_ids j2) then hupd h (fst p) (fun n => set_pot (set_probs n (snd p)) None) else h) cp h) k = Some n).
      { induction cp as [|[a c] cp IH]; intros hh [m Em]; cbn [fold_left]; eauto. apply IH. destruct (mem _ _); eauto. rewrite hupd_dget, Em. cbn [fst]. destruct (Z.eqb a k); simpl; eauto. }
      apply Q. eauto. }
    assert (E : bbn_node_and_parents j3 = Err KeyError); [|rewrite E; reflexivity].
    unfold bbn_node_and_parents. rewrite Eids, Epi.
    assert (HP : forall k, (exists l, mapM (fun q => if mem q (jt_bbn_ids j1) then dgetE (jt_heap j3) q else Err KeyError) (dgets (jt_pinfo j2) k) = Ok l) \/
       mapM (fun q => if mem q (jt_bbn_ids j1) then dgetE (jt_heap j3) q else Err KeyError) (dgets (jt_pinfo j2) k) = Err KeyError).
    { intros k. induction (dgets (jt_pinfo j2) k) as [|q l IH]; cbn [mapM]; eauto. destruct (mem q (jt_bbn_ids j1)) eqn:Em; cbn [rbind]; auto.
      apply mem_In in Em. apply (rd_ids _ _ _ A4) in Em. destruct (Hh3 q Em) as [n En]. assert (Eg : dgetE (jt_heap j3) q = Ok n) by (unfold dgetE; rewrite En; auto). rewrite Eg. cbn [rbind]. destruct IH as [[l' ->]| ->]; cbn [rbind]; eauto. }
    apply mapM_KeyError.
    - intros k Hk. apply (rd_ids _ _ _ A4) in Hk. destruct (Hh3 k Hk) as [n En]. assert (Eg : dgetE (jt_heap j3) k = Ok n) by (unfold dgetE; rewrite En; auto). rewrite Eg. cbn [rbind]. destruct (HP k) as [[l ->]| ->]; cbn [rbind]; eauto.
    - exists i. split. { apply (rd_ids _ _ _ A4). exact Hi. } destruct (Hh3 i Hi) as [n En]. assert (Eg : dgetE (jt_heap j3) i = Ok n) by (unfold dgetE; rewrite En; auto). rewrite Eg. cbn [rbind].
      assert (Q : mapM (fun q => if mem q (jt_bbn_ids j1) then dgetE (jt_heap j3) q else Err KeyError) (dgets (jt_pinfo j2) i) = Err KeyError); [|rewrite Q; reflexivity].
      apply mapM_KeyError.
      + intros q Hq. destruct (mem q (jt_bbn_ids j1)) eqn:Em; auto. apply mem_In in Em. apply (rd_ids _ _ _ A4) in Em. destruct (Hh3 q Em) as [m Hm]. left. exists m. unfold dgetE. rewrite Hm. auto.
      + exists p. split. { rewrite A6 by auto. unfold parents_seen. destruct (net_par ops i); [congruence|auto]. }
        destruct (mem p (jt_bbn_ids j1)) eqn:Em; auto. apply mem_In in Em. apply (rd_ids _ _ _ A4) in Em. contradiction.
  Qed.
End Old.
