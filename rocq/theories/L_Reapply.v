(** reapply: new CPTs on an existing join tree. *)
From Verif Require Import Py M_Graph M_Node M_Pptc Spec SpecNet SpecEv SpecRe L_Base L_PD L_Sums L_Table L_Tree L_Walk L_Forest L_Root L_Good L_Prop L_Init L_Post L_Read
  L_Ids L_Trans L_Elim L_UG L_Tri L_Moral L_Build L_Exact L_Apply L_Net L_Evid L_Hist L_Claims L_Shape L_Shown L_P1.
Open Scope nat_scope.

(** ** what the code never changes about the node objects *)
Definition core (n : bnode) := (n_id n, n_name n, n_values n, n_probs n).
Record keeps (j j' : jtree) : Prop := {
  kp_p : jt_pinfo j' = jt_pinfo j;
  kp_n : jt_nodes j' = jt_nodes j;
  kp_e : jt_edges j' = jt_edges j;
  kp_k : dkeys (jt_heap j') = dkeys (jt_heap j);
  kp_h : forall i, option_map core (dget (jt_heap j') i) = option_map core (dget (jt_heap j) i);
  kp_m : forall i k, option_map n_mclq (dget (jt_heap j) i) = Some (Some k) -> option_map n_mclq (dget (jt_heap j') i) = Some (Some k);
  kp_b : jt_nbrs j' = jt_nbrs j }.
Lemma keeps_refl j : keeps j j. Proof. constructor; auto. Qed.
Lemma keeps_trans j1 j2 j3 : keeps j1 j2 -> keeps j2 j3 -> keeps j1 j3.
Proof. intros [A1 A2 A3 A5 A4 A6 A7] [B1 B2 B3 B5 B4 B6 B7]. constructor; try congruence. auto. Qed.
Lemma keeps_eq j j' : jt_pinfo j' = jt_pinfo j -> jt_nodes j' = jt_nodes j -> jt_edges j' = jt_edges j -> jt_heap j' = jt_heap j -> jt_nbrs j' = jt_nbrs j -> keeps j j'.
Proof. intros E1 E2 E3 E4 E5. constructor; auto. rewrite E4; auto. intros i. rewrite E4. auto. intros i k. rewrite E4. auto. Qed.
Lemma keeps_fold {A} (f : jtree -> A -> jtree) l : (forall j a, keeps j (f j a)) -> forall j, keeps j (fold_left f l j).
Proof. intros H. induction l as [|a l IH]; intros j; simpl; [apply keeps_refl|]. eapply keeps_trans; [apply H|apply IH]. Qed.
Lemma keeps_foldM {A} (f : jtree -> A -> res jtree) l : (forall j a j', f j a = Ok j' -> keeps j j') -> forall j j', foldM f l j = Ok j' -> keeps j j'.
Proof.
  intros H. induction l as [|a l IH]; intros j j' E; simpl in E. { inversion E; subst. apply keeps_refl. }
  destruct (f j a) as [j1|x] eqn:E1; cbn [rbind] in E; [|discriminate]. eapply keeps_trans; [eapply H; eauto|eapply IH; eauto].
Qed.

Lemma keeps_get_clique j i c j' : get_clique j i = Ok (c, j') -> keeps j j'.
Proof.
  unfold get_clique. intros E. destruct (dget (jt_heap j) i) as [n|] eqn:En; [|cbn in E; try discriminate E].
  - unfold dgetE in E. try rewrite En in E. cbn [rbind] in E. destruct (n_mclq n) as [k|] eqn:Ek. { inversion E; subst. apply keeps_refl. }
    destruct (isort cl_leb (find_cliques j i)); [discriminate|]. inversion E; subst. constructor; auto. apply hupd_keys. intros k. simpl. rewrite hupd_dget.
    destruct (Z.eqb i k); auto. destruct (dget (jt_heap j) k); auto.
    intros i2 k Hk. simpl. rewrite hupd_dget. destruct (Z.eqb_spec i i2) as [<-|_]; auto. rewrite En in *. simpl in Hk. congruence.
  - unfold dgetE in E; try rewrite En in E; discriminate.
Qed.
Lemma keeps_init j j' : initialize j = Ok j' -> keeps j j'.
Proof.
  unfold initialize. intros E. set (j0 := init_pots j) in *.
  assert (K0 : keeps j j0).
  { unfold j0, init_pots. eapply keeps_trans; [apply (keeps_fold (fun j c => add_potential j (cl_id c) (potential_from_nodes (h_nv (jt_heap j) (cl_nodes c)))))|apply keeps_fold]; intros; apply keeps_eq; auto. }
  destruct (foldM init_node (jt_bbn_ids j0) j0) as [j1|x] eqn:E1; cbn [rbind] in E; [|discriminate].
  eapply keeps_trans; [exact K0|]. eapply keeps_trans.
  - eapply (keeps_foldM init_node); [|exact E1]. intros a i a' Ea. unfold init_node in Ea. destruct (get_clique a i) as [[c a1]|x] eqn:Eg; cbn [rbind] in Ea; [|discriminate].
    destruct (dgetE (jt_pots a1) c); cbn [rbind] in Ea; [|discriminate]. destruct (dgetE (jt_heap a1) i) as [n|]; cbn [rbind] in Ea; [|discriminate].
    destruct (n_pot n); [|discriminate]. inversion Ea; subst. eapply keeps_trans; [eapply keeps_get_clique; eauto|]. apply keeps_eq; auto.
  - eapply (keeps_foldM init_evid); [|exact E]. intros a i a' Ea. unfold init_evid in Ea. destruct (dgetE (jt_heap a) i) as [n|]; cbn [rbind] in Ea; [|discriminate].
    eapply (keeps_foldM _ _); [|exact Ea]. intros b v b' Eb. cbn beta in Eb. destruct (n_mclq n); [|discriminate]. destruct (dgetE (jt_pots b) s); cbn [rbind] in Eb; [|discriminate].
    unfold get_evidence in Eb. destruct (dget (dgets (jt_evid b) i) v); inversion Eb; subst; apply keeps_eq; auto.
Qed.
Lemma keeps_propagate o j j' : propagate o j = Ok j' -> keeps j j'.
Proof.
  unfold propagate. destruct (isort cl_leb (jt_cliques j)); [discriminate|]. intros E.
  destruct (collect _ _ _ _); cbn [rbind] in E; [|discriminate]. destruct (distribute _ _ _ _); cbn [rbind] in E; [|discriminate]. inversion E; subst. apply keeps_eq; auto.
Qed.
Lemma keeps_infer o j j' : infer o j = Ok j' -> keeps j j'.
Proof.
  unfold infer. intros E. destruct (initialize j) as [j1|] eqn:E1; cbn [rbind] in E; [|discriminate].
  eapply keeps_trans; [eapply keeps_init; eauto|eapply keeps_propagate; eauto].
Qed.
Lemma keeps_store es : forall j j' x, store_evidences j es = (j', x) -> keeps j j'.
Proof.
  induction es as [|e es IH]; intros j j' x E; simpl in E. { inversion E; subst; apply keeps_refl. }
  destruct (dget (jt_evid j) (ev_node e)) as [m|]; [|inversion E; subst; apply keeps_refl].
  destruct (store_values m (ev_values e)) as [m' [y|]]. { inversion E; subst. apply keeps_eq; auto. }
  eapply keeps_trans; [|eapply IH; exact E]. apply keeps_eq; auto.
Qed.
Lemma keeps_notify o j c j' x : notify o j c = (j', x) -> keeps j j'.
Proof.
  unfold notify. destruct (jt_listener j). 2:{ intros E; inversion E; subst; apply keeps_refl. }
  intros E. destruct c.
  - inversion E; subst; apply keeps_refl.
  - destruct (propagate o j) eqn:Ep; inversion E; subst; [eapply keeps_propagate; eauto|apply keeps_refl].
  - destruct (j0 <- initialize j ;; propagate o j0) eqn:Ep; inversion E; subst; [eapply keeps_infer; eauto|apply keeps_refl].
Qed.
Lemma keeps_update o j es j' x : update_evidences o j es = (j', x) -> keeps j j'.
Proof.
  unfold update_evidences. intros E. destruct (mapM validate es) as [es'|]; [|inversion E; subst; apply keeps_refl].
  destruct (get_change_type j es') as [c|]; [|inversion E; subst; apply keeps_refl].
  destruct (store_evidences j es') as [j1 [y|]] eqn:Es. { inversion E; subst. eapply keeps_store; eauto. }
  eapply keeps_trans; [eapply keeps_store; eauto|eapply keeps_notify; eauto].
Qed.
Lemma keeps_call o j c j' x : do_call o j c = (j', x) -> keeps j j'.
Proof.
  destruct c; simpl; intros E.
  - eapply keeps_update; eauto.
  - eapply keeps_update; eauto.
  - unfold unobserve_all in E. destruct (mapM _ _); [eapply keeps_update; eauto|inversion E; subst; apply keeps_refl].
  - unfold set_observation in E. destruct (dget (jt_evid j) (ev_node e)) as [m|]; [|inversion E; subst; apply keeps_refl].
    destruct (convert m) as [pv|]; [|inversion E; subst; apply keeps_refl].
    destruct (map fst (filter (fun p => qeqb 1%Qc (snd p)) pv)) as [|l [|]]; try (eapply keeps_update; eauto; fail).
    destruct (map fst _); [inversion E; subst; apply keeps_refl|]. destruct (eqb l s); eapply keeps_update; eauto.
Qed.

(** ** the tree carries the network *)
Record carries (N : net) (j : jtree) : Prop := {
  cr_par : forall i, In i (vars N) -> dgets (jt_pinfo j) i = par N i;
  cr_node : forall i, In i (vars N) -> exists n, dget (jt_heap j) i = Some n /\ n_probs n = cpt N i }.
Lemma carries_keeps N j j' : keeps j j' -> carries N j -> carries N j'.
Proof.
  intros [K1 _ _ _ K2 _] [C1 C2]. constructor; [rewrite K1; auto|]. intros i Hi. destruct (C2 i Hi) as [n [E1 E2]]. specialize (K2 i). rewrite E1 in K2.
  destruct (dget (jt_heap j') i) as [m|]; [|discriminate]. exists m. split; auto. simpl in K2. unfold core in K2. congruence.
Qed.

Lemma size_dom_ext (N : net) i : forall c, size (dom (replaced N c)) (par (replaced N c) i ++ [i]) = size (dom N) (par N i ++ [i]).
Proof. reflexivity. Qed.
Lemma replaced_shape N cpts : nshape N -> fitting N cpts -> nshape (replaced N cpts).
Proof.
  intros HN [F1 F2]. constructor; simpl; try apply HN; auto.
  - intros i Hi. destruct (dget cpts i) as [c|] eqn:E; [|apply (ns_cpt _ HN); auto]. apply dget_In in E. apply (F2 i c E Hi).
  - intros i q Hi Hq. destruct (dget cpts i) as [c|] eqn:E; [|apply (ns_pos _ HN i); auto]. apply dget_In in E. destruct (F2 i c E Hi) as [_ H]. rewrite Forall_forall in H. auto.
Qed.

Lemma upd_fold ids cpts : NoDup (dkeys cpts) -> forall h k,
  dget (fold_left (fun h p => if mem (fst p) ids then hupd h (fst p) (fun n => set_pot (set_probs n (snd p)) None) else h) cpts h) k =
  if mem k ids then match dget cpts k with Some c => option_map (fun n => set_pot (set_probs n c) None) (dget h k) | None => dget h k end else dget h k.
Proof.
  induction cpts as [|[i c] cpts IH]; intros Hn h k. { simpl. destruct (mem k ids); auto. }
  inversion Hn as [|? ? N1 N2]; subst. cbn [fold_left fst snd]. rewrite IH by auto. cbn [dget].
  change (eqb k i) with (Z.eqb k i). destruct (Z.eqb_spec k i) as [->|Hne].
  - assert (E : dget cpts i = None). { destruct (dget cpts i) eqn:E; auto. exfalso. apply N1. apply dget_In in E. apply in_map_iff. eexists; split; [|exact E]; reflexivity. }
    rewrite E. destruct (mem i ids) eqn:Em; auto. rewrite hupd_dget, Z.eqb_refl. auto.
  - assert (E : dget (if mem i ids then hupd h i (fun n => set_pot (set_probs n c) None) else h) k = dget h k).
    { destruct (mem i ids); auto. rewrite hupd_dget. destruct (Z.eqb_spec i k); congruence. }
    destruct (mem i ids); auto; rewrite E; auto.
Qed.

Lemma re_fold (ps : list (Z * (potential * list Z))) : NoDup (map fst ps) -> forall h k,
  dget (fold_left (fun h p => hupd h (fst p) (fun n => set_mpar (set_pot n (Some (fst (snd p)))) (snd (snd p)))) ps h) k =
  match dget ps k with Some v => option_map (fun n => set_mpar (set_pot n (Some (fst v))) (snd v)) (dget h k) | None => dget h k end.
Proof.
  induction ps as [|[i v] ps IH]; intros Hn h k. { auto. }
  inversion Hn as [|? ? N1 N2]; subst. cbn [fold_left fst snd]. rewrite IH by auto. cbn [dget]. change (eqb k i) with (Z.eqb k i).
  rewrite hupd_dget. destruct (Z.eqb_spec k i) as [->|Hne].
  - assert (E : dget ps i = None). { destruct (dget ps i) eqn:E; auto. exfalso. apply N1. apply dget_In in E. apply in_map_iff. eexists; split; [|exact E]; reflexivity. }
    rewrite E, Z.eqb_refl. auto.
  - destruct (Z.eqb_spec i k); [congruence|]. auto.
Qed.

(** what reinit needs of the tree: names, values, CPTs and parents, but no potentials *)
Record ready (N : net) (nm : Z -> string) (j : jtree) : Prop := {
  rd_JG : JG j;
  rd_cnt : jcount j;
  rd_ids : forall i, In i (jt_bbn_ids j) <-> In i (vars N);
  rd_ne : jt_cliques j <> [];
  rd_par : forall i, In i (vars N) -> dgets (jt_pinfo j) i = par N i;
  rd_node : forall i, In i (vars N) -> exists n, dget (jt_heap j) i = Some n /\ n_id n = i /\ n_name n = nm i /\ n_values n = dom N i /\ n_probs n = cpt N i /\
     (forall k, n_mclq n = Some k -> exists c, In c (jt_cliques j) /\ k = cl_id c /\ incl (par N i ++ [i]) (cl_nodes c));
  rd_fam : forall i, In i (vars N) -> exists c, In c (jt_cliques j) /\ incl (par N i ++ [i]) (cl_nodes c) }.

Lemma jnet_ready N nm j : jnet N nm j -> carries N j -> ready N nm j.
Proof.
  intros HJ HC. pose proof (jn_hg _ _ _ HJ) as HG. constructor; try apply HJ.
  - apply HC.
  - intros i Hi. destruct (cr_node _ _ HC i Hi) as [n [E1 E2]]. pose proof (jn_nm _ _ _ HJ i Hi) as Hm. unfold h_name in Hm. rewrite E1 in Hm.
    assert (Hi' : In i (jt_bbn_ids j)) by (apply (jn_ids _ _ _ HJ); auto). destruct (hg_node _ _ _ _ HG i Hi') as [n' [F1 [F2 [F3 [F4 [F5 F6]]]]]]. rewrite E1 in F1. inversion F1; subst n'.
    exists n. auto 10.
  - intros i Hi. apply (hg_fam _ _ _ _ HG). apply (jn_ids _ _ _ HJ); auto.
Qed.

Lemma update_ready N nm j cpts : ready N nm j -> fitting N cpts -> ready (replaced N cpts) nm (update_bbn_cpts j cpts).
Proof.
  intros R [F1 F2]. unfold update_bbn_cpts.
  set (h := fold_left _ cpts (jt_heap j)).
  assert (Hh : forall i, In i (vars N) -> exists n, dget h i = Some n /\ n_id n = i /\ n_name n = nm i /\ n_values n = dom N i /\ n_probs n = cpt (replaced N cpts) i /\
     (forall k, n_mclq n = Some k -> exists c, In c (jt_cliques j) /\ k = cl_id c /\ incl (par N i ++ [i]) (cl_nodes c))).
  { intros i Hi. destruct (rd_node _ _ _ R i Hi) as [n [E1 [E2 [E3 [E4 [E5 E6]]]]]]. unfold h. rewrite upd_fold by auto.
    assert (Hm : mem i (jt_bbn_ids j) = true). { apply mem_In. apply (rd_ids _ _ _ R); auto. }
    rewrite Hm, E1. simpl. destruct (dget cpts i); simpl; eexists; split; try reflexivity; simpl; auto 10. }
  destruct R as [R1 R2 R3 R4 R5 R6 R7]. constructor; auto. destruct R1; constructor; auto.
Qed.

Lemma listen_ready N nm j : ready N nm j -> ready N nm (set_jevid (set_jlistener j false) []).
Proof. intros [R1 R2 R3 R4 R5 R6 R7]. constructor; auto. destruct R1; constructor; auto. Qed.

Lemma mapM_two {A B C D} (f : A -> res B) (g : B -> res C) l r (k : list C -> res D) : mapM (fun a => b <- f a ;; g b) l = Ok r -> (bs <- mapM f l ;; cs <- mapM g bs ;; k cs) = k r.
Proof.
  intros H. assert (Q : exists bs, mapM f l = Ok bs /\ mapM g bs = Ok r).
  { revert r H. induction l as [|a l IH]; intros r H; simpl in *. { injection H as <-. exists []; auto. }
    destruct (f a) as [b|] eqn:Ef; cbn [rbind] in *; [|discriminate]. destruct (g b) as [c|] eqn:Eg; cbn [rbind] in *; [|discriminate].
    destruct (mapM (fun a => b <- f a ;; g b) l) as [cs|]; cbn [rbind] in *; [|discriminate]. injection H as <-. destruct (IH cs eq_refl) as [bs [B1 B2]].
    exists (b :: bs). rewrite B1. cbn [rbind]. split; auto. simpl. rewrite Eg, B2. auto. }
  destruct Q as [bs [-> Q]]. cbn [rbind]. rewrite Q. auto.
Qed.

Section Reinit.
  Context (N : net) (nm : Z -> string) (HN : nshape N).

  Lemma par_nodes j l : ready N nm j -> incl l (vars N) ->
    exists ns, mapM (fun p => if mem p (jt_bbn_ids j) then dgetE (jt_heap j) p else Err KeyError) l = Ok ns /\ map nv ns = map (fun i => (i, dom N i)) l /\ map n_id ns = l.
  Proof using.
    intros R. induction l as [|i l IH]; intros Hl. { exists []; auto. }
    destruct IH as [ns [A1 [A2 A3]]]. { intros y Hy; apply Hl; right; auto. }
    assert (Hi : In i (vars N)) by (apply Hl; left; auto). destruct (rd_node _ _ _ R i Hi) as [n [E1 [E2 [E3 [E4 _]]]]].
    assert (Hm : mem i (jt_bbn_ids j) = true). { apply mem_In. apply (rd_ids _ _ _ R); auto. }
    exists (n :: ns). cbn [mapM]. rewrite Hm. unfold dgetE at 1. rewrite E1. cbn [rbind]. rewrite A1. cbn [rbind]. split; auto. simpl. rewrite A2, A3. unfold nv. rewrite E2, E4. auto.
  Qed.

  Lemma reinit_net j : ready N nm j -> exists j', pot_reinit j = Ok j' /\ jnet N nm j' /\ carries N j' /\ jt_evid j' = jt_evid j /\ jt_nodes j' = jt_nodes j /\ jt_listener j' = jt_listener j /\ jt_edges j' = jt_edges j.
  Proof using HN.
    intros R. unfold pot_reinit, bbn_node_and_parents.
    set (fam := fun i => (i, (tab (dom N) (par N i ++ [i]) (cpt_entry N i), par N i)) : Z * (potential * list Z)).
    assert (E : mapM (fun i => n <- dgetE (jt_heap j) i ;; pa <- mapM (fun p => if mem p (jt_bbn_ids j) then dgetE (jt_heap j) p else Err KeyError) (dgets (jt_pinfo j) i) ;;
       q <- get_potential n pa ;; Ok (i, (q, map n_id pa))) (jt_bbn_ids j) = Ok (map fam (jt_bbn_ids j))).
    { apply mapM_all. intros i Hi. apply (rd_ids _ _ _ R) in Hi. destruct (rd_node _ _ _ R i Hi) as [n [E1 [E2 [E3 [E4 [E5 _]]]]]].
      unfold dgetE at 1. rewrite E1. cbn [rbind]. rewrite (rd_par _ _ _ R) by auto. destruct (par_nodes j (par N i) R) as [ns [A1 [A2 A3]]].
      { intros y Hy. apply (ns_ends _ HN y i Hy). }
      rewrite A1. cbn [rbind].
      assert (Hq : get_potential n ns = Ok (tab (dom N) (par N i ++ [i]) (cpt_entry N i))).
      { unfold get_potential. rewrite map_app, A2. simpl. unfold nv. rewrite E2, E4, E5. change [(i, dom N i)] with (map (fun i => (i, dom N i)) [i]).
        rewrite <- map_app, potential_from_nodes_tab by apply (ns_par _ HN). rewrite fill_probs_tab; [reflexivity|apply (ns_par _ HN)| |apply (ns_cpt _ HN); auto].
        intros v Hv. apply in_app_or in Hv. apply (ns_dom _ HN). destruct Hv as [Hv|[<-|[]]]; auto. apply (ns_ends _ HN v i Hv). }
      rewrite Hq. cbn [rbind]. rewrite A3. reflexivity. }
    rewrite (mapM_two (fun i => n <- dgetE (jt_heap j) i ;; pa <- mapM (fun p => if mem p (jt_bbn_ids j) then dgetE (jt_heap j) p else Err KeyError) (dgets (jt_pinfo j) i) ;; Ok (i, (n, pa)))
      (fun x => let (n, pa) := (snd x : bnode * list bnode) in q <- get_potential n pa ;; Ok (fst x, (q, map n_id pa))) _ (map fam (jt_bbn_ids j))).
    2:{ rewrite <- E. apply mapM_ext. intros i Hi. destruct (dgetE (jt_heap j) i); cbn [rbind]; auto. destruct (mapM _ (dgets (jt_pinfo j) i)); cbn [rbind]; auto. }
    eexists. split; [reflexivity|].
    set (h := fold_left _ (map fam (jt_bbn_ids j)) (jt_heap j)).
    assert (Hk : map fst (map fam (jt_bbn_ids j)) = jt_bbn_ids j) by (rewrite map_map; apply map_id).
    assert (Hh : forall i, In i (vars N) -> exists n, dget (jt_heap j) i = Some n /\ dget h i = Some (set_mpar (set_pot n (Some (tab (dom N) (par N i ++ [i]) (cpt_entry N i)))) (par N i))).
    { intros i Hi. destruct (rd_node _ _ _ R i Hi) as [n [E1 _]]. exists n. split; auto. unfold h. rewrite re_fold.
      - assert (Ed : dget (map fam (jt_bbn_ids j)) i = Some (snd (fam i))).
        { apply dget_In_NoDup. unfold dkeys. rewrite Hk. apply bbn_ids_NoDup. apply in_map_iff. exists i. split; [reflexivity|]. apply (rd_ids _ _ _ R); auto. }
        rewrite Ed, E1. reflexivity.
      - rewrite Hk. apply bbn_ids_NoDup. }
    split; [|split; [|auto]].
    - constructor.
      + destruct (rd_JG _ _ _ R). constructor; auto.
      + constructor; simpl; try (intros i Hi; apply (rd_ids _ _ _ R) in Hi).
        * destruct (Hh i Hi) as [n [E1 E2]]. destruct (rd_node _ _ _ R i Hi) as [n' [F1 [F2 [F3 [F4 [F5 F6]]]]]]. rewrite E1 in F1. inversion F1; subst n'. eexists. split; [exact E2|]. simpl. split; auto. split; auto. split; auto. split; auto.
          intros p. unfold jt_parent_ids. simpl. rewrite E2. simpl. tauto.
        * apply (ns_dom _ HN); auto.
        * apply (ns_par _ HN).
        * apply cpt_entry_dep.
        * intros i a Hi Ha. unfold cpt_entry. apply (rd_ids _ _ _ R) in Hi. apply (ns_pos _ HN i); auto. apply nth_In. eapply Nat.lt_le_trans; [|apply (ns_cpt _ HN); auto]. apply row_index_lt. auto.
        * apply (rd_fam _ _ _ R); auto.
      + apply (rd_cnt _ _ _ R).
      + apply (rd_ids _ _ _ R).
      + intros i Hi. unfold h_name. simpl. destruct (Hh i Hi) as [n [E1 E2]]. rewrite E2. simpl. destruct (rd_node _ _ _ R i Hi) as [n' [F1 [F2 [F3 _]]]]. congruence.
      + apply (rd_ne _ _ _ R).
    - constructor; [apply (rd_par _ _ _ R)|]. intros i Hi. destruct (Hh i Hi) as [n [E1 E2]]. eexists. split; [exact E2|]. simpl. destruct (rd_node _ _ _ R i Hi) as [n' [F1 [F2 [F3 [F4 [F5 _]]]]]]. congruence.
  Qed.

  Context (Hnm : NoDup (map nm (vars N))).

  Lemma serde_live o j : ord_ok o -> ready N nm j -> exists j', apply_from_serde o j = Ok j' /\ live N nm no_evidence j' /\ carries N j' /\ jt_nodes j' = jt_nodes j /\ jt_edges j' = jt_edges j.
  Proof using HN Hnm.
    intros Ho R. unfold apply_from_serde. destruct (reinit_net _ (listen_ready _ _ _ R)) as [j1 [E1 [J1 [C1 [V1 [D1 [_ D2]]]]]]]. rewrite E1. cbn [rbind].
    destruct (infer_live N nm (ns_nd _ HN) Hnm o j1 no_evidence Ho J1) as [j2 [E2 [L2 S2]]].
    { intros i Hi. left. rewrite V1. auto. } { intros i v _ _. unfold no_evidence. discriminate. }
    unfold infer in E2. destruct (initialize j1) as [j3|] eqn:E3; cbn [rbind] in E2; [|discriminate]. cbn [rbind]. rewrite E2. cbn [rbind].
    eexists. split; [reflexivity|]. split; auto. split.
    - eapply carries_keeps; [|exact C1]. eapply keeps_trans; [|apply keeps_eq with (j := j2); reflexivity]. eapply (keeps_infer o). unfold infer. rewrite E3. exact E2.
    - assert (K : keeps j1 j2). { eapply (keeps_infer o). unfold infer. rewrite E3. exact E2. }
      simpl. rewrite (kp_n _ _ K), (kp_e _ _ K), D1, D2. split; reflexivity.
  Qed.
End Reinit.

Lemma reapply_live N nm o j cpts : nshape N -> NoDup (map nm (vars N)) -> ord_ok o -> jnet N nm j -> carries N j -> fitting N cpts ->
  exists j', reapply o j cpts = Ok j' /\ live (replaced N cpts) nm no_evidence j' /\ carries (replaced N cpts) j' /\ jt_nodes j' = jt_nodes j /\ jt_edges j' = jt_edges j.
Proof.
  intros HN Hnm Ho HJ HC HF. unfold reapply.
  destruct (serde_live (replaced N cpts) nm (replaced_shape _ _ HN HF) Hnm o (update_bbn_cpts j cpts) Ho) as [j' [A1 [A2 [A3 A4]]]].
  - apply update_ready; auto. apply jnet_ready; auto.
  - exists j'. auto.
Qed.

(** apply leaves a tree that carries the network *)
Lemma pinfo_get b : forall ns, NoDup (map n_id ns) -> forall i, In i (map n_id ns) -> dgets (pinfo_of b ns) i = dgets (b_parents b) i.
Proof.
  induction ns as [|n ns IH]; intros Hn i Hi; [destruct Hi|]. inversion Hn as [|? ? N1 N2]; subst.
  assert (Hout : forall k, ~ In k (map n_id ns) -> dget (pinfo_of b ns) k = None).
  { clear. intros k Hk. destruct (dget (pinfo_of b ns) k) as [l|] eqn:E; auto. exfalso. apply Hk. apply dget_In in E. unfold pinfo_of in E. apply in_flat_map in E. destruct E as [m [Hm E]].
    destruct (dget (b_parents b) (n_id m)); [|destruct E]. destruct E as [E|[]]. inversion E; subst. apply in_map; auto. }
  unfold pinfo_of. cbn [flat_map]. fold (pinfo_of b ns). unfold dgets in *. destruct (Z.eq_dec i (n_id n)) as [->|Hne].
  - destruct (dget (b_parents b) (n_id n)) as [l|] eqn:E; simpl.
    + rewrite Z.eqb_refl. auto.
    + rewrite Hout; auto.
  - destruct Hi as [Hi|Hi]; [congruence|]. specialize (IH N2 i Hi). destruct (dget (b_parents b) (n_id n)) as [l|] eqn:E; simpl; auto.
    destruct (Z.eqb_spec i (n_id n)); [congruence|]. auto.
Qed.

Lemma apply_carries ops o b j : well_shaped ops -> ord_ok o -> apply o (build ops) = Ok (b, j) -> carries (net_of ops) j.
Proof.
  intros HW Ho E. set (N := net_of ops). pose proof (net_shape ops HW) as HN. pose proof (build_good ops) as HB. fold N in HN, HB.
  destruct (compile_full N (net_name ops) (build ops) HN HB o Ho) as [u [Ks [j0 [F [C1 [C2 [C3 [C4 [C5 [C6 [C7 [C8 [C9 [C10 [C11 _]]]]]]]]]]]]]]].
  rewrite apply_compile, C1 in E. cbn [rbind] in E. destruct (infer o j0) as [j1|] eqn:E1; cbn [rbind] in E; [|discriminate]. inversion E; subst. clear E.
  eapply carries_keeps; [eapply keeps_trans; [eapply keeps_infer; exact E1|apply keeps_eq; reflexivity]|].
  constructor.
  - intros i Hi. rewrite C11. rewrite pinfo_get. apply (bg_par _ _ _ HB).
    + assert (Ek : map n_id (get_nodes (gp N (build ops))) = vars N).
      { rewrite <- (ids_gp N (net_name ops) (build ops) HB). unfold get_nodes, dvals, ids, dkeys. rewrite map_map. apply map_ext_in. intros [k n] Hk. simpl. apply (kid_gp N (net_name ops) (build ops) HB k n Hk). }
      rewrite Ek. apply (ns_nd _ HN).
    + rewrite <- (ids_gp N (net_name ops) (build ops) HB) in Hi. unfold get_nodes, dvals. rewrite map_map. unfold ids, dkeys in Hi. apply in_map_iff in Hi. destruct Hi as [[k n] [<- Hk]].
      apply in_map_iff. exists (k, n). split; auto. simpl. apply (kid_gp N (net_name ops) (build ops) HB k n Hk).
  - intros i Hi. rewrite C7. destruct (hm_get N (net_name ops) (build ops) HB i Hi) as [n [Hn En]]. eexists. split; [exact En|]. simpl. apply (bg_node _ _ _ HB i n Hn).
Qed.

(** ** any sequence of evidence and reapply calls *)
Record situated (ops : list bop) (s : situation) (j : jtree) : Prop := {
  si_shape : nshape (fst s);
  si_vars : vars (fst s) = vars (net_of ops);
  si_par : par (fst s) = par (net_of ops);
  si_shows : shows (fst s) (net_name ops) (fst (snd s)) (snd (snd s)) j;
  si_carries : carries (fst s) j }.

Lemma situated_after ops s j d : well_shaped ops -> situated ops s j -> deed_ok (fst s) d ->
  exists j', do_deed j d = Ok j' /\ situated ops (after s d) j' /\ jt_nodes j' = jt_nodes j /\ jt_edges j' = jt_edges j.
Proof.
  intros HW [S1 S2 S3 S4 S5] Hd. destruct s as [N [L S]]. simpl in *. pose proof (ws_names _ HW) as Hnm. rewrite <- S2 in Hnm.
  destruct d as [o c|o cpts]; simpl in *; destruct Hd as [Ho Hd].
  - destruct (call_shows N (net_name ops) (ns_nd _ S1) Hnm (ns_dom _ S1) o L S j c Ho S4 Hd) as [j' [J1 [J2 J3]]]. rewrite J1. pose proof (keeps_call _ _ _ _ _ J1) as K. exists j'. split; auto. split; [|split; [apply (kp_n _ _ K)|apply (kp_e _ _ K)]].
    constructor; simpl; auto. eapply carries_keeps; [eapply keeps_call; exact J1|auto].
  - destruct (reapply_live N (net_name ops) o j cpts S1 Hnm Ho (st_net _ _ _ _ (sw_st _ _ _ _ _ S4)) S5 Hd) as [j' [J1 [J2 [J3 J4]]]]. exists j'. split; auto. split; auto.
    constructor; simpl; auto. { apply replaced_shape; auto. } apply live_shows; auto. apply unit_none.
Qed.

Lemma situated_all ops ds : well_shaped ops -> forall s j, situated ops s j -> deeds_ok s ds ->
  exists j', foldM do_deed ds j = Ok j' /\ situated ops (fold_left after ds s) j' /\ jt_nodes j' = jt_nodes j /\ jt_edges j' = jt_edges j.
Proof.
  intros HW. induction ds as [|d ds IH]; intros s j HS Hd; simpl in *. { exists j; auto. }
  destruct Hd as [D1 D2]. destruct (situated_after ops s j d HW HS D1) as [j1 [J1 [J2 [J3 J4]]]]. rewrite J1. cbn [rbind].
  destruct (IH _ _ J2 D2) as [j2 [K1 [K2 [K3 K4]]]]. exists j2. split; auto. split; auto. split; congruence.
Qed.

Lemma apply_situated ops o : well_shaped ops -> ord_ok o -> exists b j, apply o (build ops) = Ok (b, j) /\ situated ops (start ops) j /\ (connected ops -> jconn j).
Proof.
  intros HW Ho. destruct (apply_build ops o HW Ho) as [b [j [A1 [A2 A3]]]]. exists b, j. split; auto. split; auto.
  constructor; simpl; auto. apply net_shape; auto. apply live_shows; auto. apply unit_none. eapply apply_carries; eauto.
Qed.

Lemma situated_exact ops s j : well_shaped ops -> situated ops s j -> jconn j -> exists t, get_posteriors j = Ok t /\ exact_table (fst s) (net_name ops) (snd (snd s)) t.
Proof.
  intros HW [S1 S2 S3 S4 S5] Hc. destruct s as [N [L S]]. simpl in *. pose proof (ws_names _ HW) as Hnm. rewrite <- S2 in Hnm.
  destruct (sw_live _ _ _ _ _ S4) as [ev Hl]. destruct (live_exact_table N (net_name ops) _ _ (ns_nd _ S1) Hnm Hl) as [t [B1 B2]]. { apply jconn_ext with j; auto. }
  exists t. split; auto.
Qed.

Theorem c18_any ops o ds : well_shaped ops -> connected ops -> ord_ok o -> deeds_ok (start ops) ds ->
  exists j t, adventure o ops ds = Ok j /\ get_posteriors j = Ok t /\
    exact_table (fst (fold_left after ds (start ops))) (net_name ops) (snd (snd (fold_left after ds (start ops)))) t.
Proof.
  intros HW Hc Ho Hd. destruct (apply_situated ops o HW Ho) as [b [j [A1 [A2 A3]]]]. destruct (situated_all ops ds HW _ _ A2 Hd) as [j' [B1 [B2 [B3 _]]]].
  destruct (situated_exact ops _ j' HW B2) as [t [C1 C2]]. { apply jconn_ext with j; auto. }
  exists j', t. split; auto. unfold adventure. rewrite A1. cbn [rbind snd]. exact B1.
Qed.

Lemma calls_deeds h : forall j, foldM do_deed (map (fun p => Evidence (fst p) (snd p)) h) j = match do_calls j h with (j, None) => Ok j | (_, Some x) => Err x end.
Proof.
  induction h as [|[o c] h IH]; intros j; simpl; auto. destruct (do_call o j c) as [j1 [x|]]; cbn [rbind]; auto.
Qed.
Lemma foldM_app {A B} (f : B -> A -> res B) l l' b : foldM f (l ++ l') b = (b' <- foldM f l b ;; foldM f l' b').
Proof. revert b. induction l as [|a l IH]; intros b; simpl; auto. destruct (f b a); cbn [rbind]; auto. Qed.
Lemma after_calls h N : forall p, fold_left after (map (fun p => Evidence (fst p) (snd p)) h) (N, p) = (N, fold_left (step N) (map snd h) p).
Proof. induction h as [|[o c] h IH]; intros p; simpl; auto. Qed.
Lemma deeds_calls h N : Forall (fun p => ord_ok (fst p)) h -> Forall (valid_call N) (map snd h) -> forall p, deeds_ok (N, p) (map (fun p => Evidence (fst p) (snd p)) h).
Proof. induction 1 as [|[o c] h H1 H2 IH]; intros V p; simpl; auto. inversion V; subst. auto. Qed.
Lemma deeds_app ds ds' : forall s, deeds_ok s ds -> deeds_ok (fold_left after ds s) ds' -> deeds_ok s (ds ++ ds').
Proof. induction ds as [|d ds IH]; intros s; simpl; auto. intros [H1 H2] H3. split; auto. Qed.

Theorem c18 ops o h o' cpts h' : well_shaped ops -> connected ops -> ord_ok o -> ord_ok o' -> valid_history (net_of ops) h -> fitting (net_of ops) cpts ->
  let N' := replaced (net_of ops) cpts in valid_history N' h' ->
  exists j j' j2 t' t2, session o ops h = Ok j /\ reapply o' j cpts = Ok j' /\ get_posteriors j' = Ok t' /\ exact_table N' (net_name ops) no_evidence t' /\
    do_calls j' h' = (j2, None) /\ get_posteriors j2 = Ok t2 /\ exact_table N' (net_name ops) (shown N' (calls h')) t2.
Proof.
  intros HW Hc Ho Ho' [H1 H2] HF N' [K1 K2].
  destruct (apply_situated ops o HW Ho) as [b [j0 [A1 [A2 A3]]]]. specialize (A3 Hc).
  destruct (situated_all ops _ HW _ _ A2 (deeds_calls h _ H1 H2 _)) as [j [B1 [B2 [B3 _]]]]. unfold start in B2. rewrite after_calls in B2. rewrite calls_deeds in B1.
  destruct (situated_after ops _ j (Reapply o' cpts) HW B2) as [j' [C1 [C2 [C3 _]]]]. { simpl. auto. }
  cbn [after fst] in C2.
  destruct (situated_all ops _ HW _ _ C2 (deeds_calls h' _ K1 K2 _)) as [j2 [D1 [D2 [D3 _]]]]. rewrite after_calls in D2. rewrite calls_deeds in D1.
  assert (Q : jconn j) by (apply jconn_ext with j0; auto). assert (Q' : jconn j') by (apply jconn_ext with j; auto). assert (Q2 : jconn j2) by (apply jconn_ext with j'; auto).
  destruct (situated_exact ops _ j' HW C2 Q') as [t' [E1 E2]]. destruct (situated_exact ops _ j2 HW D2 Q2) as [t2 [F1 F2]].
  exists j, j', j2, t', t2. split. { unfold session. rewrite A1. cbn [rbind snd]. exact B1. }
  split; auto. split; auto. split; auto. split. { destruct (do_calls j' h') as [z [x|]]; [discriminate|]. inversion D1; auto. } split; auto.
Qed.
