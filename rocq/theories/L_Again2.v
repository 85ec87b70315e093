(** apply called on a network object with a stored clique that the new tree does not have. *)
From Verif Require Import Py M_Graph M_Node M_Pptc Spec SpecNet SpecEv SpecRe SpecAgain L_Base L_PD L_Sums L_Table L_Tree L_Walk L_Forest L_Root L_Good L_Prop L_Init L_Post L_Read
  L_Ids L_Trans L_Elim L_UG L_Tri L_Moral L_Build L_Exact L_Apply L_Net L_Evid L_Hist L_Claims L_Shape L_Shown L_P1 L_Reapply L_Det L_Again.
Open Scope nat_scope.

Section Stale.
  Context (nodes : list (string * jnode)) (ids : list Z) (i0 : Z) (k0 : string).
  Record stale (j : jtree) : Prop := {
    sl_nodes : jt_nodes j = nodes;
    sl_node : forall i, In i ids -> exists n, dget (jt_heap j) i = Some n /\ n_pot n <> None;
    sl_find : forall i, In i ids -> find_cliques j i <> [];
    sl_bad : exists n, dget (jt_heap j) i0 = Some n /\ n_mclq n = Some k0;
    sl_key : ~ In k0 (dkeys (jt_pots j)) }.

  Lemma stale_get j i c j' : stale j -> In i ids -> get_clique j i = Ok (c, j') -> stale j' /\ jt_pots j' = jt_pots j.
  Proof.
    intros S Hi. unfold get_clique. destruct (sl_node _ S i Hi) as [n [E P]]. unfold dgetE. rewrite E. cbn [rbind]. destruct (n_mclq n) as [k|] eqn:Ek.
    { intros Q. inversion Q; subst. auto. }
    destruct (isort cl_leb (find_cliques j i)) as [|d ds]; [discriminate|]. intros Q. inversion Q; subst. split; [|reflexivity]. destruct S as [S1 S2 S3 S4 S5]. constructor; auto.
    - intros x Hx. destruct (S2 x Hx) as [m [Em Pm]]. simpl. rewrite hupd_dget, Em. destruct (Z.eqb i x); simpl; eexists; split; eauto.
    - intros x Hx. replace (find_cliques _ x) with (find_cliques j x); [apply S3; auto|]. unfold find_cliques, jt_parent_ids. simpl. rewrite hupd_dget.
      destruct (Z.eqb i x); [|reflexivity]. destruct (dget (jt_heap j) x) as [m|]; reflexivity.
    - destruct S4 as [m [Em Km]]. simpl. rewrite hupd_dget, Em. destruct (Z.eqb_spec i i0) as [->|]; simpl; [|eexists; split; eauto]. rewrite E in Em. inversion Em; subst. congruence.
  Qed.
  Lemma stale_step j i : stale j -> In i ids -> init_node j i = Err KeyError \/ (i <> i0 /\ exists j', init_node j i = Ok j' /\ stale j').
  Proof.
    intros S Hi. unfold init_node. destruct (get_clique j i) as [[c j1]|e] eqn:G.
    - destruct (stale_get j i c j1 S Hi G) as [S1 Ep]. cbn [rbind]. unfold dgetE. destruct (dget (jt_pots j1) c) as [p|] eqn:E; cbn [rbind]; auto. right.
      destruct (sl_node _ S1 i Hi) as [n [En Pn]]. rewrite En. cbn [rbind]. destruct (n_pot n) as [q|]; [|congruence]. split.
      + intros ->. destruct (sl_bad _ S) as [m [Em Km]]. unfold get_clique, dgetE in G. rewrite Em in G. cbn [rbind] in G. rewrite Km in G. inversion G; subst.
        apply (sl_key _ S1). eapply dget_Some_key; eauto.
      + eexists. split; [reflexivity|]. destruct S1 as [A1 A2 A3 A4 A5]. constructor; auto. simpl. intros H. apply dkeys_dset_In in H. destruct H as [H| ->]; auto. apply A5. eapply dget_Some_key; eauto.
    - exfalso. unfold get_clique in G. destruct (sl_node _ S i Hi) as [n [En Pn]]. unfold dgetE in G. rewrite En in G. cbn [rbind] in G. destruct (n_mclq n); [discriminate|].
      pose proof (sl_find _ S i Hi) as F. destruct (find_cliques j i) as [|x l]; [congruence|]. destruct (isort cl_leb (x :: l)) as [|y m] eqn:Ei; [|discriminate].
      pose proof (Permutation_length (isort_perm cl_leb (x :: l))) as Q. rewrite Ei in Q. discriminate.
  Qed.
  Lemma stale_fold l : forall j, stale j -> incl l ids -> In i0 l -> foldM init_node l j = Err KeyError.
  Proof.
    induction l as [|i l IH]; intros j S Hl Hi; [destruct Hi|]. cbn [foldM]. destruct (stale_step j i S) as [E|[Hne [j' [E S']]]]; [apply Hl; left; auto|rewrite E; reflexivity|].
    rewrite E. cbn [rbind]. apply IH; auto. intros x Hx; apply Hl; right; auto. destruct Hi as [Hi|Hi]; [congruence|auto].
  Qed.
End Stale.

Lemma fold_pot_keys {X} (key : X -> string) (f : jtree -> X -> potential) l : forall j, let j' := fold_left (fun j x => add_potential j (key x) (f j x)) l j in
  jt_heap j' = jt_heap j /\ jt_nodes j' = jt_nodes j /\ forall k, In k (dkeys (jt_pots j')) -> In k (map key l) \/ In k (dkeys (jt_pots j)).
Proof.
  induction l as [|x l IH]; intros j; cbn [fold_left]; [split; [|split]; auto|]. destruct (IH (add_potential j (key x) (f j x))) as [A1 [A2 A3]]. cbv zeta in *. rewrite A1, A2. split; auto. split; auto.
  intros k Hk. apply A3 in Hk. destruct Hk as [Hk|Hk]; [left; right; auto|]. simpl in Hk. apply dkeys_dset_In in Hk. destruct Hk as [Hk| ->]; simpl; auto.
Qed.

Theorem c42_raises ops o o1 bf jf b i n K : well_shaped ops -> ord_ok o -> ord_ok o1 -> apply o1 (build ops) = Ok (bf, jf) ->
  cleared b = cleared (build ops) -> In (i, n) (g_nodes (b_g b)) -> NoDup K -> n_mclq n = Some (cl_id (mk_clique K)) ->
  ~ In (cl_id (mk_clique K)) (map cl_id (jt_cliques jf)) -> apply o b = Err KeyError.
Proof.
  intros HW Ho Ho1 A E Hn HK Ek Hno. destruct (compile_ref ops HW) as [jr Hr].
  pose proof (net_shape ops HW) as HN. pose proof (good_cleared _ _ _ _ (build_good ops) E) as HB.
  assert (F0 : forall i n k, In (i, n) (g_nodes (b_g (build ops))) -> n_mclq n = Some k -> exists c, In c (jt_cliques jr) /\ k = cl_id c /\ incl (par (net_of ops) i ++ [i]) (cl_nodes c)).
  { intros x m k Hm Em. rewrite (build_fresh ops HW x m Hm) in Em. discriminate. }
  destruct (apply_together ops HW jr Hr (net_of ops) (build ops) o1) as [bf' [jf' [F1 F2]]]; auto using build_good.
  rewrite A in F1. inversion F1; subst bf' jf'. clear F1.
  destruct (compile_full _ _ b HN HB o Ho) as [u [Ks [j [F [C1 [C2 [C3 [C4 [C5 [C6 [C7 [C8 [C9 [C10 [C11 [C12 [C13 [C14 C15]]]]]]]]]]]]]]]]]].
  pose proof (compiled_sim ops HW jr Hr (net_of ops) b o j eq_refl eq_refl eq_refl HN HB Ho C1) as S.
  pose proof (sims_trans _ _ _ (sims_sym _ _ (tg_cl _ _ _ _ _ F2)) S) as S'.
  rewrite apply_compile, C1. cbn [rbind]. unfold infer, initialize.
  assert (Hv : In i (vars (net_of ops))). { rewrite <- (bg_ids _ _ _ HB). unfold L_UG.ids, dkeys. apply in_map_iff. exists (i, n); auto. }
  unfold init_pots. set (j1 := fold_left _ (jt_cliques j) j). set (j2 := fold_left _ (jt_sepsets j1) j1).
  destruct (fold_pot_keys cl_id (fun j c => potential_from_nodes (h_nv (jt_heap j) (cl_nodes c))) (jt_cliques j) j) as [P1 [P2 P3]]. cbv zeta in P1, P2, P3. fold j1 in P1, P2, P3.
  destruct (fold_pot_keys ss_id (fun j s => potential_from_nodes (h_nv (jt_heap j) (ss_nodes s))) (jt_sepsets j1) j1) as [Q1 [Q2 Q3]]. cbv zeta in Q1, Q2, Q3. fold j2 in Q1, Q2, Q3.
  assert (Ei : jt_bbn_ids j2 = jt_bbn_ids j). { unfold jt_bbn_ids, jt_cliques. rewrite Q2, P2. reflexivity. }
  rewrite (stale_fold (jt_nodes j) (vars (net_of ops)) i (cl_id (mk_clique K)) (jt_bbn_ids j2) j2); [reflexivity| | |].
  2:{ rewrite Ei. intros x Hx. apply C14; auto. } 2:{ rewrite Ei. apply C14; auto. }
  constructor.
  - congruence.
  - intros x Hx. destruct (hm_get (net_of ops) _ b HB x Hx) as [m [Hm Em]]. rewrite Q1, P1, C7, Em. eexists. split; [reflexivity|]. simpl. discriminate.
  - intros x Hx. destruct (hm_get (net_of ops) _ b HB x Hx) as [m [Hm Em]].
    assert (Ef : find_cliques j2 x = find_cliques j x). { unfold find_cliques, jt_parent_ids, jt_cliques. rewrite Q1, P1, Q2, P2. reflexivity. }
    rewrite Ef. destruct (compile_full _ _ (build ops) HN (build_good ops) ord_id ord_id_ok) as [u' [Ks' [j' [F' [D1 [D2 [D3 [D4 [D5 [D6 [D7 [D8 [D9 [D10 [D11 [D12 [D13 [D14 [D15 D16]]]]]]]]]]]]]]]]]]].
    rewrite Hr in D1. inversion D1; subst j'. assert (HJ : jnet (net_of ops) (net_name ops) jr). { apply D16. intros y q k Hq Eq. destruct (F0 y q k Hq Eq) as [c H]. exists c. exact H. }
    pose proof Hx as Hx'. apply (jn_ids _ _ _ HJ) in Hx'. destruct (hg_fam _ _ _ _ (jn_hg _ _ _ HJ) x Hx') as [c [Hc Hi]]. destruct (sim_find _ _ c S Hc) as [d [E1 [E2 E3]]].
    assert (Hd : In d (find_cliques j x)). { unfold find_cliques. apply filter_In. split; auto. apply subset_spec. unfold jt_parent_ids. rewrite C7, Em. simpl.
      intros y Hy. apply E3, Hi. apply in_app_iff in Hy. apply in_app_iff. destruct Hy as [Hy|Hy]; auto. left. apply (parents_gp (net_of ops) _ b HB). exact Hy. }
    intros Z0. rewrite Z0 in Hd. destruct Hd.
  - destruct (hm_get (net_of ops) _ b HB i Hv) as [m [Hm Em]]. rewrite Q1, P1, C7, Em. eexists. split; [reflexivity|]. simpl.
    assert (m = n). { assert (NoDup (dkeys (g_nodes (b_g b)))). { pose proof (bg_ids _ _ _ HB) as B. unfold L_UG.ids in B. rewrite B. apply (ns_nd _ HN). }
      apply (dget_In_NoDup _ i m) in Hm; auto. apply (dget_In_NoDup _ i n) in Hn; auto. congruence. }
    subst m. exact Ek.
  - intros Hk. apply Q3 in Hk. rewrite C9 in P3. assert (Es : jt_sepsets j1 = jt_sepsets j) by (unfold jt_sepsets; rewrite P2; reflexivity).
    assert (Hc : forall c, In c (jt_cliques j) -> cl_id c <> cl_id (mk_clique K)).
    { intros c Hc Q. destruct (sim_find _ _ c (sims_sym _ _ S') Hc) as [d [D1 [D2 _]]]. apply Hno. apply in_map_iff. exists d. split; auto. congruence. }
    destruct Hk as [Hk|Hk].
    + rewrite Es in Hk. apply in_map_iff in Hk. destruct Hk as [s [Q Hs]]. destruct (compile_edges _ _ b HN HB o Ho j C1) as [_ [G1 [G2 _]]]. destruct (G1 s Hs) as [c [d [-> [Hc1 [Hd1 [_ Hi]]]]]].
      apply (ss_cl_id c d (mk_clique K)); auto. apply G2; auto. apply G2; auto. split; auto.
    + apply P3 in Hk. destruct Hk as [Hk|[]]. apply in_map_iff in Hk. destruct Hk as [c [Q Hc1]]. apply (Hc c Hc1 Q).
Qed.
