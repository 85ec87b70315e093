(** The join tree does not depend on the order in which sets are iterated. *)
From Verif Require Import Py M_Graph M_Node M_Pptc Spec SpecNet SpecEv SpecDet L_Base L_PD L_Sums L_Table L_Tree L_Walk L_Forest L_Root L_Good L_Prop L_Init L_Post L_Read
  L_Ids L_Trans L_Elim L_UG L_Tri L_Moral L_Build L_Exact L_Apply L_Net L_Evid L_Hist L_Claims L_Shape L_Shown L_P1 L_Reapply L_Det L_Again L_Part L_Part2.
Open Scope nat_scope.

Lemma filter_perm {A} (f : A -> bool) l m : Permutation l m -> Permutation (filter f l) (filter f m).
Proof.
  induction 1 as [|x l m H IH|x y l|l m k H1 IH1 H2 IH2]; simpl; auto.
  - destruct (f x); auto.
  - destruct (f x), (f y); auto. apply perm_swap.
  - eapply Permutation_trans; eauto.
Qed.
Lemma mem_perm (x : Z) l m : Permutation l m -> mem x l = mem x m.
Proof.
  intros P. destruct (mem x m) eqn:E.
  - apply mem_In. apply mem_In in E. apply (Permutation_in _ (Permutation_sym P) E).
  - apply mem_false. apply mem_false in E. intros H. apply E. apply (Permutation_in _ P H).
Qed.

Lemma inter_perm a a' b b' : Permutation a a' -> Permutation b b' -> Permutation (filter (fun x => mem x b) a) (filter (fun x : Z => mem x b') a').
Proof. intros P Q. rewrite (filter_ext _ (fun x => mem x b')) by (intros; apply mem_perm; auto). apply filter_perm; auto. Qed.

Definition meets (c d : clique) : bool := match intersects c d with (b, _, _, _) => b end.
Lemma meets_sim c c' d d' : clsim c c' -> clsim d d' -> meets c d = meets c' d'.
Proof.
  intros [_ P] [_ Q]. unfold meets, intersects. pose proof (inter_perm _ _ _ _ P Q) as R.
  destruct (filter _ (cl_nodes c)) as [|x l], (filter _ (cl_nodes c')) as [|y m]; auto.
  - apply Permutation_nil in R. discriminate.
  - apply Permutation_sym, Permutation_nil in R. discriminate.
Qed.
Lemma mk_sepset_sim c c' d d' : clsim c c' -> clsim d d' -> meets c d = true -> same_sepset (mk_sepset c d) (mk_sepset c' d').
Proof.
  intros H1 H2 Hm. pose proof (meets_sim _ _ _ _ H1 H2) as Hm'. rewrite Hm in Hm'. destruct H1 as [E1 P], H2 as [E2 Q].
  pose proof (inter_perm _ _ _ _ P Q) as R. unfold mk_sepset, meets, intersects in *.
  destruct (filter _ (cl_nodes c)) as [|x l] eqn:F1; [discriminate|]. destruct (filter _ (cl_nodes c')) as [|y m] eqn:F2; [discriminate|].
  split; [|split; [|split; split; auto]]; cbn [ss_id ss_nodes].
  - rewrite (isort_Z_unique (cl_nodes c) (cl_nodes c')), (isort_Z_unique (cl_nodes d) (cl_nodes d')), (isort_Z_unique (x :: l) (y :: m)) by auto. reflexivity.
  - rewrite (filter_ext _ (fun z => mem z (isort Z.leb (y :: m)))); [apply filter_perm; auto|]. intros z. apply mem_perm.
    eapply Permutation_trans; [apply isort_perm|]. eapply Permutation_trans; [exact R|]. apply Permutation_sym, isort_perm.
Qed.

Lemma pairs_rel {A B} (R : A -> B -> Prop) l m : Forall2 R l m -> Forall2 (fun p q => R (fst p) (fst q) /\ R (snd p) (snd q)) (pairs l) (pairs m).
Proof.
  induction 1 as [|a b l m H F IH]; [constructor|]. cbn [pairs]. apply Forall2_app; auto. clear IH. induction F; simpl; constructor; auto.
Qed.
Lemma weight_sim wt wt' c d : (forall i, wt i = wt' i) -> clsim c d -> cl_weight wt c = cl_weight wt' d.
Proof. intros W [_ P]. unfold cl_weight. rewrite (map_ext _ _ W). apply prod_perm. apply Permutation_map; auto. Qed.
Lemma sepsets_sim wt wt' cs ds : (forall i, wt i = wt' i) -> Forall2 clsim cs ds -> Forall2 same_sepset (get_sep_sets wt cs) (get_sep_sets wt' ds).
Proof.
  intros W F. unfold get_sep_sets. apply isort_rel.
  - intros a a' b b' [A1 [A2 [A3 A4]]] [B1 [B2 [B3 B4]]]. unfold ss_leb, ss_mass, ss_cost.
    rewrite A1, B1, (Permutation_length A2), (Permutation_length B2), (weight_sim wt wt' _ _ W A3), (weight_sim wt wt' _ _ W A4), (weight_sim wt wt' _ _ W B3), (weight_sim wt wt' _ _ W B4). reflexivity.
  - pose proof (pairs_rel _ _ _ F) as G. clear F. induction G as [|[c d] [c' d'] l m [H1 H2] G IH]; [constructor|]. cbn [flat_map]. cbn [fst snd] in *.
    apply Forall2_app; auto. pose proof (meets_sim _ _ _ _ H1 H2) as M. pose proof (mk_sepset_sim _ _ _ _ H1 H2) as S. unfold meets in *.
    destruct (intersects c d) as [[[[|] ?] ?] ?]; destruct (intersects c' d') as [[[[|] ?] ?] ?]; try discriminate; constructor; auto.
Qed.

(** ** building the tree *)
Section Rel2.
  Context {V W : Type} (R : V -> W -> Prop).
  Let D (p : string * V) (q : string * W) := fst p = fst q /\ R (snd p) (snd q).
  Lemma keys_rel l m : Forall2 D l m -> dkeys l = dkeys m.
  Proof. induction 1 as [|p q l m [E _] H IH]; unfold dkeys in *; simpl; congruence. Qed.
  Lemma dmem_rel l m k : Forall2 D l m -> dmem l k = dmem m k.
  Proof using. intros F. destruct (dmem m k) eqn:E.
    - apply dmem_In. apply dmem_In in E. rewrite (keys_rel _ _ F). auto.
    - destruct (dmem l k) eqn:E'; auto. apply dmem_In in E'. rewrite (keys_rel _ _ F) in E'. apply dmem_In in E'. congruence. Qed.
  Lemma dset_rel l m k v w : Forall2 D l m -> R v w -> Forall2 D (dset l k v) (dset m k w).
  Proof using.
    intros F Hv. induction F as [|[k1 v1] [k2 w1] l m [E1 E2] F IH]. { repeat constructor; auto. }
    simpl in E1, E2. subst k2. cbn [dset]. destruct (eqb k k1); constructor; auto; split; auto.
  Qed.
End Rel2.

Lemma add_node_sim j k a b : same_tree j k -> same_jnode a b -> same_tree (jt_add_node j a) (jt_add_node k b).
Proof.
  intros [F1 [F2 F3]] H. assert (E : j_id a = j_id b) by (destruct a, b; simpl in *; try tauto; apply H).
  unfold jt_add_node. rewrite E, (dmem_rel _ _ _ _ F1). destruct (dmem (jt_nodes k) (j_id b)); split; auto. cbn [jt_nodes set_jnodes]. apply dset_rel; auto.
Qed.

Section Two.
  Context (o1 o2 : Ord) (H1 : ord_ok o1) (H2 : ord_ok o2).

  Lemma shouldadd_sim j k s t a b : same_tree j k -> same_sepset s t -> jt_shouldadd o1 j s = Ok a -> jt_shouldadd o2 k t = Ok b -> a = b.
  Proof using H1 H2.
    intros [_ [_ F3]] [_ [_ [[E1 _] [E2 _]]]]. unfold jt_shouldadd, jt_neighbors. rewrite F3, E1, E2. destruct (eqb _ _); [congruence|].
    destruct (pd_exists (fun i => sord o1 i _) _ _ _) as [x|] eqn:X; cbn [rbind]; [|discriminate]. destruct (pd_exists (fun i => sord o2 i _) _ _ _) as [y|] eqn:Y; cbn [rbind]; [|discriminate].
    intros Q1 Q2. injection Q1 as <-. injection Q2 as <-. f_equal. apply pd_exists_spec in X. apply pd_exists_spec in Y.
    assert (P : forall u v, path (fun x y => In y (sord o1 x (dgets (jt_nbrs k) x))) u v <-> path (fun x y => In y (sord o2 x (dgets (jt_nbrs k) x))) u v).
    { intros u v. split; intros Hp; induction Hp; try constructor; econstructor; eauto.
      - apply sord_In; auto. apply sord_In in H; auto.
      - apply sord_In; auto. apply sord_In in H; auto. }
    destruct x, y; auto; exfalso.
    - assert (Z : false = true) by (apply Y, P, X; auto). discriminate.
    - assert (Z : false = true) by (apply X, P, Y; auto). discriminate.
  Qed.
  Lemma add_edge_sim j k s t j' k' : same_tree j k -> same_sepset s t -> jt_add_edge o1 j s = Ok j' -> jt_add_edge o2 k t = Ok k' -> same_tree j' k'.
  Proof using H1 H2.
    intros F S. unfold jt_add_edge. destruct (jt_shouldadd o1 j s) as [a|] eqn:A; cbn [rbind]; [|discriminate]. destruct (jt_shouldadd o2 k t) as [b|] eqn:B; cbn [rbind]; [|discriminate].
    rewrite (shouldadd_sim j k s t a b F S A B). destruct b; [|intros Q1 Q2; injection Q1 as <-; injection Q2 as <-; auto].
    intros Q1 Q2. injection Q1 as <-. injection Q2 as <-. destruct (S) as [S1 [S2 [C3 C4]]]. destruct (C3) as [S3 _]. destruct (C4) as [S4 _].
    assert (G : same_tree (jt_add_node (jt_add_node (jt_add_node j (JS s)) (JC (ss_left s))) (JC (ss_right s))) (jt_add_node (jt_add_node (jt_add_node k (JS t)) (JC (ss_left t))) (JC (ss_right t)))).
    { apply add_node_sim; [apply add_node_sim; [apply add_node_sim|]|]; auto. }
    destruct G as [G1 [G2 G3]]. split; [exact G1|]. cbn [jt_edges jt_nbrs]. split.
    - unfold jt_edge_key. rewrite S3, S4. apply dset_rel; auto.
    - rewrite G3, S1, S3, S4. reflexivity.
  Qed.
  Lemma transform_sim h h' cs ds j k : (forall i, h_weight h i = h_weight h' i) -> Forall2 clsim cs ds -> transform o1 h cs = Ok j -> transform o2 h' ds = Ok k -> same_tree j k.
  Proof using H1 H2.
    intros W F. unfold transform. pose proof (sepsets_sim _ _ _ _ W F) as S.
    assert (B : same_tree (fold_left (fun j c => jt_add_node j (JC c)) cs (jt_empty h)) (fold_left (fun j c => jt_add_node j (JC c)) ds (jt_empty h'))).
    { assert (B : same_tree (jt_empty h) (jt_empty h')) by (split; [constructor|split; [constructor|reflexivity]]). revert B. generalize (jt_empty h) as a, (jt_empty h') as b.
      clear S. induction F as [|c d l m C F IH]; intros a b G; simpl; auto. apply IH. apply add_node_sim; auto. }
    revert B. generalize (fold_left (fun j c => jt_add_node j (JC c)) cs (jt_empty h)) as a, (fold_left (fun j c => jt_add_node j (JC c)) ds (jt_empty h')) as b.
    induction S as [|s t l m C S IH]; intros a b G; simpl. { intros Q1 Q2; injection Q1 as <-; injection Q2 as <-; auto. }
    destruct (jt_add_edge o1 a s) as [a'|] eqn:A; cbn [rbind]; [|discriminate]. destruct (jt_add_edge o2 b t) as [b'|] eqn:B; cbn [rbind]; [|discriminate].
    apply IH. eapply add_edge_sim; eauto.
  Qed.
End Two.

Lemma hm_weight N nm b i : bgood N nm b -> nshape N -> h_weight (hm N b) i = if mem i (vars N) then Z.of_nat (List.length (dom N i)) else 0%Z.
Proof.
  intros HB HN. unfold h_weight. destruct (mem i (vars N)) eqn:E.
  - apply mem_In in E. destruct (hm_get N nm b HB i E) as [n [H1 H2]]. rewrite H2. unfold n_weight. simpl. destruct (bg_node _ _ _ HB i n H1) as [_ [_ [B _]]]. rewrite B. reflexivity.
  - apply mem_false in E. destruct (dget (hm N b) i) as [n|] eqn:D; auto. exfalso. apply E. apply dget_Some_key in D.
    rewrite <- (ids_gp N nm b HB). unfold hm, moralize_meta in D. unfold dkeys in D. rewrite map_map in D. simpl in D. exact D.
Qed.

Theorem compile_same N N' nm nm' b b' o o' j j' : vars N' = vars N -> (forall i, List.length (dom N' i) = List.length (dom N i)) -> (forall i x, In x (par N' i) <-> In x (par N i)) ->
  nshape N -> nshape N' -> bgood N nm b -> bgood N' nm' b' -> ord_ok o -> ord_ok o' ->
  compile o b = Ok j -> compile o' b' = Ok j' -> same_tree j j'.
Proof.
  intros Ev Ed Ep HN HN' HB HB' Ho Ho' E E'. pose proof (cliques_same_ext N N' nm nm' b b' o o' j j' Ev Ed Ep HN HN' HB HB' Ho Ho' E E') as F.
  destruct (compile_steps N nm b HN HB o Ho) as (u & m & Ks & j0 & Fs & (U1 & U2 & U3 & U4 & U5) & C1 & _ & C3 & C4 & _).
  destruct (compile_steps N' nm' b' HN' HB' o' Ho') as (u' & m' & Ks' & j0' & Fs' & (U1' & U2' & U3' & U4' & U5') & C1' & _ & C3' & C4' & _).
  rewrite C1 in E. injection E as <-. rewrite C1' in E'. injection E' as <-. rewrite C4, C4' in F. clear C4 C4'.
  unfold compile in C1, C1'. rewrite (pot_init_ok N nm b HN HB) in C1. rewrite (pot_init_ok N' nm' b' HN' HB') in C1'. cbn [rbind] in C1, C1'.
  change (set_graph_nodes (b_g b) (hp N b)) with (gp N b) in C1. change (set_graph_nodes (b_g b') (hp N' b')) with (gp N' b') in C1'.
  rewrite U1 in C1. rewrite U1' in C1'. cbn [rbind] in C1, C1'. rewrite U5 in C1. rewrite U5' in C1'. cbn [rbind snd] in C1, C1'.
  change (moralize_meta (gp N b) (hp N b)) with (hm N b) in C1. change (moralize_meta (gp N' b') (hp N' b')) with (hm N' b') in C1'.
  destruct (transform o (hm N b) _) as [t|] eqn:T; cbn [rbind] in C1; [|discriminate]. destruct (transform o' (hm N' b') _) as [t'|] eqn:T'; cbn [rbind] in C1'; [|discriminate].
  injection C1 as <-. injection C1' as <-. change (same_tree t t'). refine (transform_sim o o' Ho Ho' _ _ _ _ _ _ _ F T T').
  intros i. rewrite (hm_weight N nm b i HB HN), (hm_weight N' nm' b' i HB' HN'), Ev, Ed. reflexivity.
Qed.
Lemma keeps_tree j j' k k' : keeps j j' -> keeps k k' -> same_tree j k -> same_tree j' k'.
Proof. intros K K' [A [B C]]. split; [|split]; rewrite ?(kp_n _ _ K), ?(kp_n _ _ K'), ?(kp_e _ _ K), ?(kp_e _ _ K'), ?(kp_b _ _ K), ?(kp_b _ _ K'); auto. Qed.

Lemma apply_tree ops ops' o o' b b' j j' : well_shaped ops -> well_shaped ops' -> ord_ok o -> ord_ok o' ->
  vars (net_of ops') = vars (net_of ops) -> (forall i, List.length (dom (net_of ops') i) = List.length (dom (net_of ops) i)) -> (forall i x, In x (par (net_of ops') i) <-> In x (par (net_of ops) i)) ->
  apply o (build ops) = Ok (b, j) -> apply o' (build ops') = Ok (b', j') -> same_tree j j'.
Proof.
  intros HW HW' Ho Ho' Ev Ed Ep. rewrite !apply_compile. destruct (compile o (build ops)) as [a|] eqn:A; cbn [rbind]; [|discriminate].
  destruct (compile o' (build ops')) as [a'|] eqn:A'; cbn [rbind]; [|discriminate].
  destruct (infer o a) as [c|] eqn:C; cbn [rbind]; [|discriminate]. destruct (infer o' a') as [c'|] eqn:C'; cbn [rbind]; [|discriminate].
  intros E E'. injection E as <- <-. injection E' as <- <-.
  change (same_tree c c'). eapply keeps_tree; [eapply keeps_infer; eauto|eapply keeps_infer; eauto|].
  refine (compile_same _ _ _ _ _ _ _ _ _ _ Ev Ed Ep (net_shape ops HW) (net_shape ops' HW') (build_good ops) (build_good ops') Ho Ho' A A').
Qed.
Theorem c55_tree ops ops' o o' h h' : well_shaped ops -> well_shaped ops' -> ord_ok o -> ord_ok o' -> valid_history (net_of ops) h -> valid_history (net_of ops') h' ->
  vars (net_of ops') = vars (net_of ops) -> (forall i, List.length (dom (net_of ops') i) = List.length (dom (net_of ops) i)) -> (forall i x, In x (par (net_of ops') i) <-> In x (par (net_of ops) i)) ->
  exists j j', session o ops h = Ok j /\ session o' ops' h' = Ok j' /\ same_tree j j'.
Proof.
  intros HW HW' Ho Ho' Hh Hh' Ev Ed Ep.
  destruct (session_shows ops o h HW Ho Hh) as [b [j [k [A1 [A2 _]]]]]. destruct (session_shows ops' o' h' HW' Ho' Hh') as [b' [j' [k' [B1 [B2 _]]]]].
  exists k, k'. split; [eapply session_eq; eauto|]. split; [eapply session_eq; eauto|].
  apply (keeps_tree j k j' k'); [eapply keeps_calls; eauto|eapply keeps_calls; eauto|]. exact (apply_tree ops ops' o o' b b' j j' HW HW' Ho Ho' Ev Ed Ep A1 B1).
Qed.
