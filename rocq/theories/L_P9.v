(** Final forms of the statements about average causal effects, and their witnesses. *)
From Verif Require Import Py M_Graph M_Node M_Pptc M_Ace Spec SpecNet SpecEv SpecPot SpecAce L_Base L_PD L_Sums L_Table L_Init L_UG L_Build L_Exact L_Apply L_Net L_Evid L_Hist L_Claims
  L_P1 L_P4 L_Serde L_P8 L_Cut L_Ace L_Check Ex L_R1 L_R4.
Open Scope nat_scope.

Lemma dsadd_keys (d : list (Z * list Z)) k v : NoDup (dkeys d) -> NoDup (dkeys (dsadd d k v)).
Proof. intros H. apply dset_NoDup; auto. Qed.
Lemma emap_keys ops : NoDup (dkeys (g_emap (b_g (build ops)))).
Proof.
  unfold build. assert (G : forall l b, NoDup (dkeys (g_emap (b_g b))) -> NoDup (dkeys (g_emap (b_g (fold_left bstep l b))))).
  { induction l as [|op l IH]; intros b H; simpl; auto. apply IH.
    assert (A : forall g n, g_emap (add_node n_id g n) = g_emap g). { intros g n. unfold add_node. destruct (dmem _ _); auto. }
    destruct op as [n|i j]; simpl; [rewrite A; auto|]. unfold add_ends. simpl. rewrite !A. apply dsadd_keys. auto. }
  apply G. constructor.
Qed.

Lemma apply_emap o b0 b j : apply o b0 = Ok (b, j) -> g_emap (b_g b) = g_emap (b_g b0).
Proof.
  unfold apply. intros H. destruct (pot_init b0); [|discriminate]. cbn [rbind] in H. destruct (moralize _); [|discriminate]. cbn [rbind] in H.
  destruct (triangulate _ _) as [mc|]; [|discriminate]. cbn [rbind] in H. destruct (transform _ _ _); [|discriminate]. cbn [rbind] in H.
  destruct (initialize _); [|discriminate]. cbn [rbind] in H. destruct (propagate _ _); [|discriminate]. cbn [rbind] in H. injection H as <- <-. reflexivity.
Qed.

Section Find.
  Context (N : net) (nm : Z -> string) (b : bbn) (HN : nshape N) (Hnm : NoDup (map nm (vars N))) (HB : bgood N nm b) (HE : NoDup (dkeys (g_emap (b_g b)))).
  Lemma names_of : map (fun p : Z * bnode => (fst p, n_name (snd p))) (g_nodes (b_g b)) = map (fun i => (i, nm i)) (vars N).
  Proof using HB.
    rewrite <- (bg_ids _ _ _ HB). unfold ids, dkeys. rewrite map_map. apply map_ext_in. intros [k n] Hp. simpl. f_equal. apply (bg_node _ _ _ HB k n Hp).
  Qed.
  Lemma n2i_ok i : In i (vars N) -> dgetE (get_n2i b) (nm i) = Ok i.
  Proof using HB Hnm.
    intros Hi. unfold get_n2i. assert (E : map (fun p : Z * bnode => n_name (snd p)) (g_nodes (b_g b)) = map nm (vars N)).
    { pose proof names_of as H. apply (f_equal (map snd)) in H. rewrite !map_map in H. exact H. }
    rewrite (fold_dset_nil (fun p : Z * bnode => n_name (snd p)) (fun p => fst p)) by (rewrite E; auto).
    apply dgetE_Ok. apply In_dget. { unfold dkeys. rewrite map_map. simpl. rewrite E. auto. }
    rewrite <- (bg_ids _ _ _ HB) in Hi. unfold ids, dkeys in Hi. apply in_map_iff in Hi. destruct Hi as [[k n] [Ek Hp]]. simpl in Ek. subst k.
    apply in_map_iff. exists (i, n). simpl. split; auto. f_equal. apply (bg_node _ _ _ HB i n Hp).
  Qed.
  Lemma i2n_ok i : In i (vars N) -> dgetE (get_i2n b) i = Ok (nm i).
  Proof using HB HN.
    intros Hi. unfold get_i2n. pose proof (ns_nd _ HN) as Hd. rewrite <- (bg_ids _ _ _ HB) in Hd. unfold ids, dkeys in Hd.
    rewrite (fold_dset_nil (fun p : Z * bnode => fst p) (fun p => n_name (snd p))) by auto. rewrite names_of. apply dgetE_Ok. apply In_dget.
    - unfold dkeys. rewrite map_map. simpl. rewrite map_id. apply (ns_nd _ HN).
    - apply in_map_iff. exists i; auto.
  Qed.
  Lemma node_ok i : In i (vars N) -> exists n, get_node (b_g b) i = Ok n /\ n_values n = dom N i.
  Proof using HB.
    intros Hi. rewrite <- (bg_ids _ _ _ HB) in Hi. apply dkeys_dget in Hi. destruct Hi as [n E]. exists n. unfold get_node, dgetE. rewrite E. split; auto.
    apply dget_In in E. apply (bg_node _ _ _ HB i n E).
  Qed.
  Lemma parents_perm i : Permutation (get_parents (b_g b) i) (par N i).
  Proof using HB HE HN.
    apply NoDup_Permutation.
    - apply NoDup_filter'. auto.
    - pose proof (ns_par _ HN i) as H. apply NoDup_app_iff in H. tauto.
    - intros p. unfold get_parents. rewrite filter_In. split.
      + intros [_ Hm]. apply mem_In in Hm. apply (bg_em _ _ _ HB) in Hm. auto.
      + intros Hp. pose proof (proj2 (bg_em _ _ _ HB p i) Hp) as Hm. split; [|apply mem_In; auto].
        unfold emap, dgets in Hm. destruct (dget (g_emap (b_g b)) p) eqn:E; [eapply dget_Some_key; eauto|destruct Hm].
  Qed.
  Lemma nodes_values l : incl l (vars N) -> exists ns, mapM (get_node (b_g b)) l = Ok ns /\ map n_values ns = map (dom N) l.
  Proof using HB.
    induction l as [|i l IH]; intros H. { exists []; auto. } destruct (node_ok i) as [n [E1 E2]]. { apply H; left; auto. }
    destruct IH as [ns [F1 F2]]. { intros u Hu. apply H. right; auto. } exists (n :: ns). simpl. rewrite E1. cbn [rbind]. rewrite F1. cbn [rbind]. split; auto. rewrite E2, F2. auto.
  Qed.
End Find.

Lemma exact_posterior_agree N L L' i v : (forall k w, L k w = L' k w) -> exact_posterior N L i v = exact_posterior N L' i v.
Proof. intros H. apply posterior_agree. intros k w _ _. apply H. Qed.

Lemma adjusted_perm (ops : list bop) x y yv Zs xv : well_shaped ops -> Permutation Zs (par (net_of ops) x) ->
  qsum (map (fun ws => term ops x y yv Zs xv (asg_of Zs ws)) (cartesian (map (dom (net_of ops)) Zs))) = adjusted (net_of ops) x xv y yv.
Proof.
  intros HW HP. set (N := net_of ops) in *. pose proof (net_shape ops HW) as HN. fold N in HN.
  assert (Hd : NoDup Zs). { pose proof (ns_par _ HN x) as H. apply NoDup_app_iff in H. eapply Permutation_NoDup; [symmetry; exact HP|tauto]. }
  assert (Hdep : dep Zs (term ops x y yv Zs xv)).
  { intros a c E. unfold term. fold N. f_equal.
    - apply exact_posterior_agree. intros k w. unfold seeing. destruct (mem k (x :: Zs)) eqn:Em; auto. apply mem_In in Em. unfold upd. destruct (Z.eqb_spec k x) as [->|Hn]; auto.
      destruct Em as [<-|Hk]; [congruence|]. rewrite (E k Hk). auto.
    - apply qprod_map_ext. intros p Hp. rewrite (E p Hp). auto. }
  rewrite (qsum_map_ext _ (fun ws => term ops x y yv Zs xv (over Zs ws no_asg))).
  - rewrite <- (cart_sums (dom N) Zs (term ops x y yv Zs xv)); auto. 2:{ eapply dep_proper; eauto. }
    rewrite (sums_perm (dom N) Zs (par N x)); auto. 2:{ eapply dep_proper; eauto. }
    unfold adjusted. apply sums_ext. intros a. unfold term. fold N. f_equal.
    + apply exact_posterior_agree. intros k w. unfold seeing. rewrite (mem_perm k (x :: Zs) (x :: par N x)); auto.
    + apply qprod_perm. apply Permutation_map. auto.
  - intros ws _. apply Hdep. intros v _. reflexivity.
Qed.

Lemma c33_formula : forall ops o0 o x y yv, well_shaped ops -> connected ops -> ord_ok o0 -> ord_ok o -> let N := net_of ops in
  In x (vars N) -> In y (vars N) -> In yv (dom N y) ->
  exists b j0, ace_init o0 (build ops) = Ok (b, j0) /\
  forall h j, valid_history N h -> Forall hard_call (calls h) -> session o0 ops h = Ok j ->
  exists j' h', get_ace o b j (net_name ops x) (net_name ops y) yv = Ok (j', map (fun xv => (xv, adjusted N x xv y yv)) (dom N x)) /\
    valid_history N h' /\ Forall hard_call (calls h') /\ session o0 ops h' = Ok j'.
Proof.
  intros ops o0 o x y yv HW HC H0 Ho N Hx Hy Hyv. pose proof (net_shape ops HW) as HN. fold N in HN.
  destruct (apply_build ops o0 HW H0) as [b [j0 [A1 [A2 A3]]]]. exists b, j0. split; [exact A1|]. intros h j V Hh HJ.
  destruct (apply_saves ops o0 b j0 HW H0 A1) as [_ [_ HB]]. fold N in HB.
  assert (HE : NoDup (dkeys (g_emap (b_g b)))). { rewrite (apply_emap _ _ _ _ A1). apply emap_keys. }
  pose proof (ws_names _ HW) as Hnm. change (NoDup (map (net_name ops) (vars N))) in Hnm.
  set (Zs := get_parents (b_g b) x). pose proof (parents_perm N (net_name ops) b HN HB HE x) as HP. fold Zs in HP.
  assert (HZ : NoDup Zs). { pose proof (ns_par _ HN x) as H. apply NoDup_app_iff in H. eapply Permutation_NoDup; [symmetry; exact HP|tauto]. }
  assert (HZv : incl Zs (vars N)). { intros p Hp. apply (Permutation_in _ HP) in Hp. apply (ns_ends _ HN p x Hp). }
  assert (HxZ : ~ In x Zs). { intros Hp. apply (Permutation_in _ HP) in Hp. pose proof (ns_par _ HN x) as H. apply NoDup_app_iff in H. destruct H as [_ [_ H]]. apply (H x Hp). left; auto. }
  destruct (nodes_values N (net_name ops) b HB Zs HZv) as [ns [E1 E2]].
  destruct (node_ok N (net_name ops) b HB x Hx) as [n [F1 F2]].
  destruct (values_ok ops o0 o HW HC H0 Ho x y yv Hx Hy Hyv Zs HZ HZv HxZ (dom N x) j h []) as [j' [h' [B1 [B2 [B3 B4]]]]].
  { split; auto. } { apply incl_refl. } { simpl. apply (ns_dom _ HN x Hx). }
  exists j', h'. split; [|split; auto]. unfold get_ace. rewrite (n2i_ok N (net_name ops) b Hnm HB x Hx). cbn [rbind]. fold Zs.
  rewrite (mapM_all (dgetE (get_i2n b)) (net_name ops) Zs) by (intros p Hp; apply (i2n_ok N (net_name ops) b HN HB p); auto). cbn [rbind].
  rewrite E1. cbn [rbind]. rewrite F1. cbn [rbind]. rewrite E2, F2. etransitivity; [exact B1|]. f_equal. f_equal. simpl. apply map_ext_in. intros xv _. f_equal. apply adjusted_perm; auto.
Qed.

Lemma c33_part : forall ops o0 o x y yv, well_shaped ops -> connected ops -> ord_ok o0 -> ord_ok o -> let N := net_of ops in
  acyclic (is_parent N) -> stochastic N -> In x (vars N) -> In y (vars N) -> In yv (dom N y) -> independent N (par N x) -> overlapping N x ->
  exists b j0, ace_init o0 (build ops) = Ok (b, j0) /\
  forall h j, valid_history N h -> Forall hard_call (calls h) -> session o0 ops h = Ok j ->
  exists j' h', get_ace o b j (net_name ops x) (net_name ops y) yv = Ok (j', map (fun xv => (xv, do_prob N x xv y yv)) (dom N x)) /\
    valid_history N h' /\ Forall hard_call (calls h') /\ session o0 ops h' = Ok j'.
Proof.
  intros ops o0 o x y yv HW HC H0 Ho N HA HS Hx Hy Hyv HI HO. destruct (c33_formula ops o0 o x y yv HW HC H0 Ho Hx Hy Hyv) as [b [j0 [A1 A2]]]. fold N in A2.
  exists b, j0. split; auto. intros h j V Hh HJ. destruct (A2 h j V Hh HJ) as [j' [h' [B1 B2]]]. exists j', h'. split; auto. rewrite B1. f_equal. f_equal.
  apply map_ext_in. intros xv Hxv. f_equal. apply (adjusted_do N (net_shape ops HW)); auto.
Qed.

Lemma c33_few : forall ops x, well_shaped ops -> let N := net_of ops in acyclic (is_parent N) -> stochastic N ->
  (List.length (par N x) <= 1 \/ forall p, In p (par N x) -> par N p = []) -> independent N (par N x).
Proof.
  intros ops x HW N HA HS [Hl|Hr]; pose proof (net_shape ops HW) as HN; fold N in HN.
  - apply independent_few; auto.
  - apply independent_roots; auto. { pose proof (ns_par _ HN x) as H. apply NoDup_app_iff in H. tauto. } intros p Hp. apply (ns_ends _ HN p x Hp).
Qed.

(** ** cases *)
Definition overlappingb (N : net) (x : Z) : bool :=
  forallb (fun ws => negb (qeqb (cpt_entry N x (asg_of (par N x ++ [x]) ws)) 0%Qc)) (cartesian (map (dom N) (par N x ++ [x]))).
Lemma overlappingb_ok N x : overlappingb N x = true -> overlapping N x.
Proof.
  intros H a Ha _ E. unfold overlappingb in H. rewrite forallb_forall in H. specialize (H _ (map_okon _ _ _ Ha)). apply negb_true_iff, qeqb_false in H. apply H. rewrite <- E.
  apply cpt_dep. intros u Hu. apply (asg_of_in (dom N)). auto.
Qed.

(** get_ace run after a history gives the numbers [f] *)
Definition acesb (o0 o : Ord) (ops : list bop) (h : history) (x y : Z) (yv : string) (f : string -> Qc) : bool :=
  match apply o0 (build ops), session o0 ops h with
  | Ok (b, _), Ok j => match get_ace o b j (net_name ops x) (net_name ops y) yv with
                       | Ok (_, r) => nonempty r && forallb (fun p => qeqb (snd p) (f (fst p))) r
                       | Err _ => false
                       end
  | _, _ => false
  end.

(** a is a parent of b, both are parents of x, all three are parents of y *)
Definition k_a := new_node 1 "a" ["0"; "1"]%string [qfrac 1 2; qfrac 1 2].
Definition k_b := new_node 2 "b" ["0"; "1"]%string [qfrac 9 10; qfrac 1 10; qfrac 1 10; qfrac 9 10].
Definition k_x := new_node 3 "x" ["0"; "1"]%string [qfrac 1 2; qfrac 1 2; qfrac 1 3; qfrac 2 3; qfrac 1 4; qfrac 3 4; qfrac 1 5; qfrac 4 5].
Definition k_y := new_node 4 "y" ["0"; "1"]%string
  [qfrac 9 10; qfrac 1 10; qfrac 1 2; qfrac 1 2; qfrac 1 10; qfrac 9 10; qfrac 1 3; qfrac 2 3; qfrac 1 5; qfrac 4 5; qfrac 1 2; qfrac 1 2; qfrac 4 5; qfrac 1 5; qfrac 1 2; qfrac 1 2].
Definition confounded : list bop :=
  [AddNode k_a; AddNode k_b; AddNode k_x; AddNode k_y; AddEdge k_a k_b; AddEdge k_a k_x; AddEdge k_b k_x; AddEdge k_a k_y; AddEdge k_b k_y; AddEdge k_x k_y].
Lemma confounded_ok : well_shaped confounded /\ connected confounded /\ acyclic (is_parent (net_of confounded)) /\ stochastic (net_of confounded) /\ overlapping (net_of confounded) 3%Z.
Proof.
  split; [apply well_shapedb_ok; vm_compute; reflexivity|]. split; [apply connectedb_ok; vm_compute; reflexivity|].
  split; [apply rankedb_ok with Z.to_nat; vm_compute; reflexivity|]. split; [apply stochasticb_ok; vm_compute; reflexivity|apply overlappingb_ok; vm_compute; reflexivity].
Qed.
Definition wrong_aceb (o : Ord) (ops : list bop) (x y : Z) (yv xv : string) : bool :=
  match ace_init o (build ops) with
  | Ok (b, j) => match get_ace o b j (net_name ops x) (net_name ops y) yv with
                 | Ok (_, r) => match dget r xv with Some q => negb (qeqb q (do_prob (net_of ops) x xv y yv)) | None => false end
                 | Err _ => false
                 end
  | Err _ => false
  end.
Lemma wrong_aceb_ok o ops x y yv xv : wrong_aceb o ops x y yv xv = true ->
  exists b j j' r q, ace_init o (build ops) = Ok (b, j) /\ get_ace o b j (net_name ops x) (net_name ops y) yv = Ok (j', r) /\ dget r xv = Some q /\ q <> do_prob (net_of ops) x xv y yv.
Proof.
  unfold wrong_aceb. destruct (ace_init o (build ops)) as [[b j]|]; [|discriminate]. destruct (get_ace o b j _ _ yv) as [[j' r]|] eqn:E; [|discriminate].
  destruct (dget r xv) as [q|] eqn:Eq; [|discriminate]. intros H. apply negb_true_iff, qeqb_false in H. exists b, j, j', r, q. auto.
Qed.
Lemma c33_refuted : exists ops o x y yv xv, well_shaped ops /\ connected ops /\ ord_ok o /\ acyclic (is_parent (net_of ops)) /\ stochastic (net_of ops) /\
  overlapping (net_of ops) x /\ In x (vars (net_of ops)) /\ In y (vars (net_of ops)) /\ In yv (dom (net_of ops) y) /\ In xv (dom (net_of ops) x) /\
  exists b j j' r q, ace_init o (build ops) = Ok (b, j) /\ get_ace o b j (net_name ops x) (net_name ops y) yv = Ok (j', r) /\ dget r xv = Some q /\ q <> do_prob (net_of ops) x xv y yv.
Proof.
  exists confounded, ord_id, 3%Z, 4%Z, "1"%string, "0"%string. destruct confounded_ok as [H1 [H2 [H3 [H4 H5]]]].
  split; [exact H1|]. split; [exact H2|]. split; [exact ord_id_ok|]. split; [exact H3|]. split; [exact H4|]. split; [exact H5|].
  split; [apply (proj1 (mem_In _ _)); vm_compute; reflexivity|]. split; [apply (proj1 (mem_In _ _)); vm_compute; reflexivity|].
  split; [apply (proj1 (mem_In _ _)); vm_compute; reflexivity|]. split; [apply (proj1 (mem_In _ _)); vm_compute; reflexivity|].
  apply wrong_aceb_ok. vm_compute. reflexivity.
Qed.
