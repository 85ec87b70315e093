(** Triangulation does not depend on the order in which sets are iterated, nor on the node objects beyond ids and weights. *)
From Verif Require Import Py M_Graph M_Node M_Pptc Spec L_Base L_PD L_UG L_Ids L_Elim L_Trans L_Tri L_Moral.
Open Scope nat_scope.

(** ** sorting related lists *)
Section Rel.
  Context {A B : Type} (R : A -> B -> Prop) (la : A -> A -> bool) (lb : B -> B -> bool).
  Context (HR : forall a a' b b', R a b -> R a' b' -> la a a' = lb b b').
  Lemma insert_rel x y l m : R x y -> Forall2 R l m -> Forall2 R (insert la x l) (insert lb y m).
  Proof using HR.
    intros Hxy. induction 1 as [|a b l m Hab Hlm IH]; cbn [insert]; [repeat constructor; exact Hxy|]. rewrite (HR x a y b Hxy Hab). destruct (lb y b); repeat constructor; assumption.
  Qed.
  Lemma isort_rel l m : Forall2 R l m -> Forall2 R (isort la l) (isort lb m).
  Proof using HR. induction 1; [constructor|]. cbn [isort]. apply insert_rel; assumption. Qed.
End Rel.

(** ** counting pairs *)
Section Count.
  Context {A : Type} (p : A * A -> bool) (Hs : forall x y, p (x, y) = p (y, x)).
  Definition npairs (l : list A) : nat := List.length (filter p (pairs l)).
  Definition nwith (x : A) (l : list A) : nat := List.length (filter (fun y => p (x, y)) l).
  Lemma npairs_cons x l : npairs (x :: l) = nwith x l + npairs l.
  Proof.
    unfold npairs, nwith. cbn [pairs]. rewrite filter_app, app_length. f_equal. induction l as [|y l IH]; [reflexivity|]. cbn [map filter]. destruct (p (x, y)); cbn [List.length]; rewrite IH; reflexivity.
  Qed.
  Lemma nwith_perm x l m : Permutation l m -> nwith x l = nwith x m.
  Proof. unfold nwith. induction 1; cbn [filter]; [reflexivity| | |congruence]; repeat (destruct (p (x, _)); cbn [List.length]); congruence. Qed.
  Lemma npairs_perm l m : Permutation l m -> npairs l = npairs m.
  Proof using Hs.
    induction 1 as [|x l m H IH|x y l|l m k H1 IH1 H2 IH2]; [reflexivity| | |congruence].
    - rewrite !npairs_cons, IH, (nwith_perm x l m H). reflexivity.
    - rewrite !npairs_cons. unfold nwith. cbn [filter]. rewrite (Hs x y). destruct (p (y, x)); cbn [List.length]; lia.
  Qed.
End Count.
Lemma pairs_map {A B} (f : A -> B) l : pairs (map f l) = map (fun p => (f (fst p), f (snd p))) (pairs l).
Proof. induction l as [|x l IH]; [reflexivity|]. cbn [map pairs]. rewrite map_app, !map_map, IH. reflexivity. Qed.
Lemma filter_map_len {A B} (f : A -> B) (p : B -> bool) l : List.length (filter p (map f l)) = List.length (filter (fun x => p (f x)) l).
Proof. induction l as [|x l IH]; [reflexivity|]. cbn [map filter]. destruct (p (f x)); cbn [List.length]; rewrite IH; reflexivity. Qed.

(** ** graphs with the same nodes and the same neighbours *)
Definition idw (n : bnode) : Z * Z := (n_id n, n_weight n).
Record gsim (g h : graph bnode) : Prop := {
  gs_g : ug g; gs_h : ug h;
  gs_nodes : map idw (get_nodes g) = map idw (get_nodes h);
  gs_adj : forall x y, adj g x y <-> adj h x y }.

Lemma gsim_ids g h : gsim g h -> ids g = ids h.
Proof.
  intros S. rewrite <- (get_nodes_ids n_id g (gs_g _ _ S)), <- (get_nodes_ids n_id h (gs_h _ _ S)).
  pose proof (gs_nodes _ _ S) as E. apply (f_equal (map fst)) in E. rewrite !map_map in E. exact E.
Qed.
Definition wof (g : graph bnode) (i : Z) : Z := match dget (g_nodes g) i with Some n => n_weight n | None => 0%Z end.
Lemma wof_node g i n : get_node g i = Ok n -> wof g i = n_weight n.
Proof. unfold get_node, dgetE, wof. destruct (dget (g_nodes g) i); [|discriminate]. intros E. inversion E. reflexivity. Qed.
Lemma wof_sim g h i : gsim g h -> wof g i = wof h i.
Proof.
  intros S. pose proof (gs_nodes _ _ S) as E. pose proof (ug_kid _ _ (gs_g _ _ S)) as Kg. pose proof (ug_kid _ _ (gs_h _ _ S)) as Kh. unfold wof, get_nodes, dvals in *.
  revert E Kg Kh. generalize (g_nodes g) (g_nodes h). induction l as [|[k n] l IH]; intros [|[k' n'] l'] E Kg Kh; try discriminate; [reflexivity|].
  cbn [map snd] in E. unfold idw at 1 3 in E. injection E as E1 E2 E3. rewrite (Kg k n (or_introl eq_refl)), (Kh k' n' (or_introl eq_refl)) in E1. subst k'. cbn [dget].
  destruct (eqb i k); [exact E2|]. apply IH; [exact E3|intros; apply Kg; right; assumption|intros; apply Kh; right; assumption].
Qed.

(** ** one step *)
Record ncsim (a b : nclique) : Prop := {
  nq_id : n_id (nc_node a) = n_id (nc_node b);
  nq_nb : Permutation (map n_id (nc_nbrs a)) (map n_id (nc_nbrs b));
  nq_w : nc_weight a = nc_weight b;
  nq_e : List.length (nc_edges a) = List.length (nc_edges b) }.
Lemma nc_leb_sim a a' b b' : ncsim a b -> ncsim a' b' -> nc_leb a a' = nc_leb b b'.
Proof. intros [A1 _ A3 A4] [B1 _ B3 B4]. unfold nc_leb. rewrite A1, A3, A4, B1, B3, B4. reflexivity. Qed.

Lemma mapM_node_w g l ns : mapM (get_node g) l = Ok ns -> map n_weight ns = map (wof g) l.
Proof.
  revert ns. induction l as [|i l IH]; intros ns; cbn [mapM]; [intros E; inversion E; reflexivity|]. destruct (get_node g i) as [n|] eqn:E; cbn [rbind]; [|discriminate].
  destruct (mapM (get_node g) l) as [ms|]; cbn [rbind]; [|discriminate]. intros Q. inversion Q; subst. cbn [map]. rewrite (wof_node _ _ _ E), (IH ms eq_refl). reflexivity.
Qed.
Lemma prod_perm l m : Permutation l m -> fold_right Z.mul 1%Z l = fold_right Z.mul 1%Z m.
Proof. induction 1; simpl; lia. Qed.

Section Two.
  Context (o1 o2 : Ord) (H1 : ord_ok o1) (H2 : ord_ok o2).

  Lemma nbrs_perm g h i : gsim g h -> Permutation (zord o1 i (get_neighbors g i)) (zord o2 i (get_neighbors h i)).
  Proof using H1 H2.
    intros S. etransitivity; [apply H1|]. etransitivity; [|symmetry; apply H2]. apply NoDup_Permutation; [apply (ug_nd _ _ (gs_g _ _ S))|apply (ug_nd _ _ (gs_h _ _ S))|]. intros x. apply (gs_adj _ _ S i x).
  Qed.
  Lemma nclique_sim g h n n' : gsim g h -> idw n = idw n' -> exists a b,
    (ns <- nbr_nodes o1 g n ;; w <- tri_weight o1 n g ;; es <- edges_to_add o1 n g ;; Ok (mkNC n ns w es)) = Ok a /\
    (ns <- nbr_nodes o2 h n' ;; w <- tri_weight o2 n' h ;; es <- edges_to_add o2 n' h ;; Ok (mkNC n' ns w es)) = Ok b /\ ncsim a b.
  Proof using H1 H2.
    intros S E. unfold idw in E. injection E as Ei Ew. destruct (nbr_nodes_ok o1 H1 g n (gs_g _ _ S)) as (ns & N1 & N2). destruct (nbr_nodes_ok o2 H2 h n' (gs_h _ _ S)) as (ms & M1 & M2).
    unfold tri_weight, edges_to_add. rewrite N1, M1. cbn [rbind]. do 2 eexists. split; [reflexivity|]. split; [reflexivity|].
    assert (P : Permutation (map n_id ns) (map n_id ms)). { rewrite N2, M2, <- Ei. apply nbrs_perm, S. }
    constructor; cbn [nc_node nc_nbrs nc_weight nc_edges]; [exact Ei|exact P| |].
    - rewrite Ew. f_equal. unfold nbr_nodes in N1, M1. rewrite (mapM_node_w _ _ _ N1), (mapM_node_w _ _ _ M1). rewrite <- Ei. rewrite (map_ext _ _ (fun i => wof_sim g h i S)).
      apply prod_perm, Permutation_map, nbrs_perm, S.
    - rewrite !map_length.
      assert (G : forall (m : graph bnode) k, List.length (filter (fun p : bnode * bnode => negb (edge_exists m (n_id (fst p)) (n_id (snd p)))) (pairs k)) = npairs (fun p => negb (edge_exists m (fst p) (snd p))) (map n_id k)).
      { intros m k. unfold npairs. rewrite pairs_map, filter_map_len. reflexivity. }
      rewrite !G.
      assert (Q : forall x y, edge_exists g x y = edge_exists h x y).
      { intros x y. pose proof (edge_exists_adj n_id g x y (gs_g _ _ S)) as A. pose proof (edge_exists_adj n_id h x y (gs_h _ _ S)) as B. pose proof (gs_adj _ _ S x y) as C.
        destruct (edge_exists g x y), (edge_exists h x y); try reflexivity; intuition congruence. }
      unfold npairs. rewrite (filter_ext (fun p : Z * Z => negb (edge_exists g (fst p) (snd p))) (fun p => negb (edge_exists h (fst p) (snd p)))) by (intros [x y]; cbn [fst snd]; rewrite Q; reflexivity).
      apply npairs_perm; [|exact P]. intros x y. cbn [fst snd]. unfold edge_exists. f_equal. apply orb_comm.
  Qed.
  Lemma generate_sim g h l m : gsim g h -> generate_cliques o1 g = Ok l -> generate_cliques o2 h = Ok m -> Forall2 ncsim l m.
  Proof using H1 H2.
    intros S. unfold generate_cliques. pose proof (gs_nodes _ _ S) as E. revert E l m. generalize (get_nodes g) (get_nodes h). induction l as [|n l IH]; intros [|n' l'] E r r'; try discriminate.
    - cbn [mapM]. intros A B. inversion A; inversion B. constructor.
    - cbn [map] in E. injection E as E1 E2 E3. destruct (nclique_sim g h n n' S) as (a & b & A & B & C); [unfold idw; congruence|]. cbn [mapM]. rewrite A, B. cbn [rbind].
      match goal with |- context [mapM ?f l] => destruct (mapM f l) as [x|] eqn:X end; cbn [rbind]; [|discriminate].
      match goal with |- context [mapM ?f l'] => destruct (mapM f l') as [y|] eqn:Y end; cbn [rbind]; [|discriminate].
      intros Q1 Q2. inversion Q1; inversion Q2; subst. constructor; [exact C|]. apply (IH l' E3 x y eq_refl Y).
  Qed.
  Lemma select_sim g h a b : gsim g h -> select_node o1 g = Ok a -> select_node o2 h = Ok b -> ncsim a b.
  Proof using H1 H2.
    intros S. unfold select_node. destruct (generate_cliques o1 g) as [l|] eqn:L; cbn [rbind]; [|discriminate]. destruct (generate_cliques o2 h) as [m|] eqn:M; cbn [rbind]; [|discriminate].
    pose proof (isort_rel ncsim nc_leb nc_leb nc_leb_sim l m (generate_sim g h l m S L M)) as F. destruct F as [|x y s t X F]; [discriminate|]. intros A B. inversion A; inversion B; subst. exact X.
  Qed.
End Two.

(** the graph after a node is taken out and its neighbours joined *)
Definition next (mm : graph bnode) (nc : nclique) : graph bnode := fold_left (add_edge n_id) (nc_edges nc) (remove_node mm (n_id (nc_node nc))).
Lemma next_ok o mm nc : ord_ok o -> ug mm -> get_nodes mm <> [] -> select_node o mm = Ok nc ->
  ug (next mm nc) /\ g_nodes (next mm nc) = g_nodes (remove_node mm (n_id (nc_node nc))) /\ In (nc_node nc) (get_nodes mm) /\
  forall x y, adj (next mm nc) x y <-> (adj mm x y /\ x <> n_id (nc_node nc) /\ y <> n_id (nc_node nc)) \/
    (adj mm (n_id (nc_node nc)) x /\ adj mm (n_id (nc_node nc)) y /\ x <> y).
Proof.
  intros Ho U Hne Es. destruct (select_ok o Ho mm U Hne) as [nc' [Es' [Hnc [En Ee]]]]. rewrite Es in Es'. inversion Es'; subst nc'. clear Es'.
  set (v := n_id (nc_node nc)) in *.
  destruct (nbr_nodes_ok o Ho mm (nc_node nc) U) as [ns [E1 E2]]. rewrite E1 in En. inversion En; subst ns. clear En. fold v in E2.
  set (NN := zord o v (get_neighbors mm v)) in *.
  assert (HNN : NoDup NN). { apply Permutation_NoDup with (get_neighbors mm v). symmetry. apply Ho. apply (ug_nd _ _ U). }
  assert (HNi : forall x, In x NN <-> adj mm v x). { intros x. unfold NN. rewrite zord_In by auto. reflexivity. }
  assert (HvN : ~ In v NN). { rewrite HNi. apply (ug_irr _ _ U). }
  assert (Hes : nc_edges nc = map (fun p => mkEdge (fst p) (snd p) UNDIRECTED) (filter (fun p => negb (edge_exists mm (n_id (fst p)) (n_id (snd p)))) (pairs (nc_nbrs nc)))).
  { unfold edges_to_add in Ee. rewrite E1 in Ee. cbn [rbind] in Ee. inversion Ee as [Ee']. reflexivity. }
  assert (Hund : forall e, In e (nc_edges nc) -> e_t e = UNDIRECTED). { intros e He. rewrite Hes in He. apply in_map_iff in He. destruct He as [p [<- _]]. reflexivity. }
  assert (Hends : forall e, In e (nc_edges nc) -> In (n_id (e_i e)) NN /\ In (n_id (e_j e)) NN).
  { intros e He. rewrite Hes in He. apply in_map_iff in He. destruct He as [[a b] [<- He]]. apply filter_In in He. destruct He as [He _]. apply pairs_In in He.
    destruct He as [Ha Hb]. simpl. rewrite <- E2. split; apply in_map; auto. }
  set (mm1 := remove_node mm v). assert (U1 : ug mm1) by (apply ug_remove; auto).
  assert (HNids : forall x, In x NN -> In x (ids mm1)).
  { intros x Hx. apply remove_ids. split; [|intros ->; auto]. apply HNi in Hx. eapply ug_in2; eauto. }
  destruct (fold_add_edges n_id (nc_edges nc) mm1 U1 Hund) as [U2 [A2 I2]].
  split; [exact U2|]. split; [apply I2; intros e He; destruct (Hends e He); auto|]. split; [exact Hnc|].
  intros x y. unfold next. fold v. fold mm1. rewrite A2. unfold mm1. rewrite remove_adj.
  pose proof (link_pairs mm (nc_nbrs nc) x y U) as Lk. rewrite E2 in Lk. specialize (Lk HNN). rewrite <- Hes in Lk. rewrite !HNi in Lk.
  split.
  - intros [H|[e [He Hl]]]; [left; exact H|]. right. destruct (Hends e He) as [X Y]. rewrite HNi in X, Y. destruct Hl as [Hn [[-> ->]|[-> ->]]]; auto.
  - intros [H|H]; [left; exact H|]. destruct (proj2 Lk (or_intror H)) as [H'|H']; [left|right; exact H']. split; [exact H'|]. destruct H as (X & Y & _). split; intros ->; apply (ug_irr _ _ U v); assumption.
Qed.
Lemma remove_idw g v : ug g -> map idw (get_nodes (remove_node g v)) = filter (fun p => negb (Z.eqb v (fst p))) (map idw (get_nodes g)).
Proof.
  intros U. pose proof (ug_kid _ _ U) as K. unfold get_nodes, remove_node, dvals, dpop. cbn [g_nodes]. revert K. generalize (g_nodes g). induction l as [|[k n] l IH]; intros K; [reflexivity|].
  cbn [filter map fst snd]. change (fst (idw n)) with (n_id n). rewrite (K k n (or_introl eq_refl)). change (eqb v k) with (Z.eqb v k). destruct (Z.eqb v k); cbn [negb map snd]; rewrite IH by (intros; apply K; right; assumption); reflexivity.
Qed.

(** ** cliques *)
Definition clsim (c d : clique) : Prop := cl_id c = cl_id d /\ Permutation (cl_nodes c) (cl_nodes d).
Lemma mk_clique_sim l m : Permutation l m -> clsim (mk_clique l) (mk_clique m).
Proof. intros P. split; [|exact P]. cbn [mk_clique cl_id]. f_equal. apply isort_Z_unique. exact P. Qed.
Lemma subset_perm (l l' m m' : list Z) : Permutation l l' -> Permutation m m' -> subset l m = subset l' m'.
Proof.
  intros P Q. destruct (subset l m) eqn:E; symmetry.
  - rewrite subset_spec in E. apply subset_spec. intros x Hx. apply (Permutation_in _ Q), E, (Permutation_in _ (Permutation_sym P)), Hx.
  - apply not_true_iff_false. apply not_true_iff_false in E. intros H. apply E. rewrite subset_spec in H. apply subset_spec. intros x Hx. apply (Permutation_in _ (Permutation_sym Q)), H, (Permutation_in _ P), Hx.
Qed.
Lemma is_subset_sim cs ds c d : Forall2 clsim cs ds -> clsim c d -> is_subset cs c = is_subset ds d.
Proof.
  intros F [_ P]. unfold is_subset. induction F as [|a b l m [_ Q] F IH]; [reflexivity|]. cbn [existsb]. rewrite IH. f_equal. unfold is_superset. apply subset_perm; assumption.
Qed.
Section Loop.
  Context (o1 o2 : Ord) (H1 : ord_ok o1) (H2 : ord_ok o2).
  Lemma tri_loop_sim f : forall m1 m2 mm1 mm2 acc1 acc2 r1 r2, gsim mm1 mm2 -> Forall2 clsim acc1 acc2 ->
    tri_loop o1 f m1 mm1 acc1 = Ok r1 -> tri_loop o2 f m2 mm2 acc2 = Ok r2 -> Forall2 clsim (snd r1) (snd r2).
  Proof using H1 H2.
    induction f as [|f IH]; intros m1 m2 mm1 mm2 acc1 acc2 r1 r2 S F.
    - cbn [tri_loop]. destruct (get_nodes mm1); [|discriminate]. destruct (get_nodes mm2); [|discriminate]. intros A B. inversion A; inversion B; subst. exact F.
    - cbn [tri_loop]. destruct (get_nodes mm1) as [|x l] eqn:E1.
      { pose proof (gs_nodes _ _ S) as E. rewrite E1 in E. symmetry in E. apply map_eq_nil in E. rewrite E. intros A B. inversion A; inversion B; subst. exact F. }
      destruct (get_nodes mm2) as [|x' l'] eqn:E2. { pose proof (gs_nodes _ _ S) as E. rewrite E1, E2 in E. discriminate. }
      destruct (select_node o1 mm1) as [a|] eqn:Sa; cbn [rbind]; [|discriminate]. destruct (select_node o2 mm2) as [b|] eqn:Sb; cbn [rbind]; [|discriminate].
      pose proof (select_sim o1 o2 H1 H2 _ _ a b S Sa Sb) as C. fold (next mm1 a). fold (next mm2 b).
      destruct (next_ok o1 mm1 a H1 (gs_g _ _ S)) as (A1 & A2 & A3 & A4); [rewrite E1; discriminate|exact Sa|].
      destruct (next_ok o2 mm2 b H2 (gs_h _ _ S)) as (B1 & B2 & B3 & B4); [rewrite E2; discriminate|exact Sb|].
      assert (Cl : clsim (mk_clique (map n_id (nc_nbrs a ++ [nc_node a]))) (mk_clique (map n_id (nc_nbrs b ++ [nc_node b])))).
      { apply mk_clique_sim. rewrite !map_app. apply Permutation_app; [apply (nq_nb _ _ C)|]. cbn [map]. rewrite (nq_id _ _ C). reflexivity. }
      apply IH.
      + constructor; [exact A1|exact B1| |].
        * unfold get_nodes at 1 2. rewrite A2, B2. fold (get_nodes (remove_node mm1 (n_id (nc_node a)))). fold (get_nodes (remove_node mm2 (n_id (nc_node b)))).
          rewrite (remove_idw _ _ (gs_g _ _ S)), (remove_idw _ _ (gs_h _ _ S)), (gs_nodes _ _ S), (nq_id _ _ C). reflexivity.
        * intros x0 y0. rewrite A4, B4, (nq_id _ _ C), !(gs_adj _ _ S). reflexivity.
      + rewrite (is_subset_sim _ _ _ _ F Cl). destruct (is_subset acc2 _); [exact F|]. apply Forall2_app; [exact F|repeat constructor; apply Cl].
  Qed.
  Lemma triangulate_sim u1 u2 r1 r2 : ue u1 -> ue u2 -> gsim u1 u2 -> triangulate o1 u1 = Ok r1 -> triangulate o2 u2 = Ok r2 -> Forall2 clsim (snd r1) (snd r2).
  Proof using H1 H2.
    intros E1 E2 S. unfold triangulate. destruct (duplicate_ok u1 (gs_g _ _ S) E1) as (D1 & D2 & D3). destruct (duplicate_ok u2 (gs_h _ _ S) E2) as (D1' & D2' & D3').
    assert (El : List.length (g_nodes u1) = List.length (g_nodes u2)). { pose proof (gsim_ids _ _ S) as E. apply (f_equal (@List.length Z)) in E. unfold ids, dkeys in E. rewrite !map_length in E. exact E. }
    rewrite El. apply tri_loop_sim; [|constructor]. constructor; [exact D1|exact D1'| |].
    - assert (G : forall u, ug u -> ue u -> get_nodes (duplicate u) = get_nodes u).
      { intros u U E. unfold duplicate. destruct (fold_add_nodes n_id (get_nodes u) g_empty (ug_empty n_id)) as [U0 [A0 I0]]. destruct (fold_add_edges n_id (get_edges u) _ U0 (ue_und _ E)) as [U1 [A1 I1]].
        unfold get_nodes at 1. rewrite I1.
        - rewrite fold_add_nodes_eq. { cbn [g_nodes g_empty List.app]. rewrite nodes_self by apply (ug_kid _ _ U). reflexivity. } simpl. rewrite nodes_ids by apply (ug_kid _ _ U). apply (ug_keys _ _ U).
        - intros e He. rewrite !I0. rewrite nodes_ids by apply (ug_kid _ _ U). split; right.
          + apply (ug_in _ _ U _ (n_id (e_j e))). apply (ue_adj _ E). exists e. split; auto. split; auto. apply (ue_ne _ E); auto.
          + apply (ug_in _ _ U _ (n_id (e_i e))). apply (ue_adj _ E). exists e. split; auto. split; auto. apply (ue_ne _ E); auto. }
      rewrite (G u1 (gs_g _ _ S) E1), (G u2 (gs_h _ _ S) E2). apply (gs_nodes _ _ S).
    - intros x y. rewrite D3, D3'. apply (gs_adj _ _ S).
  Qed.
End Loop.
