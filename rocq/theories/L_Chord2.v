(** The cliques of built networks: chordal graph, maximal cliques, order of elimination. *)
From Verif Require Import Py M_Graph M_Node M_Pptc Spec SpecNet SpecEv SpecChord L_Base L_UG L_Ids L_Elim L_Tri L_Moral L_Build L_Apply L_Net L_Shape L_Init L_Read L_Claims L_P1 L_Chord.
Open Scope nat_scope.

Lemma duplicate_nodes g : ug g -> ue g -> g_nodes (duplicate g) = g_nodes g.
Proof.
  intros U E. unfold duplicate. destruct (fold_add_nodes n_id (get_nodes g) g_empty (ug_empty n_id)) as [U0 [A0 I0]].
  destruct (fold_add_edges n_id (get_edges g) _ U0 (ue_und _ E)) as [U1 [A1 I1]]. rewrite I1.
  - rewrite fold_add_nodes_eq. simpl. rewrite nodes_self; auto. apply (ug_kid _ _ U). simpl. rewrite nodes_ids; [apply (ug_keys _ _ U)|apply (ug_kid _ _ U)].
  - intros e He. rewrite !I0. rewrite nodes_ids by apply (ug_kid _ _ U). split; right.
    + apply (ug_in _ _ U _ (n_id (e_j e))). apply (ue_adj _ E). exists e. split; auto. split; auto. apply (ue_ne _ E); auto.
    + apply (ug_in _ _ U _ (n_id (e_i e))). apply (ue_adj _ E). exists e. split; auto. split; auto. apply (ue_ne _ E); auto.
Qed.
Theorem triangulate_steps o size g : ord_ok o -> ug g -> ue g -> (forall k n, In (k, n) (g_nodes g) -> n_weight n = size k) ->
  exists m' steps, triangulate o g = Ok (m', map mk_clique (keep [] (sets steps))) /\ eliminates size (ids g) (adj g) steps /\
    (forall x y, adj m' x y <-> adj g x y \/ exists K, In K (sets steps) /\ fill K x y).
Proof.
  intros Ho U E Hw. destruct (duplicate_ok g U E) as [U' [I' A']]. unfold triangulate.
  destruct (tri_loop_steps o size Ho (List.length (g_nodes g)) g (duplicate g) [] U U') as [m' [steps [F1 [F2 [_ F5]]]]].
  - intros x y. apply A'.
  - rewrite I'. apply incl_refl.
  - rewrite (duplicate_nodes g U E). exact Hw.
  - rewrite I'. unfold ids, dkeys. rewrite map_length. auto.
  - exists m', steps. split; [exact F1|]. split; auto. rewrite I' in F2. eapply eliminates_ext; [exact F2|]. intros. apply A'.
Qed.

(** what the list of cliques has to do with an elimination *)
Lemma kept_steps steps c : In c (map mk_clique (keep [] (sets steps))) -> exists v nbrs, In (v, nbrs) steps /\ same_members (cl_nodes c) (v :: nbrs).
Proof.
  intros H. apply in_map_iff in H. destruct H as [K [<- HK]]. apply kept_sub in HK. unfold sets in HK. apply in_map_iff in HK. destruct HK as [[v nbrs] [<- Hs]].
  exists v, nbrs. split; [exact Hs|]. intros x. cbn [cl_nodes mk_clique fst snd]. rewrite in_app_iff. simpl. tauto.
Qed.
Lemma steps_kept steps v nbrs : In (v, nbrs) steps -> exists c, In c (map mk_clique (keep [] (sets steps))) /\ incl (v :: nbrs) (cl_nodes c).
Proof.
  intros H. assert (HK : In (nbrs ++ [v]) (sets steps)) by (apply in_map_iff; exists (v, nbrs); auto). destruct (kept_cover _ _ HK) as [B [HB I]].
  exists (mk_clique B). split; [apply in_map; exact HB|]. intros x Hx. apply I. apply in_app_iff. simpl in *. tauto.
Qed.
Lemma moral_on ops : well_shaped ops -> on (vars (net_of ops)) (moral_edge (net_of ops)).
Proof.
  intros H. pose proof (net_shape ops H) as HN. constructor; [|apply moral_edge_sym|apply (ns_nd _ HN)].
  assert (Q : forall i x, In i (vars (net_of ops)) -> In x (par (net_of ops) i ++ [i]) -> In x (vars (net_of ops))).
  { intros i x Hi Hx. apply in_app_or in Hx. destruct Hx as [Hx|[<-|[]]]; [apply (ns_ends _ HN _ _ Hx)|exact Hi]. }
  intros x y (A & i & Hi & Hx & Hy). split; [exact (Q i x Hi Hx)|]. split; [exact (Q i y Hi Hy)|exact A].
Qed.
Definition share (cs : list clique) (x y : Z) : Prop := x <> y /\ exists c, In c cs /\ In x (cl_nodes c) /\ In y (cl_nodes c).
Lemma share_final N V size steps : eliminates size V (moral_edge N) steps -> on V (moral_edge N) ->
  forall x y, share (map mk_clique (keep [] (sets steps))) x y <-> final (moral_edge N) steps x y.
Proof.
  intros He H x y. split.
  - intros (A & c & Hc & Hx & Hy). apply in_map_iff in Hc. destruct Hc as [K [<- HK]]. apply kept_sub in HK. right. exists K. split; [exact HK|]. split; auto.
  - intros Hf. assert (Hn : x <> y). { destruct Hf as [Q|(K & _ & _ & _ & Q)]; [apply Q|exact Q]. }
    split; [exact Hn|]. destruct (final_cover size V _ steps He H [x; y]) as [K [HK I]].
    + discriminate.
    + destruct Hf as [Q|(K & HK & Qx & Qy & _)].
      * destruct (on_in _ _ H _ _ Q) as (Ix & Iy & _). intros z [<-|[<-|[]]]; assumption.
      * pose proof (sets_in _ _ _ _ He H K HK) as J. intros z [<-|[<-|[]]]; apply J; assumption.
    + pose proof (final_sym _ _ steps H x y Hf) as Hg. intros a b [<-|[<-|[]]] [<-|[<-|[]]] Q; auto; congruence.
    + destruct (kept_cover _ _ HK) as [B [HB J]]. exists (mk_clique B). split; [apply in_map; exact HB|]. split; apply J, I; simpl; auto.
Qed.
Lemma chordal_ext V (E E' : Z -> Z -> Prop) : (forall x y, E x y <-> E' x y) -> chordal V E -> chordal V E'.
Proof.
  intros Q H c (A & B & C & D) Hl. destruct (H c) as (i & j & I1 & I2 & I3 & I4); [|exact Hl|].
  - split; [exact A|]. split; [exact B|]. split; [intros k Hk; apply Q, C, Hk|apply Q, D].
  - exists i, j. rewrite <- Q. auto.
Qed.

Definition result (N : net) (cs : list clique) (steps : list (Z * list Z)) : Prop :=
  eliminates (fun i => Z.of_nat (List.length (dom N i))) (vars N) (moral_edge N) steps /\
  (forall c, In c cs -> exists v nbrs, In (v, nbrs) steps /\ same_members (cl_nodes c) (v :: nbrs)) /\
  (forall v nbrs, In (v, nbrs) steps -> exists c, In c cs /\ incl (v :: nbrs) (cl_nodes c)).
Definition chordal_cover (N : net) (cs : list clique) : Prop :=
  chordal (vars N) (share cs) /\
  (forall C, C <> [] -> incl C (vars N) -> all_joined (share cs) C -> exists c, In c cs /\ incl C (cl_nodes c)) /\
  (chordal (vars N) (moral_edge N) <-> forall c, In c cs -> all_joined (moral_edge N) (cl_nodes c)).

Lemma moral_dec ops : well_shaped ops -> exists e : Z -> Z -> bool, forall x y, moral_edge (net_of ops) x y <-> e x y = true.
Proof.
  intros H. destruct (moralize_build ops H) as (u & _ & _ & _ & _ & _ & A). exists (fun x y => mem y (get_neighbors u x)). intros x y. rewrite <- A. split; intros Q; [apply mem_In|apply mem_In]; exact Q.
Qed.
Lemma steps_result ops cs steps : well_shaped ops -> cs = map mk_clique (keep [] (sets steps)) ->
  eliminates (fun i => Z.of_nat (List.length (dom (net_of ops) i))) (vars (net_of ops)) (moral_edge (net_of ops)) steps ->
  result (net_of ops) cs steps /\ chordal_cover (net_of ops) cs.
Proof.
  intros H -> He. pose proof (moral_on ops H) as HO. split.
  - split; [exact He|]. split; [apply kept_steps|apply steps_kept].
  - pose proof (share_final _ _ _ _ He HO) as SF. split; [|split].
    + apply chordal_ext with (2 := final_chordal _ _ _ _ He HO). intros x y. rewrite SF. reflexivity.
    + intros C H1 H2 H3. destruct (final_cover _ _ _ _ He HO C H1 H2) as [K [HK I]]; [intros x y Hx Hy Hn; apply SF, H3; auto|].
      destruct (kept_cover _ _ HK) as [B [HB J]]. exists (mk_clique B). split; [apply in_map; exact HB|]. intros x Hx. apply J, I, Hx.
    + split; [intros Hc c Hin|].
      2: { intros Hj. apply chordal_ext with (2 := final_chordal _ _ _ _ He HO). intros x y. split; [|intros Q; left; exact Q]. rewrite <- SF. intros (A & c & Hc & Hx & Hy). exact (Hj c Hc x y Hx Hy A). }
      apply in_map_iff in Hin. destruct Hin as [K [<- HK]]. apply kept_sub in HK. exact (no_fill _ _ _ _ He HO (moral_dec ops H) Hc K HK).
Qed.

Lemma triangulate_result ops o : well_shaped ops -> ord_ok o -> let N := net_of ops in
  exists u m cs steps, moralize (b_g (build ops)) = Ok u /\ triangulate o u = Ok (m, cs) /\ result N cs steps /\ chordal_cover N cs /\
    (forall x y, In y (get_neighbors m x) <-> share cs x y).
Proof.
  intros H Ho N. destruct (moralize_build ops H) as (u & E & U & UE & G & I & A).
  destruct (triangulate_steps o (fun i => Z.of_nat (List.length (dom N i))) u Ho U UE) as (m & steps & T1 & T2 & T3).
  { intros k n Hk. rewrite G in Hk. destruct (bg_node _ _ _ (build_good ops) k n Hk) as (_ & _ & Q & _). unfold n_weight. rewrite Q. reflexivity. }
  assert (T2' : eliminates (fun i => Z.of_nat (List.length (dom N i))) (vars N) (moral_edge N) steps).
  { unfold ids, dkeys in T2. rewrite I in T2. eapply eliminates_ext; [exact T2|]. intros x y. apply A. }
  destruct (steps_result ops _ steps H eq_refl T2') as [R1 R2]. exists u, m, (map mk_clique (keep [] (sets steps))), steps.
  split; [exact E|]. split; [exact T1|]. split; [exact R1|]. split; [exact R2|].
  intros x y. change (In y (get_neighbors m x)) with (adj m x y). rewrite T3, (share_final _ _ _ _ T2' (moral_on ops H)). unfold final. change (adj u x y) with (In y (get_neighbors u x)). rewrite A. reflexivity.
Qed.

Lemma compile_result ops o j : well_shaped ops -> ord_ok o -> compile o (build ops) = Ok j -> exists steps, result (net_of ops) (jt_cliques j) steps /\ chordal_cover (net_of ops) (jt_cliques j).
Proof.
  intros H Ho Ej. set (N := net_of ops). pose proof (build_good ops) as HB. pose proof (net_shape ops H) as HN.
  destruct (compile_steps N (net_name ops) (build ops) HN HB o Ho) as (u & m & Ks & j0 & Fs & (U1 & U2 & U3 & U4 & U5) & C1 & _ & C3 & C4 & _).
  rewrite C1 in Ej. injection Ej as <-.
  destruct (triangulate_steps o (fun i => Z.of_nat (List.length (dom N i))) u Ho U2 U3) as (m' & steps & T1 & T2 & T3).
  { intros k n Hk. rewrite U4 in Hk. unfold gp, set_graph_nodes in Hk. cbn [g_nodes] in Hk. unfold hp in Hk. apply in_map_iff in Hk. destruct Hk as [[k' n'] [E Hk]].
    destruct (bg_node _ _ _ HB k' n' Hk) as (_ & _ & Q & _). unfold with_pot in E. simpl in E. inversion E; subst. unfold n_weight. simpl. rewrite Q. reflexivity. }
  rewrite T1 in U5. injection U5 as _ E5. assert (T2' : eliminates (fun i => Z.of_nat (List.length (dom N i))) (vars N) (moral_edge N) steps).
  { assert (Eids : ids u = vars N). { unfold ids. rewrite U4. apply (ids_gp N (net_name ops) (build ops) HB). } rewrite Eids in T2. eapply eliminates_ext; [exact T2|]. exact C3. }
  exists steps. apply (steps_result ops); auto. rewrite C4. symmetry. exact E5.
Qed.
Lemma session_result ops o h : well_shaped ops -> ord_ok o -> valid_history (net_of ops) h -> exists j steps, session o ops h = Ok j /\ result (net_of ops) (jt_cliques j) steps /\ chordal_cover (net_of ops) (jt_cliques j).
Proof.
  intros H Ho Hh. destruct (session_shows ops o h H Ho Hh) as (b & j & j' & A1 & A2 & _ & A4 & _).
  destruct (apply_net _ _ _ o (net_shape ops H) (build_good ops) (ws_names _ H) Ho (build_fresh ops H)) as (j0 & j1 & B1 & _ & _ & _ & B5 & B6 & _).
  destruct (compile_result ops o j0 H Ho B1) as (steps & R). exists j', steps. split; [exact (session_eq o ops h b j j' A1 A2)|].
  assert (E : jt_cliques j' = jt_cliques j0).
  { rewrite A1 in B6. injection B6 as _ ->. transitivity (jt_cliques j1); [|apply (same_cl _ _ B5)]. unfold jt_cliques. rewrite A4. reflexivity. }
  rewrite E. exact R.
Qed.

(** ** deciding whether the moral graph is chordal *)
Definition no_fillb (ops : list bop) : bool :=
  match moralize (b_g (build ops)) with
  | Ok u => match triangulate ord_id u with
            | Ok (_, cs) => forallb (fun c => forallb (fun x => forallb (fun y => (x =? y)%Z || mem y (get_neighbors u x)) (cl_nodes c)) (cl_nodes c)) cs
            | Err _ => false end
  | Err _ => false end.
Lemma no_fillb_ok ops : well_shaped ops -> (no_fillb ops = true <-> chordal (vars (net_of ops)) (moral_edge (net_of ops))).
Proof.
  intros H. destruct (triangulate_result ops ord_id H ord_id_ok) as (u & m & cs & steps & E & T & _ & (_ & _ & Q) & _). rewrite Q. clear Q.
  unfold no_fillb. rewrite E, T. destruct (moralize_build ops H) as (u' & E' & _ & _ & _ & _ & A). rewrite E in E'. injection E' as <-.
  rewrite forallb_forall. split; intros F c Hc; specialize (F c Hc).
  - intros x y Hx Hy Hn. rewrite forallb_forall in F. specialize (F x Hx). rewrite forallb_forall in F. specialize (F y Hy). apply A. apply orb_true_iff in F.
    destruct F as [F|F]; [apply Z.eqb_eq in F; congruence|apply mem_In; exact F].
  - apply forallb_forall. intros x Hx. apply forallb_forall. intros y Hy. apply orb_true_iff. destruct (Z.eqb_spec x y) as [Q|Q]; [left; reflexivity|right]. apply mem_In, A, F; auto.
Qed.
