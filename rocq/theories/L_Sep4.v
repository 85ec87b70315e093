(** Separation in the exported graph and the answers of the join tree. *)
From Verif Require Import Py M_Graph M_Node M_Pptc M_Nx M_GraphNx M_Do Spec SpecNet SpecPot SpecEv SpecNx SpecDo SpecSep L_Base L_PD L_UG L_Nx L_Do L_Apply L_Shape L_Net L_P1 L_P6 L_R6 L_Do2 L_Sep3.
Open Scope nat_scope.

Lemma net_graph_ok ops : well_shaped ops ->
  dg_nodes (net_graph ops) = net_vars ops /\ graph_ok (dg_nodes (net_graph ops)) (dg_edges (net_graph ops)) /\ same_arcs (net_of ops) (dg_edges (net_graph ops)).
Proof.
  intros HW. pose proof (build_good ops) as B. pose proof (net_shape ops HW) as HN. set (g := b_g (build ops)) in *.
  assert (K : dkeys (g_nodes g) = net_vars ops) by exact (bg_ids _ _ _ B).
  assert (ND : NoDup (dkeys (g_nodes g))) by (rewrite K; exact (ns_nd _ HN)).
  unfold net_graph, to_nx_graph. fold g. cbn [fst].
  rewrite (nx_nodes n_id (g_nodes g)); [|intros k n H; apply (bg_node _ _ _ B k n H)|exact ND].
  destruct (nx_edges n_id (g_edges g) (mkDg (dkeys (g_nodes g)) []) (dgood_nodes _ ND)) as (I1 & I2 & I3).
  assert (Ar : same_arcs (net_of ops) (dg_edges (fold_left (fun d ke => dg_add_edge d (n_id (e_i (snd ke))) (n_id (e_j (snd ke)))) (g_edges g) (mkDg (dkeys (g_nodes g)) [])))).
  { intros p v. rewrite I2. cbn [dg_edges In]. split.
    - intros [[]|(e & He & <- & <-)]. pose proof (bg_edge _ _ _ B e He) as H. split; auto. apply (ns_ends _ HN _ _ H).
    - intros [_ H]. right. destruct (bg_edge2 _ _ _ B p v H) as (e & He & E1 & E2). exists e. auto. }
  split; [|split; [|exact Ar]].
  - rewrite I3; [exact K|]. intros e He. cbn [dg_nodes]. rewrite K. pose proof (bg_edge _ _ _ B e He) as H. apply (ns_ends _ HN _ _ H).
  - split; [apply I1|]. split; [apply I1|]. intros u v Huv. apply (dg_in _ I1 u v Huv).
Qed.

Lemma inactive_separated d ev x y : graph_ok (dg_nodes d) (dg_edges d) -> acyclic (arc (dg_edges d)) -> In x (dg_nodes d) -> In y (dg_nodes d) -> x <> y -> ~ In x ev -> ~ In y ev ->
  (all_inactive d ev x y <-> separated (dg_edges d) ev x y).
Proof.
  intros G A Hx Hy Hxy Nx Ny. destruct (all_paths_ok d (dgood_graph d G) x y Hx Hy Hxy) as (ps & E & Hps).
  assert (Long : forall p, simple_path (dg_edges d) x y p -> p = [x; y] \/ 3 <= List.length p).
  { intros p (_ & _ & H1 & H2). destruct p as [|a [|b [|c p]]]; [discriminate| | |right; simpl; lia].
    - simpl in *. congruence.
    - simpl in *. left. congruence. }
  split.
  - intros (ps' & E' & H) p Hp Ho. rewrite E in E'. injection E' as <-. pose proof (H p (proj2 (Hps p) Hp)) as Hf. destruct (Long p Hp) as [->|Hl].
    + destruct (c34_short d x y ev) as (r & Er & Hr). rewrite Er in Hf. injection Hf as ->. destruct Hr as [_ Hr]. specialize (Hr (conj Nx Ny)). discriminate.
    + destruct Hp as (_ & Hc & _). destruct (c34 d p ev G A Hl Hc) as (b & Eb & Hb). rewrite Eb in Hf. injection Hf as ->. apply Hb in Ho. discriminate.
  - intros H. exists ps. split; auto. intros p Hp. apply Hps in Hp. destruct (Long p Hp) as [->|Hl].
    + exfalso. apply (H _ Hp). intros a z b (l & r & El). destruct l as [|? [|? [|? ?]]]; discriminate.
    + destruct (Hp) as (_ & Hc & _). destruct (c34 d p ev G A Hl Hc) as (b & Eb & Hb). rewrite Eb. destruct b; auto. exfalso. apply (H p Hp). apply Hb. auto.
Qed.

Lemma c61 : forall ops o o' h h' ev xs y, let N := net_of ops in let L := shown N (calls h) in let L' := shown N (calls h') in
  well_shaped ops -> connected ops -> acyclic (is_parent N) -> stochastic N -> ord_ok o -> ord_ok o' -> valid_history N h -> valid_history N h' ->
  In y (vars N) -> incl xs (vars N) -> incl ev (vars N) -> ~ In y ev -> ~ In y xs -> (forall x, In x xs -> ~ In x ev) ->
  (forall x, In x xs -> all_inactive (net_graph ops) ev x y) ->
  (forall z, In z ev -> pinned N L z) -> (forall i, In i (vars N) -> ~ In i ev -> ~ In i xs -> i <> y -> free N L i) ->
  (forall i v, In i (vars N) -> ~ In i xs -> In v (dom N i) -> L i v = L' i v) -> possible N L -> possible N L' ->
  exists j t j' t' m, session o ops h = Ok j /\ get_posteriors j = Ok t /\ session o' ops h' = Ok j' /\ get_posteriors j' = Ok t' /\
    dget t (net_name ops y) = Some m /\ dget t' (net_name ops y) = Some m.
Proof.
  intros ops o o' h h' ev xs y N L L' HW Hc HA HS Ho Ho' Hh Hh' Hy Hxs Hev Nye Nyx Nxe Hin Hp Hf Hs P P'.
  destruct (net_graph_ok ops HW) as (G1 & G2 & G3). pose proof (net_shape ops HW) as HN.
  destruct (session_exact ops o h HW Hc Ho Hh) as (j & t & A1 & A2 & _ & A3).
  destruct (session_exact ops o' h' HW Hc Ho' Hh') as (j' & t' & B1 & B2 & _ & B3).
  exists j, t, j', t', (map (fun v => (v, exact_posterior N L y v)) (dom N y)). do 4 (split; [assumption|]). split; [exact (A3 y Hy)|].
  rewrite (B3 y Hy). f_equal. apply map_ext. intros v. f_equal. symmetry.
  apply (dsep N HN HA HS (dg_edges (net_graph ops)) G3 xs y ev Hxs Hy Hev Nxe Nye L L'); auto.
  intros x Hx. apply inactive_separated; auto.
  - exact (es_acyclic N HA (dg_edges (net_graph ops)) G3).
  - rewrite G1. exact (Hxs x Hx).
  - rewrite G1. exact Hy.
  - intros ->. tauto.
Qed.

Lemma c61_graph : forall ops, well_shaped ops -> acyclic (is_parent (net_of ops)) ->
  dg_nodes (net_graph ops) = net_vars ops /\ same_arcs (net_of ops) (dg_edges (net_graph ops)) /\
  forall ev x y, In x (net_vars ops) -> In y (net_vars ops) -> x <> y -> ~ In x ev -> ~ In y ev ->
    (all_inactive (net_graph ops) ev x y <-> separated (dg_edges (net_graph ops)) ev x y).
Proof.
  intros ops HW HA. destruct (net_graph_ok ops HW) as (G1 & G2 & G3). split; auto. split; auto. intros ev x y Hx Hy. apply inactive_separated; auto; try (rewrite G1; auto).
  exact (es_acyclic (net_of ops) HA (dg_edges (net_graph ops)) G3).
Qed.
Lemma c61_posteriors : forall ops es xs y ev L L', let N := net_of ops in well_shaped ops -> acyclic (is_parent N) -> stochastic N -> same_arcs N es ->
  incl xs (vars N) -> In y (vars N) -> incl ev (vars N) -> (forall x, In x xs -> ~ In x ev) -> ~ In y ev ->
  (forall x, In x xs -> separated es ev x y) ->
  (forall z, In z ev -> pinned N L z) -> (forall i, In i (vars N) -> ~ In i ev -> ~ In i xs -> i <> y -> free N L i) ->
  (forall i v, In i (vars N) -> ~ In i xs -> In v (dom N i) -> L i v = L' i v) ->
  possible N L -> possible N L' -> forall v, exact_posterior N L y v = exact_posterior N L' y v.
Proof.
  intros ops es xs y ev L L' N HW HA HS HE Hxs Hy Hev Nxe Nye. exact (dsep N (net_shape ops HW) HA HS es HE xs y ev Hxs Hy Hev Nxe Nye L L').
Qed.
