(** Adjustment on concrete networks. *)
From Verif Require Import Py M_Graph M_Node M_Pptc M_Nx M_Do Spec SpecNet SpecPot SpecEv SpecNx SpecDo SpecAce SpecSep SpecDoor L_Base L_Sums L_Table L_Do L_Apply L_Net L_P4 L_Cut L_Check Ex L_R1 L_R4 L_R6 L_Do2 L_P9 L_Sep4 L_Door2.
Open Scope nat_scope.

Definition overlapsb (N : net) (Zs : list Z) (x : Z) (xv : string) : bool :=
  forallb (fun ws => qeqb (marginal N no_evidence Zs (asg_of Zs ws)) 0%Qc || negb (qeqb (marginal N no_evidence (x :: Zs) (upd (asg_of Zs ws) x xv)) 0%Qc)) (cartesian (map (dom N) Zs)).
Lemma marginal_ext N vs a b : (forall v, In v vs -> a v = b v) -> marginal N no_evidence vs a = marginal N no_evidence vs b.
Proof.
  intros E. apply sums_ext. intros c. replace (same_on vs c b) with (same_on vs c a); auto. unfold same_on. induction vs as [|v vs IH]; simpl; auto. rewrite E by (left; auto). f_equal. apply IH. intros; apply E; right; auto.
Qed.
Lemma overlapsb_ok N Zs x xv : overlapsb N Zs x xv = true -> overlaps N Zs x xv.
Proof.
  intros H a Ha Hm Hz. unfold overlapsb in H. rewrite forallb_forall in H. specialize (H _ (map_okon _ _ _ Ha)).
  assert (E : forall v, In v Zs -> asg_of Zs (map a Zs) v = a v) by (intros; apply (asg_of_in (dom N)); auto).
  rewrite (marginal_ext N Zs _ a E) in H.
  rewrite (marginal_ext N (x :: Zs) _ (upd a x xv)) in H.
  - apply orb_true_iff in H. destruct H as [H|H]; [apply qeqb_true in H; tauto|]. apply negb_true_iff, qeqb_false in H. tauto.
  - intros v Hv. unfold upd. destruct (Z.eqb_spec v x); auto. destruct Hv as [Hv|Hv]; [congruence|]. auto.
Qed.

Definition backdoorb (es : list (Z * Z)) (p : list Z) : bool := match p with a :: b :: _ => existsb (fun e => Z.eqb (fst e) b && Z.eqb (snd e) a) es | _ => false end.
Lemma has_edge (es : list (Z * Z)) u v : existsb (fun e => Z.eqb (fst e) u && Z.eqb (snd e) v) es = true <-> In (u, v) es.
Proof.
  rewrite existsb_exists. split.
  - intros ([a b] & Hi & H). apply andb_true_iff in H. rewrite !Z.eqb_eq in H. simpl in H. destruct H as [-> ->]. auto.
  - intros H. exists (u, v). split; auto. simpl. rewrite !Z.eqb_refl. auto.
Qed.
Lemma backdoorb_ok es p : backdoorb es p = true <-> backdoor es p.
Proof. destruct p as [|a [|b p]]; simpl; try (split; [discriminate|tauto]). apply has_edge. Qed.
Definition backdoors_inactiveb (d : digraph) (Zs : list Z) (x y : Z) : bool :=
  match get_all_paths d x y with
  | Ok ps => forallb (fun p => negb (backdoorb (dg_edges d) p) || match is_active_path d p (EvSet Zs) with Ok false => true | _ => false end) ps
  | Err _ => false
  end.
Lemma backdoors_inactiveb_ok d Zs x y : backdoors_inactiveb d Zs x y = true -> backdoors_inactive d Zs x y.
Proof.
  unfold backdoors_inactiveb, backdoors_inactive. destruct (get_all_paths d x y) as [ps|]; [|discriminate]. intros H. exists ps. split; auto. intros p Hp Hb. rewrite forallb_forall in H. specialize (H p Hp).
  apply backdoorb_ok in Hb. rewrite Hb in H. simpl in H. destruct (is_active_path d p (EvSet Zs)) as [[|]|]; auto; discriminate.
Qed.
(** [D] holds [x] and the children of its members, but nothing of [Zs] *)
Definition no_descb (N : net) (Zs : list Z) (x : Z) (D : list Z) : bool :=
  mem x D && forallb (fun v => forallb (fun p => negb (mem p D) || mem v D) (par N v)) (vars N) && forallb (fun z => negb (mem z D)) Zs.
Lemma no_descb_ok N Zs x D : no_descb N Zs x D = true -> forall z, In z Zs -> ~ path (is_parent N) x z.
Proof.
  unfold no_descb. rewrite !andb_true_iff, !forallb_forall. intros ((H1 & H2) & H3) z Hz Hp. specialize (H3 z Hz). apply negb_true_iff in H3. rewrite mem_In in H1.
  assert (Hc : forall u v, path (is_parent N) u v -> In u D -> In v D).
  { intros u v P. induction P as [|u v w [A1 A2] _ IH]; auto. intros Hu. apply IH. specialize (H2 v A1). rewrite forallb_forall in H2. specialize (H2 u A2).
    rewrite (proj2 (mem_In u D) Hu) in H2. simpl in H2. apply mem_In. auto. }
  apply (Hc x z Hp) in H1. apply mem_In in H1. congruence.
Qed.
(** no backdoor path has a collider, by the code's own test without evidence *)
Definition backdoors_plainb (d : digraph) (x y : Z) : bool :=
  dagb d && match get_all_paths d x y with
  | Ok ps => forallb (fun p => negb (backdoorb (dg_edges d) p) || match is_active_path d p (EvSet []) with Ok true => true | _ => false end) ps
  | Err _ => false
  end.
Lemma backdoors_plainb_ok d x y : In x (dg_nodes d) -> In y (dg_nodes d) -> x <> y -> backdoors_plainb d x y = true ->
  forall p z, simple_path (dg_edges d) x y p -> backdoor (dg_edges d) p -> ~ collider_on (dg_edges d) p z.
Proof.
  intros Hx Hy Hxy H p z Hp Hb (a & b & T & C). unfold backdoors_plainb in H. apply andb_true_iff in H. destruct H as [D H]. destruct (dagb_ok d D) as [G A].
  destruct (all_paths_ok d (dgood_graph d G) x y Hx Hy Hxy) as (ps & E & Hps). rewrite E in H. rewrite forallb_forall in H. specialize (H p (proj2 (Hps p) Hp)).
  apply backdoorb_ok in Hb. rewrite Hb in H. simpl in H. destruct (is_active_path d p (EvSet [])) as [[|]|] eqn:Ea; try discriminate.
  assert (Hl : 3 <= List.length p). { destruct T as (l & r & ->). rewrite app_length. simpl. lia. }
  destruct (Hp) as (_ & Hc & _). destruct (c34 d p [] G A Hl Hc) as (b' & Eb & Hb'). rewrite Ea in Eb. injection Eb as <-. pose proof (proj1 Hb' eq_refl) as Ho. rewrite open_nil in Ho. apply (Ho a z b T C).
Qed.

(** ** networks where the sets found are of no use *)
(** the graph [g_desc]: 0 <- 2 -> 1 -> 3, 0 -> 1 *)
Definition w_x := new_node 0 "x" ["0"; "1"]%string [qfrac 1 2; qfrac 1 2; qfrac 1 4; qfrac 3 4].
Definition w_m := new_node 1 "m" ["0"; "1"]%string [qfrac 9 10; qfrac 1 10; qfrac 2 5; qfrac 3 5; qfrac 1 3; qfrac 2 3; qfrac 1 5; qfrac 4 5].
Definition w_c := new_node 2 "c" ["0"; "1"]%string [qfrac 1 3; qfrac 2 3].
Definition w_y := new_node 3 "y" ["0"; "1"]%string [qfrac 4 5; qfrac 1 5; qfrac 1 10; qfrac 9 10].
Definition mediated : list bop := [AddNode w_x; AddNode w_m; AddNode w_c; AddNode w_y; AddEdge w_c w_x; AddEdge w_c w_m; AddEdge w_m w_y; AddEdge w_x w_m].
(** the graph [g_coll]: 0 <- 1 -> 4, 2 above 0 and 1, 3 above 1 and 4 *)
Definition v_x := new_node 0 "x" ["0"; "1"]%string [qfrac 1 2; qfrac 1 2; qfrac 1 3; qfrac 2 3; qfrac 1 4; qfrac 3 4; qfrac 1 5; qfrac 4 5].
Definition v_a := new_node 1 "a" ["0"; "1"]%string [qfrac 1 3; qfrac 2 3; qfrac 9 10; qfrac 1 10; qfrac 1 4; qfrac 3 4; qfrac 1 5; qfrac 4 5].
Definition v_b := new_node 2 "b" ["0"; "1"]%string [qfrac 1 2; qfrac 1 2].
Definition v_c := new_node 3 "c" ["0"; "1"]%string [qfrac 1 3; qfrac 2 3].
Definition v_y := new_node 4 "y" ["0"; "1"]%string [qfrac 9 10; qfrac 1 10; qfrac 1 3; qfrac 2 3; qfrac 1 4; qfrac 3 4; qfrac 1 5; qfrac 4 5].
Definition collided : list bop := [AddNode v_x; AddNode v_a; AddNode v_b; AddNode v_c; AddNode v_y;
  AddEdge v_a v_x; AddEdge v_a v_y; AddEdge v_b v_x; AddEdge v_b v_a; AddEdge v_c v_a; AddEdge v_c v_y].
Definition wrongb (N : net) (r : res (list Z)) (x : Z) (xv : string) (y : Z) (yv : string) : bool :=
  match r with Ok Zs => overlapsb N Zs x xv && negb (qeqb (do_prob N x xv y yv) (adjusting N Zs x xv y yv)) | Err _ => false end.
Lemma wrongb_ok N r x xv y yv : wrongb N r x xv y yv = true -> exists Zs, r = Ok Zs /\ overlaps N Zs x xv /\ do_prob N x xv y yv <> adjusting N Zs x xv y yv.
Proof.
  unfold wrongb. destruct r as [Zs|]; [|discriminate]. intros H. apply andb_true_iff in H. destruct H as [H1 H2]. exists Zs. split; auto. split; [apply overlapsb_ok; auto|]. apply negb_true_iff, qeqb_false in H2. auto.
Qed.
Lemma c62_minimal_refuted : exists ops o x xv y yv Z0, let N := net_of ops in well_shaped ops /\ connected ops /\ acyclic (is_parent N) /\ stochastic N /\ ord_ok o /\
  In x (vars N) /\ In xv (dom N x) /\ In y (vars N) /\ In yv (dom N y) /\ x <> y /\ ~ is_parent N y x /\
  (forall p z, simple_path (dg_edges (net_graph ops)) x y p -> backdoor (dg_edges (net_graph ops)) p -> ~ collider_on (dg_edges (net_graph ops)) p z) /\
  get_minimal_confounders o (net_graph ops) x y = Ok Z0 /\ overlaps N Z0 x xv /\ do_prob N x xv y yv <> adjusting N Z0 x xv y yv.
Proof.
  destruct (wrongb_ok (net_of mediated) (get_minimal_confounders ord_asc (net_graph mediated) 0 3) 0%Z "0"%string 3%Z "0"%string) as (Z0 & E1 & E2 & E3); [vm_compute; reflexivity|].
  exists mediated, ord_asc, 0%Z, "0"%string, 3%Z, "0"%string, Z0. cbv zeta.
  split; [apply well_shapedb_ok; vm_compute; reflexivity|]. split; [apply connectedb_ok; vm_compute; reflexivity|].
  split; [apply rankedb_ok with (fun z => Z.to_nat (if Z.eqb z 2 then 0 else z + 1)); vm_compute; reflexivity|]. split; [apply stochasticb_ok; vm_compute; reflexivity|]. split; [apply ord_asc_ok|].
  split; [apply (proj1 (mem_In _ _)); vm_compute; reflexivity|]. split; [apply (proj1 (mem_In _ _)); vm_compute; reflexivity|].
  split; [apply (proj1 (mem_In _ _)); vm_compute; reflexivity|]. split; [apply (proj1 (mem_In _ _)); vm_compute; reflexivity|].
  split; [discriminate|]. split; [intros [_ H]; apply (proj2 (mem_In _ _)) in H; vm_compute in H; discriminate|].
  split; [apply backdoors_plainb_ok; [apply (proj1 (mem_In _ _)); vm_compute; reflexivity|apply (proj1 (mem_In _ _)); vm_compute; reflexivity|discriminate|vm_compute; reflexivity]|].
  split; [exact E1|]. split; [exact E2|exact E3].
Qed.
Lemma c62_all_refuted : exists ops o x xv y yv Z0, let N := net_of ops in well_shaped ops /\ connected ops /\ acyclic (is_parent N) /\ stochastic N /\ ord_ok o /\
  In x (vars N) /\ In xv (dom N x) /\ In y (vars N) /\ In yv (dom N y) /\ x <> y /\ ~ is_parent N y x /\
  get_all_confounders o (net_graph ops) x y = Ok Z0 /\ overlaps N Z0 x xv /\ do_prob N x xv y yv <> adjusting N Z0 x xv y yv.
Proof.
  destruct (wrongb_ok (net_of collided) (get_all_confounders ord_asc (net_graph collided) 0 4) 0%Z "0"%string 4%Z "0"%string) as (Z0 & E1 & E2 & E3); [vm_compute; reflexivity|].
  exists collided, ord_asc, 0%Z, "0"%string, 4%Z, "0"%string, Z0. cbv zeta.
  split; [apply well_shapedb_ok; vm_compute; reflexivity|]. split; [apply connectedb_ok; vm_compute; reflexivity|].
  split; [apply rankedb_ok with (fun z => Z.to_nat (if Z.leb 2 z then (if Z.eqb z 4 then 3 else 0) else (if Z.eqb z 1 then 1 else 2))); vm_compute; reflexivity|]. split; [apply stochasticb_ok; vm_compute; reflexivity|]. split; [apply ord_asc_ok|].
  split; [apply (proj1 (mem_In _ _)); vm_compute; reflexivity|]. split; [apply (proj1 (mem_In _ _)); vm_compute; reflexivity|].
  split; [apply (proj1 (mem_In _ _)); vm_compute; reflexivity|]. split; [apply (proj1 (mem_In _ _)); vm_compute; reflexivity|].
  split; [discriminate|]. split; [intros [_ H]; apply (proj2 (mem_In _ _)) in H; vm_compute in H; discriminate|].
  split; [exact E1|]. split; [exact E2|exact E3].
Qed.

(** two parents of [x], one of which has a parent of its own: g -> p -> x <- q, x -> y <- q *)
Definition s_g := new_node 1 "g" ["0"; "1"]%string [qfrac 1 3; qfrac 2 3].
Definition s_p := new_node 2 "p" ["0"; "1"]%string [qfrac 1 2; qfrac 1 2; qfrac 1 5; qfrac 4 5].
Definition s_q := new_node 3 "q" ["0"; "1"]%string [qfrac 1 4; qfrac 3 4].
Definition s_x := new_node 4 "x" ["0"; "1"]%string [qfrac 1 2; qfrac 1 2; qfrac 1 3; qfrac 2 3; qfrac 1 4; qfrac 3 4; qfrac 1 5; qfrac 4 5].
Definition s_y := new_node 5 "y" ["0"; "1"]%string [qfrac 9 10; qfrac 1 10; qfrac 1 3; qfrac 2 3; qfrac 1 4; qfrac 3 4; qfrac 1 5; qfrac 4 5].
Definition two_sides : list bop := [AddNode s_g; AddNode s_p; AddNode s_q; AddNode s_x; AddNode s_y; AddEdge s_g s_p; AddEdge s_p s_x; AddEdge s_q s_x; AddEdge s_x s_y; AddEdge s_q s_y].
