(** Witnesses for the properties of the adjustment sets. *)
From Verif Require Import Py M_Graph M_Nx M_Gen M_Do Spec SpecNx SpecDo L_Base L_Check L_UG L_Nx L_Do L_Do2.
Open Scope nat_scope.

(** CPython iterates over small sets of small non-negative integers in ascending order *)
Definition ord_asc : Ord := {| zord := fun _ l => isort Z.leb l; sord := fun _ l => l |}.
Lemma ord_asc_ok : ord_ok ord_asc.
Proof. split; intros i l; [apply isort_perm|apply Permutation_refl]. Qed.

Definition pairb (a b : Z * Z) : bool := Z.eqb (fst a) (fst b) && Z.eqb (snd a) (snd b).
Lemma pairb_iff a b : pairb a b = true <-> a = b.
Proof. destruct a, b; unfold pairb; simpl. rewrite andb_true_iff, !Z.eqb_eq. split; [intros [-> ->]; auto|intros E; inversion E; auto]. Qed.
Fixpoint ndb (l : list (Z * Z)) : bool := match l with [] => true | a :: t => negb (existsb (pairb a) t) && ndb t end.
Lemma ndb_ok l : ndb l = true -> NoDup l.
Proof.
  induction l as [|a l IH]; simpl; intros H; constructor; apply andb_true_iff in H as [H1 H2]; auto.
  intros C. apply negb_true_iff in H1. assert (existsb (pairb a) l = true); [|congruence]. apply existsb_exists. exists a. split; auto. apply pairb_iff; auto.
Qed.
Fixpoint ndz (l : list Z) : bool := match l with [] => true | a :: t => negb (existsb (Z.eqb a) t) && ndz t end.
Lemma ndz_ok l : ndz l = true -> NoDup l.
Proof.
  induction l as [|a l IH]; simpl; intros H; constructor; apply andb_true_iff in H as [H1 H2]; auto.
  intros C. apply negb_true_iff in H1. assert (existsb (Z.eqb a) l = true); [|congruence]. apply existsb_exists. exists a. split; auto. apply Z.eqb_refl.
Qed.
Definition dagb (d : digraph) : bool :=
  ndz (dg_nodes d) && ndb (dg_edges d) && forallb (fun e => existsb (Z.eqb (fst e)) (dg_nodes d) && existsb (Z.eqb (snd e)) (dg_nodes d)) (dg_edges d) && is_dag d.
Lemma existsb_Z a l : existsb (Z.eqb a) l = true <-> In a l.
Proof. rewrite existsb_exists. split; [intros (b & H & E); apply Z.eqb_eq in E; subst; auto|intros H; exists a; split; auto; apply Z.eqb_refl]. Qed.
Lemma dagb_ok d : dagb d = true -> graph_ok (dg_nodes d) (dg_edges d) /\ acyclic (arc (dg_edges d)).
Proof.
  intros H. unfold dagb in H. apply andb_true_iff in H as [H H4]. apply andb_true_iff in H as [H H3]. apply andb_true_iff in H as [H1 H2].
  assert (G : graph_ok (dg_nodes d) (dg_edges d)).
  { split; [apply ndz_ok; auto|]. split; [apply ndb_ok; auto|]. intros u v K. rewrite forallb_forall in H3. apply H3, andb_true_iff in K. simpl in K. rewrite !existsb_Z in K. tauto. }
  split; auto. apply (is_dag_iff d (dgood_graph d G)); auto.
Qed.
Fixpoint chainb (es : list (Z * Z)) (p : list Z) : bool :=
  match p with a :: ((b :: _) as t) => (existsb (pairb (a, b)) es || existsb (pairb (b, a)) es) && chainb es t | _ => true end.
Lemma existsb_pair a l : existsb (pairb a) l = true <-> In a l.
Proof. rewrite existsb_exists. split; [intros (b & H & E); apply pairb_iff in E; subst; auto|intros H; exists a; split; auto; apply pairb_iff; auto]. Qed.
Lemma chainb_ok es p : chainb es p = true -> chain (sym (arc es)) p.
Proof.
  induction p as [|a [|b t] IH]; auto; try (intros; exact I). intros H. change ((existsb (pairb (a, b)) es || existsb (pairb (b, a)) es) && chainb es (b :: t) = true) in H.
  apply andb_true_iff in H as [H1 H2]. split; [|apply IH; auto]. apply orb_true_iff in H1. rewrite !existsb_pair in H1. exact H1.
Qed.
Definition simpleb (es : list (Z * Z)) (x y : Z) (p : list Z) : bool :=
  ndz p && chainb es p && match hd_error p, hd_error (rev p) with Some a, Some b => Z.eqb a x && Z.eqb b y | _, _ => false end.
Lemma simpleb_ok es x y p : simpleb es x y p = true -> simple_path es x y p.
Proof.
  intros H. unfold simpleb in H. apply andb_true_iff in H as [H H3]. apply andb_true_iff in H as [H1 H2].
  destruct (hd_error p) as [a|] eqn:Ea; [|discriminate]. destruct (hd_error (rev p)) as [b|] eqn:Eb; [|discriminate]. apply andb_true_iff in H3 as [H3 H4].
  apply Z.eqb_eq in H3, H4. subst. split; [apply ndz_ok; auto|]. split; [apply chainb_ok; auto|auto].
Qed.
(** openness, by the code's own test, whose answers are right *)
Lemma openb_ok d p ev : dagb d = true -> chainb (dg_edges d) p = true -> 3 <= List.length p -> is_active_path d p (EvSet ev) = Ok true -> open_path (dg_edges d) ev p.
Proof.
  intros H1 H2 H3 H4. destruct (dagb_ok d H1) as [G A]. destruct (active_path_set d (dgood_graph d G) A ev p H3 (chainb_ok _ _ H2)) as (b & Eb & Hb). rewrite Eb in H4. injection H4 as ->. apply Hb; auto.
Qed.

(** x=0 has the descendant 1 on the backdoor path 0 <- 2 -> 1 -> 3 *)
Definition g_desc := mkDg [0; 1; 2; 3]%Z [(2, 0); (2, 1); (1, 3); (0, 1)]%Z.
(** x=0 <- a=1 -> y=4, with b=2 above x and a, c=3 above a and y *)
Definition g_coll := mkDg [0; 1; 2; 3; 4]%Z [(1, 0); (1, 4); (2, 0); (2, 1); (3, 1); (3, 4)]%Z.
(** x=0 -> m=1 -> y=2, with b=3 above m and y *)
Definition g_med := mkDg [0; 1; 2; 3]%Z [(0, 1); (1, 2); (3, 1); (3, 2)]%Z.

Lemma c35_descendant : exists o d x y Z0 z, ord_ok o /\ graph_ok (dg_nodes d) (dg_edges d) /\ acyclic (arc (dg_edges d)) /\
  get_minimal_confounders o d x y = Ok Z0 /\ In z Z0 /\ z <> x /\ path (arc (dg_edges d)) x z.
Proof.
  exists ord_asc, g_desc, 0%Z, 3%Z, [1]%Z, 1%Z. split; [apply ord_asc_ok|]. destruct (dagb_ok g_desc) as [G A]; [vm_compute; reflexivity|]. split; [exact G|]. split; [exact A|].
  split; [vm_compute; reflexivity|]. split; [simpl; auto|]. split; [lia|]. apply path_step with 1%Z; [|apply path_refl]. unfold arc; simpl; auto.
Qed.
Lemma c35_collider : exists o d x y Z0 p, ord_ok o /\ graph_ok (dg_nodes d) (dg_edges d) /\ acyclic (arc (dg_edges d)) /\ ~ In (y, x) (dg_edges d) /\
  get_minimal_confounders o d x y = Ok Z0 /\ simple_path (dg_edges d) x y p /\ backdoor (dg_edges d) p /\ open_path (dg_edges d) Z0 p.
Proof.
  exists ord_asc, g_coll, 0%Z, 4%Z, [1]%Z, [0; 2; 1; 3; 4]%Z. split; [apply ord_asc_ok|]. destruct (dagb_ok g_coll) as [G A]; [vm_compute; reflexivity|]. split; [exact G|]. split; [exact A|].
  split; [simpl; intuition congruence|]. split; [vm_compute; reflexivity|]. split; [apply simpleb_ok; vm_compute; reflexivity|]. split; [simpl; auto|].
  apply openb_ok; [vm_compute; reflexivity|vm_compute; reflexivity|simpl; lia|vm_compute; reflexivity].
Qed.
Lemma c50_refuted : exists o d x y Z0 p, ord_ok o /\ graph_ok (dg_nodes d) (dg_edges d) /\ acyclic (arc (dg_edges d)) /\ ~ In (y, x) (dg_edges d) /\
  get_all_confounders o d x y = Ok Z0 /\ simple_path (dg_edges d) x y p /\ backdoor (dg_edges d) p /\ open_path (dg_edges d) [] p /\ open_path (dg_edges d) Z0 p.
Proof.
  exists ord_asc, g_coll, 0%Z, 4%Z. eexists. exists [0; 1; 4]%Z. split; [apply ord_asc_ok|]. destruct (dagb_ok g_coll) as [G A]; [vm_compute; reflexivity|]. split; [exact G|]. split; [exact A|].
  split; [simpl; intuition congruence|]. split; [vm_compute; reflexivity|]. split; [apply simpleb_ok; vm_compute; reflexivity|]. split; [simpl; auto|].
  split; (apply openb_ok; [vm_compute; reflexivity|vm_compute; reflexivity|simpl; lia|vm_compute; reflexivity]).
Qed.
Lemma c51_refuted : exists o d x y M p, ord_ok o /\ graph_ok (dg_nodes d) (dg_edges d) /\ acyclic (arc (dg_edges d)) /\
  get_minimal_mediators o d x y = Ok M /\ simple_path (dg_edges d) x y p /\ directed (dg_edges d) p /\ 3 <= List.length p /\ open_path (dg_edges d) M p.
Proof.
  exists ord_asc, g_med, 0%Z, 2%Z. eexists. exists [0; 1; 2]%Z. split; [apply ord_asc_ok|]. destruct (dagb_ok g_med) as [G A]; [vm_compute; reflexivity|]. split; [exact G|]. split; [exact A|].
  split; [vm_compute; reflexivity|]. split; [apply simpleb_ok; vm_compute; reflexivity|]. split; [unfold directed, arc; simpl; auto|]. split; [simpl; lia|].
  apply openb_ok; [vm_compute; reflexivity|vm_compute; reflexivity|simpl; lia|vm_compute; reflexivity].
Qed.

(** statements over [graph_ok] *)
Lemma c34 : forall d p ev, graph_ok (dg_nodes d) (dg_edges d) -> acyclic (arc (dg_edges d)) -> 3 <= List.length p -> chain (sym (arc (dg_edges d))) p ->
  exists b, is_active_path d p (EvSet ev) = Ok b /\ (b = true <-> open_path (dg_edges d) ev p).
Proof. intros d p ev G A. exact (active_path_set d (dgood_graph d G) A ev p). Qed.
Lemma c34_short : forall d a b ev, exists r, is_active_path d [a; b] (EvSet ev) = Ok r /\ (r = true <-> ~ In a ev /\ ~ In b ev).
Proof.
  intros d a b ev. eexists. split; [reflexivity|]. cbn [ev_items]. rewrite negb_true_iff, orb_false_iff.
  destruct (mem_spec a ev); destruct (mem_spec b ev); split; intros [? ?]; split; auto; try discriminate; tauto.
Qed.
Lemma c35 : forall o d x y, ord_ok o -> graph_ok (dg_nodes d) (dg_edges d) -> acyclic (arc (dg_edges d)) -> In x (dg_nodes d) -> In y (dg_nodes d) -> x <> y ->
  exists Z0, get_minimal_confounders o d x y = Ok Z0 /\ NoDup Z0 /\
    (forall p, simple_path (dg_edges d) x y p -> backdoor (dg_edges d) p -> open_path (dg_edges d) [] p -> 3 <= List.length p -> ~ open_path (dg_edges d) Z0 p) /\
    (forall z, In z Z0 -> exists p, simple_path (dg_edges d) x y p /\ backdoor (dg_edges d) p /\ open_path (dg_edges d) [] p /\ inside p z).
Proof. intros o d x y Ho G A Hx Hy Hxy. exact (minimal_ok o d x y Ho (dgood_graph d G) A Hx Hy Hxy). Qed.
(** where no backdoor path has a collider and y is not a parent of x, all backdoor paths are blocked *)
Lemma c35_valid : forall o d x y, ord_ok o -> graph_ok (dg_nodes d) (dg_edges d) -> acyclic (arc (dg_edges d)) -> In x (dg_nodes d) -> In y (dg_nodes d) -> x <> y ->
  ~ In (y, x) (dg_edges d) -> (forall p z, simple_path (dg_edges d) x y p -> backdoor (dg_edges d) p -> ~ collider_on (dg_edges d) p z) ->
  exists Z0, get_minimal_confounders o d x y = Ok Z0 /\
    forall p, simple_path (dg_edges d) x y p -> backdoor (dg_edges d) p -> ~ open_path (dg_edges d) Z0 p.
Proof.
  intros o d x y Ho G A Hx Hy Hxy Hyx Hc. destruct (c35 o d x y Ho G A Hx Hy Hxy) as (Z0 & E & _ & H & _). exists Z0. split; auto. intros p P1 P2. apply H; auto.
  - apply open_nil. intros a z b T C. apply (Hc p z P1 P2). exists a, b; auto.
  - destruct (simple_length _ _ _ _ Hxy P1) as (a & r & ->). destruct r as [|c r]; [|simpl; lia]. destruct P1 as (_ & _ & _ & P4). simpl in P4. injection P4 as ->. simpl in P2. tauto.
Qed.
Lemma c50 : forall o d x y, ord_ok o -> graph_ok (dg_nodes d) (dg_edges d) -> acyclic (arc (dg_edges d)) -> In x (dg_nodes d) -> In y (dg_nodes d) -> x <> y ->
  exists Z0, get_all_confounders o d x y = Ok Z0 /\ NoDup Z0 /\
    (forall z, In z Z0 <-> z <> x /\ z <> y /\ ~ path (arc (dg_edges d)) x z /\
       (forall p, simple_path (dg_edges d) x y p -> backdoor (dg_edges d) p -> ~ open_path (dg_edges d) [] p -> ~ collider_on (dg_edges d) p z) /\
       exists p, simple_path (dg_edges d) x y p /\ backdoor (dg_edges d) p /\ open_path (dg_edges d) [] p /\ In z p).
Proof. intros o d x y Ho G A Hx Hy Hxy. exact (all_ok o d x y Ho (dgood_graph d G) A Hx Hy Hxy). Qed.
Lemma c51 : forall o d x y, ord_ok o -> graph_ok (dg_nodes d) (dg_edges d) -> acyclic (arc (dg_edges d)) -> In x (dg_nodes d) -> In y (dg_nodes d) -> x <> y ->
  exists M, get_minimal_mediators o d x y = Ok M /\ NoDup M /\
    (forall p, simple_path (dg_edges d) x y p -> directed (dg_edges d) p -> 3 <= List.length p ->
       (forall z q, inside p z -> simple_path (dg_edges d) x y q -> ~ collider_on (dg_edges d) q z) -> ~ open_path (dg_edges d) M p) /\
    (forall z, In z M -> (exists p, simple_path (dg_edges d) x y p /\ directed (dg_edges d) p /\ inside p z) /\
       forall q, simple_path (dg_edges d) x y q -> ~ collider_on (dg_edges d) q z).
Proof.
  intros o d x y Ho G A Hx Hy Hxy. destruct (mediators_ok o d x y Ho (dgood_graph d G) A Hx Hy Hxy) as (M & E & HN & H1 & H2).
  pose proof (open_directed d x y A Hxy) as OD.
  exists M. split; auto. split; auto. split.
  - intros p P1 P2 P3 P4. apply OD in P2 as [P5 P6]; auto.
  - intros z Hz. destruct (H2 z Hz) as ((p & P1 & P2 & P3 & P4) & H3). split; auto. exists p. split; auto. split; auto. apply OD; auto.
Qed.
