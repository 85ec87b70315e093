(** The networkx functions meet their specification. *)
From Verif Require Import Py M_Nx Spec SpecNx L_Base L_Sums L_Table L_PD L_Forest L_UG.
Open Scope nat_scope.

Section Closure.
  Variables (V : list Z) (adj : Z -> list Z).
  Hypothesis Hadj : forall x y, In x V -> In y (adj x) -> In y V.
  Let R x y := In y (adj x).

  Lemma sadds_In (l s : list Z) x : In x (fold_left sadd l s) <-> In x s \/ In x l.
  Proof. revert s. induction l as [|y l IH]; intros s; simpl; [tauto|]. rewrite IH, sadd_In. intuition. Qed.
  Lemma sadds_NoDup (l s : list Z) : NoDup s -> NoDup (fold_left sadd l s).
  Proof. revert s. induction l as [|y l IH]; intros s H; simpl; auto. apply IH, sadd_NoDup; auto. Qed.
  Lemma sadds_le (l s : list Z) : List.length s <= List.length (fold_left sadd l s).
  Proof.
    revert s. induction l as [|y l IH]; intros s; simpl; auto. etransitivity; [|apply IH]. unfold sadd. destruct (mem y s); auto. rewrite app_length. simpl. lia.
  Qed.
  Lemma sadds_same (l s : list Z) : List.length (fold_left sadd l s) = List.length s -> incl l s.
  Proof.
    revert s. induction l as [|y l IH]; intros s H; simpl in *. intros x [].
    destruct (mem_spec y s) as [Hy|Hy].
    - assert (E : sadd s y = s) by (unfold sadd; destruct (mem_spec y s); tauto). rewrite E in H. intros x [<-|Hx]; auto. apply (IH s H x Hx).
    - exfalso. assert (E : sadd s y = s ++ [y]) by (unfold sadd; destruct (mem_spec y s); tauto).
      pose proof (sadds_le l (sadd s y)) as L. rewrite E, app_length in L. rewrite E in H. simpl in L. lia.
  Qed.

  Lemma closure_sound f : forall seen x, In x (closure f adj seen) -> exists s, In s seen /\ path R s x.
  Proof.
    induction f as [|f IH]; intros seen x; simpl. intros H. exists x. split; auto. apply path_refl.
    intros H. apply IH in H as (s & Hs & Hp). apply sadds_In in Hs as [Hs|Hs]; eauto. apply in_flat_map in Hs as (r & Hr & Hs). exists r. split; auto.
    apply path_step with s; auto.
  Qed.
  Lemma closure_mono f : forall seen, incl seen (closure f adj seen).
  Proof. induction f as [|f IH]; intros seen x Hx; simpl; auto. apply IH, sadds_In; auto. Qed.
  Lemma closed_closure f : forall seen, incl (flat_map adj seen) seen -> closure f adj seen = seen.
  Proof.
    induction f as [|f IH]; intros seen H; simpl; auto. assert (E : fold_left sadd (flat_map adj seen) seen = seen).
    { revert H. generalize (flat_map adj seen) as l. induction l as [|y l IHl]; intros H; simpl; auto. assert (sadd seen y = seen) as ->.
      { unfold sadd. destruct (mem_spec y seen); auto. exfalso. apply n, H; simpl; auto. } apply IHl. intros x Hx; apply H; simpl; auto. }
    rewrite E. apply IH; auto.
  Qed.
  Lemma closure_complete f : forall seen, NoDup seen -> incl seen V -> List.length V <= f + List.length seen ->
    forall s x, In s seen -> path R s x -> In x (closure f adj seen).
  Proof.
    assert (Hclosed : forall seen, incl (flat_map adj seen) seen -> forall s x, In s seen -> path R s x -> In x seen).
    { intros seen Hc s x Hs Hp. revert Hs. induction Hp as [s|s t x Hst Hp IH]; auto. intros Hs. apply IH, Hc, in_flat_map. exists s. auto. }
    induction f as [|f IH]; intros seen HN Hi Hl s x Hs Hp; simpl.
    - apply (Hclosed seen) with s; auto. intros y Hy. apply in_flat_map in Hy as (r & Hr & Hy). 
      assert (In y V) by (eapply Hadj; eauto). assert (incl V seen); [|auto]. apply NoDup_length_incl; auto.
    - destruct (Nat.eq_dec (List.length (fold_left sadd (flat_map adj seen) seen)) (List.length seen)) as [E|E].
      + apply sadds_same in E. apply closure_mono. apply sadds_In. left. apply (Hclosed seen E s); auto.
      + apply IH with s; auto.
        * apply sadds_NoDup; auto.
        * intros y Hy. apply sadds_In in Hy as [Hy|Hy]; auto. apply in_flat_map in Hy as (r & Hr & Hy). eapply Hadj; eauto.
        * pose proof (sadds_le (flat_map adj seen) seen). lia.
        * apply sadds_In; auto.
  Qed.
  Lemma closure_iff x y : In x V -> (In y (closure (List.length V) adj [x]) <-> path R x y).
  Proof.
    intros Hx. split.
    - intros H. apply closure_sound in H as (s & [<-|[]] & Hp); auto.
    - intros H. apply closure_complete with x; auto. repeat constructor; auto. intros z [<-|[]]; auto. lia. simpl; auto.
  Qed.
  Lemma closure_set l y : incl l V -> (In y (closure (List.length V) adj (fold_left sadd l [])) <-> exists x, In x l /\ path R x y).
  Proof.
    intros Hl. split.
    - intros H. apply closure_sound in H as (s & Hs & Hp). apply sadds_In in Hs as [[]|Hs]. eauto.
    - intros (x & Hx & Hp). apply closure_complete with x; auto. apply sadds_NoDup; constructor. intros z Hz. apply sadds_In in Hz as [[]|Hz]; auto. lia. apply sadds_In; auto.
  Qed.
End Closure.

(** ** well formed graphs *)
Record dgood (g : digraph) : Prop := {
  dg_nd : NoDup (dg_nodes g);
  dg_ne : NoDup (dg_edges g);
  dg_in : forall i j, In (i, j) (dg_edges g) -> In i (dg_nodes g) /\ In j (dg_nodes g) }.
Notation E g := (arc (dg_edges g)).

Lemma has_edge_iff g i j : dg_has_edge g i j = true <-> In (i, j) (dg_edges g).
Proof.
  unfold dg_has_edge. rewrite existsb_exists. split.
  - intros ([a b] & Hi & H). simpl in H. apply andb_true_iff in H as [H1 H2]. apply Z.eqb_eq in H1, H2. subst; auto.
  - intros H. exists (i, j). split; auto. simpl. rewrite !Z.eqb_refl. auto.
Qed.
Lemma has_edge_false g i j : dg_has_edge g i j = false <-> ~ In (i, j) (dg_edges g).
Proof. rewrite <- has_edge_iff. destruct (dg_has_edge g i j); split; congruence. Qed.
Lemma succs_In g i j : In j (succs g i) <-> In (i, j) (dg_edges g).
Proof.
  unfold succs. rewrite in_map_iff. split.
  - intros ([a b] & <- & H). apply filter_In in H as [H E]. simpl in *. apply Z.eqb_eq in E. subst; auto.
  - intros H. exists (i, j). split; auto. apply filter_In. split; auto. simpl. apply Z.eqb_refl.
Qed.
Lemma preds_In g i j : In i (preds g j) <-> In (i, j) (dg_edges g).
Proof.
  unfold preds. rewrite in_map_iff. split.
  - intros ([a b] & <- & H). apply filter_In in H as [H E]. simpl in *. apply Z.eqb_eq in E. subst; auto.
  - intros H. exists (i, j). split; auto. apply filter_In. split; auto. simpl. apply Z.eqb_refl.
Qed.
Lemma edge_list_In g : dgood g -> forall e, In e (edge_list g) <-> In e (dg_edges g).
Proof.
  intros G [i j]. unfold edge_list. rewrite in_flat_map. split.
  - intros (k & Hk & H). apply in_map_iff in H as (m & Em & H). injection Em as -> ->. apply succs_In; auto.
  - intros H. exists i. split; [apply (dg_in _ G) in H; tauto|]. apply in_map_iff. exists j. split; auto. apply succs_In; auto.
Qed.
Lemma adj_In nodes es i j : In j (ug_adj (u_of nodes es) i) <-> In (i, j) es \/ In (j, i) es.
Proof.
  simpl. assert (G : forall l, In j (fold_left (fun l e => if eqb (fst e) i then sadd l (snd e) else if eqb (snd e) i then sadd l (fst e) else l) es l) <-> In j l \/ In (i, j) es \/ In (j, i) es).
  { induction es as [|[a b] es IH]; intros l; simpl; [tauto|]. rewrite IH. clear IH.
    destruct (Z.eqb_spec a i) as [->|Ha]; [|destruct (Z.eqb_spec b i) as [->|Hb]]; rewrite ?sadd_In; split; intros H;
      repeat match goal with H : _ \/ _ |- _ => destruct H | H : (_, _) = (_, _) |- _ => inversion H; subst; clear H end; subst; rewrite ?sadd_In; auto 6; try tauto; try congruence. }
  rewrite G. simpl. tauto.
Qed.
Lemma path_iff {K} (R S : K -> K -> Prop) x y : (forall a b, R a b <-> S a b) -> (path R x y <-> path S x y).
Proof. intros H. split; apply path_mono; intros a b; apply H. Qed.

Lemma is_dag_iff g : dgood g -> (is_dag g = true <-> acyclic (E g)).
Proof.
  intros G. unfold is_dag. rewrite forallb_forall.
  assert (HA : forall x y, In x (dg_nodes g) -> In y (succs g x) -> In y (dg_nodes g)) by (intros x y _ Hy; apply succs_In, (dg_in _ G) in Hy; tauto).
  assert (HS : forall i, incl (succs g i) (dg_nodes g)) by (intros i y Hy; apply succs_In, (dg_in _ G) in Hy; tauto).
  assert (HP : forall x y, path (fun x y => In y (succs g x)) x y <-> path (E g) x y) by (intros; apply path_iff; intros; apply succs_In).
  split.
  - intros H x y Hxy Hp. assert (Hx : In x (dg_nodes g)) by (apply (dg_in _ G) in Hxy; tauto). specialize (H x Hx). apply negb_true_iff in H.
    assert (C : In x (closure (List.length (dg_nodes g)) (succs g) (fold_left sadd (succs g x) []))); [|apply mem_In in C; congruence].
    apply closure_set; auto. exists y. split; [apply succs_In; auto|apply HP; auto].
  - intros H i Hi. apply negb_true_iff. destruct (mem_spec i (closure (List.length (dg_nodes g)) (succs g) (fold_left sadd (succs g i) []))) as [C|]; auto. exfalso.
    apply closure_set in C as (x & Hx & Hp); auto. apply (H i x); [apply succs_In; auto|apply HP; auto].
Qed.

Lemma adj_nodes g : dgood g -> forall x y, In x (dg_nodes g) -> In y (ug_adj (u_of (dg_nodes g) (edge_list g)) x) -> In y (dg_nodes g).
Proof. intros G x y _ Hy. apply adj_In in Hy. rewrite !(edge_list_In g G) in Hy. destruct Hy as [Hy|Hy]; apply (dg_in _ G) in Hy; tauto. Qed.
Lemma adj_path g : dgood g -> forall x y, path (fun x y => In y (ug_adj (u_of (dg_nodes g) (edge_list g)) x)) x y <-> path (sym (E g)) x y.
Proof. intros G x y. apply path_iff. intros a b. rewrite adj_In, !(edge_list_In g G). reflexivity. Qed.

Lemma is_connected_iff g : dgood g -> dg_nodes g <> [] ->
  exists b, is_connected (u_of (dg_nodes g) (edge_list g)) = Ok b /\ (b = true <-> connected_on (dg_nodes g) (dg_edges g)).
Proof.
  intros G Hne. unfold is_connected. simpl ug_nodes. destruct (dg_nodes g) as [|r V] eqn:EV; [congruence|]. rewrite <- EV in *.
  eexists. split; [reflexivity|]. rewrite subset_spec.
  assert (HC : forall v, In v (closure (List.length (dg_nodes g)) (ug_adj (u_of (dg_nodes g) (edge_list g))) [r]) <-> path (sym (E g)) r v).
  { intros v. rewrite closure_iff. apply adj_path; auto. apply adj_nodes; auto. rewrite EV; simpl; auto. }
  split.
  - intros H u v Hu Hv. apply H, HC in Hu. apply H, HC in Hv. eapply path_trans; [|exact Hv]. apply path_sym; [unfold sym; tauto|auto].
  - intros H v Hv. apply HC. apply H; auto. rewrite EV; simpl; auto.
Qed.

Lemma has_path_iff g i j : dgood g -> In i (dg_nodes g) -> (has_path (u_of (dg_nodes g) (edge_list g)) i j = true <-> path (sym (E g)) i j).
Proof. intros G Hi. unfold has_path. rewrite mem_In. simpl ug_nodes. rewrite closure_iff; auto. apply adj_path; auto. apply adj_nodes; auto. Qed.

Lemma descendants_ok g i : dgood g -> In i (dg_nodes g) ->
  exists l, descendants g i = Ok l /\ forall j, In j l <-> j <> i /\ path (E g) i j.
Proof.
  intros G Hi. unfold descendants. assert (mem i (dg_nodes g) = true) as -> by (apply mem_In; auto). eexists. split; [reflexivity|].
  intros j. rewrite srem_In, closure_iff; auto; [|intros x y _ Hy; apply succs_In, (dg_in _ G) in Hy; tauto].
  rewrite (path_iff _ (E g)) by (intros; apply succs_In). intuition.
Qed.

(** ** the operations keep graphs well formed *)
Lemma add_node_nodes g i : dg_nodes (dg_add_node g i) = sadd (dg_nodes g) i.
Proof. unfold dg_add_node, sadd. destruct (mem i (dg_nodes g)); auto. Qed.
Lemma add_node_edges g i : dg_edges (dg_add_node g i) = dg_edges g.
Proof. unfold dg_add_node. destruct (mem i (dg_nodes g)); auto. Qed.
Lemma add_node_good g i : dgood g -> dgood (dg_add_node g i).
Proof.
  intros G. constructor; rewrite ?add_node_nodes, ?add_node_edges. apply sadd_NoDup, G. apply G.
  intros a b H. rewrite !sadd_In. apply (dg_in _ G) in H. tauto.
Qed.
Lemma add_edge_nodes g i j : dg_nodes (dg_add_edge g i j) = sadd (sadd (dg_nodes g) i) j.
Proof. unfold dg_add_edge. destruct (dg_has_edge _ i j); simpl; rewrite !add_node_nodes; auto. Qed.
Lemma sadd_in {K} `{EqB K} (l : list K) x : In x l -> sadd l x = l.
Proof. intros Hx. unfold sadd. destruct (mem_spec x l); tauto. Qed.
Lemma add_edge_nodes_in g i j : In i (dg_nodes g) -> In j (dg_nodes g) -> dg_nodes (dg_add_edge g i j) = dg_nodes g.
Proof. intros Hi Hj. rewrite add_edge_nodes, (sadd_in _ i), sadd_in; auto. Qed.
Lemma add_edge_edges g i j : dg_edges (dg_add_edge g i j) = if dg_has_edge g i j then dg_edges g else dg_edges g ++ [(i, j)].
Proof.
  unfold dg_add_edge. assert (E : dg_has_edge (dg_add_node (dg_add_node g i) j) i j = dg_has_edge g i j) by (unfold dg_has_edge; rewrite !add_node_edges; auto).
  rewrite E. destruct (dg_has_edge g i j); simpl; rewrite !add_node_edges; auto.
Qed.
Lemma add_edge_In g i j e : In e (dg_edges (dg_add_edge g i j)) <-> In e (dg_edges g) \/ e = (i, j).
Proof.
  rewrite add_edge_edges. destruct (dg_has_edge g i j) eqn:E.
  - apply has_edge_iff in E. split; auto. intros [H| ->]; auto.
  - rewrite in_app_iff. simpl. intuition.
Qed.
Lemma NoDup_snoc {A} (l : list A) x : NoDup l -> ~ In x l -> NoDup (l ++ [x]).
Proof. intros H Hx. apply NoDup_app_intro; auto. repeat constructor; auto. intros y Hy [<-|[]]. auto. Qed.
Lemma add_edge_good g i j : dgood g -> dgood (dg_add_edge g i j).
Proof.
  intros G. constructor.
  - rewrite add_edge_nodes. apply sadd_NoDup, sadd_NoDup, G.
  - rewrite add_edge_edges. destruct (dg_has_edge g i j) eqn:E; [apply G|]. apply NoDup_snoc; [apply G|]. apply has_edge_false; auto.
  - intros a b H. rewrite add_edge_nodes, !sadd_In. apply add_edge_In in H as [H|H]; [apply (dg_in _ G) in H; tauto|]. injection H as -> ->. auto.
Qed.
Lemma remove_edge_ok g i j : In (i, j) (dg_edges g) ->
  exists g', dg_remove_edge g i j = Ok g' /\ dg_nodes g' = dg_nodes g /\ (forall e, In e (dg_edges g') <-> In e (dg_edges g) /\ e <> (i, j)) /\
    dg_edges g' = filter (fun e => negb (eqb (fst e) i && eqb (snd e) j)) (dg_edges g).
Proof.
  intros H. unfold dg_remove_edge. apply has_edge_iff in H. rewrite H. eexists. split; [reflexivity|]. simpl. split; auto. split; auto.
  intros [a b]. rewrite filter_In. simpl. rewrite negb_true_iff, andb_false_iff, !Z.eqb_neq. split; intros [H1 H2]; split; auto.
  - intros E. injection E as -> ->. tauto.
  - destruct (Z.eq_dec a i); auto. subst. right. congruence.
Qed.
Lemma remove_edge_good g i j g' : dgood g -> dg_remove_edge g i j = Ok g' -> dgood g'.
Proof.
  intros G H. assert (Hi : In (i, j) (dg_edges g)). { unfold dg_remove_edge in H. destruct (dg_has_edge g i j) eqn:E; [|discriminate]. apply has_edge_iff; auto. }
  destruct (remove_edge_ok g i j Hi) as (g0 & E0 & N0 & H0 & F0). rewrite E0 in H. injection H as <-. constructor.
  - rewrite N0. apply G.
  - rewrite F0. apply NoDup_filter, G.
  - intros a b H. apply H0 in H as [H _]. rewrite N0. apply (dg_in _ G); auto.
Qed.
