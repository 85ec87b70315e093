(** Printed networks read back; cliques and separation sets. *)
From Coq Require Import Ascii Sorting.Sorted.
From Verif Require Import Py M_Graph M_Node M_Pptc M_Serde M_Csv M_Text M_Str Spec SpecNet SpecPot SpecSer SpecText SpecStr L_Base L_Ids L_UG L_Moral L_Csv L_Text L_P4 L_Str L_Serde L_Build L_Csv2 SpecPrint.
Open Scope nat_scope.
Local Open Scope list_scope.

Lemma lacks_free c s : lacks c s -> free c s.
Proof. intros H. exact H. Qed.

(** ** one node, one arc *)
Lemma fields_join l : l <> [] -> Forall (free ",") l -> fields "," (join "," l) = l.
Proof. intros H F. rewrite fields_split. apply split_join_c; auto. Qed.

Lemma read_node_ok n : free "|" (n_name n) -> n_values n <> [] -> Forall (free ",") (n_values n) ->
  read_node (node_str n) = Some (n_id n, n_name n, n_values n).
Proof.
  intros H1 H2 H3. unfold read_node, node_str.
  change (str_of_Z (n_id n) ++ "|" ++ n_name n ++ "|" ++ join "," (n_values n))%string with (str_of_Z (n_id n) ++ String "|" (n_name n ++ String "|" (join "," (n_values n))))%string.
  rewrite cut_free by (apply int_free; vm_compute; [discriminate|right; lia]). rewrite integer_str. rewrite cut_free by exact H1. rewrite fields_join; auto.
Qed.
Lemma chop_app a : chop (a ++ "-") = a.
Proof. induction a as [|x a IH]; [reflexivity|]. cbn [String.append chop]. rewrite IH. destruct a; reflexivity. Qed.
Lemma sapp_assoc a b c : ((a ++ b) ++ c)%string = (a ++ (b ++ c))%string.
Proof. induction a as [|x a IH]; [reflexivity|]. cbn [String.append]. rewrite IH. reflexivity. Qed.
Lemma read_arc_ok (e : edge bnode) : e_t e = DIRECTED -> read_arc (edge_str n_id e) = Some (ends_of e).
Proof.
  intros E. unfold read_arc, edge_str, edge_key. rewrite E.
  replace (str_of_Z (n_id (e_i e)) ++ "->" ++ str_of_Z (n_id (e_j e)))%string with ((str_of_Z (n_id (e_i e)) ++ "-") ++ String ">" (str_of_Z (n_id (e_j e))))%string by (rewrite sapp_assoc; reflexivity).
  rewrite cut_free. { rewrite chop_app, !integer_str. reflexivity. }
  apply free_app. split; [apply int_free; vm_compute; [discriminate|right; lia]|]. apply free_cons. split; [discriminate|apply free_nil].
Qed.

(** ** the whole text *)
Lemma bar_node n : has_bar (node_str n) = true.
Proof. unfold has_bar, node_str. apply existsb_exists. exists "|"%char. split; [|reflexivity]. assert (A : forall a b, In "|"%char (list_ascii_of_string (a ++ String "|" b))).
  { induction a as [|x a IH]; intros b; simpl; auto. } apply A. Qed.
Lemma bar_free s : free "|" s -> has_bar s = false.
Proof. intros H. unfold has_bar. destruct (existsb _ _) eqn:E; auto. apply existsb_exists in E. destruct E as (x & H1 & H2). apply Ascii.eqb_eq in H2. subst. contradiction. Qed.
Lemma key_free c (e : edge bnode) : nat_of_ascii c <> 45 -> (nat_of_ascii c < 48 \/ 57 < nat_of_ascii c) -> c <> ">"%char -> c <> "-"%char -> e_t e = DIRECTED -> free c (edge_str n_id e).
Proof.
  intros H1 H2 H3 H4 E. unfold edge_str, edge_key. rewrite E. apply free_app. split; [apply int_free; auto|]. apply free_app. split; [|apply int_free; auto].
  apply free_cons. split; [congruence|]. apply free_cons. split; [congruence|apply free_nil].
Qed.
Lemma key_some (e : edge bnode) : e_t e = DIRECTED -> is_blank (edge_str n_id e) = false.
Proof. intros E. unfold edge_str, edge_key. rewrite E. destruct (str_of_Z (n_id (e_i e))); reflexivity. Qed.
Lemma node_free n : free line_feed (n_name n) -> Forall (free line_feed) (n_values n) -> free line_feed (node_str n).
Proof.
  intros H1 H2. unfold node_str. apply free_app. split; [apply int_free; vm_compute; [discriminate|left; lia]|]. apply free_cons. split; [discriminate|]. apply free_app. split; auto.
  apply free_cons. split; [discriminate|]. apply join_free_c; auto. discriminate.
Qed.
Lemma filter_all {A} (f : A -> bool) l : (forall x, In x l -> f x = true) -> filter f l = l.
Proof. induction l as [|x l IH]; intros H; simpl; auto. rewrite (H x), IH; simpl; auto. intros y Hy. apply H. right. auto. Qed.
Lemma filter_none {A} (f : A -> bool) l : (forall x, In x l -> f x = false) -> filter f l = [].
Proof. induction l as [|x l IH]; intros H; simpl; auto. rewrite (H x), IH; simpl; auto. intros y Hy. apply H. right. auto. Qed.

Lemma lines ns es : ns <> [] -> Forall (free line_feed) ns -> Forall (free line_feed) es ->
  fields line_feed (join newline ns ++ newline ++ join newline es) = (ns ++ match es with [] => [EmptyString] | _ => es end)%list.
Proof.
  intros Hn Fn Fe. rewrite fields_split. change (newline ++ join newline es)%string with (String line_feed (join newline es)).
  rewrite split_app, split_join_c by auto. f_equal. destruct es as [|e es]; [reflexivity|]. apply split_join_c; auto. discriminate.
Qed.

Lemma read_graph (g : graph bnode) : get_nodes g <> [] ->
  (forall n, In n (get_nodes g) -> lacks "|" (n_name n) /\ lacks line_feed (n_name n) /\ n_values n <> [] /\ forall v, In v (n_values n) -> lacks "," v /\ lacks line_feed v) ->
  (forall e, In e (get_edges g) -> e_t e = DIRECTED) ->
  read_network (graph_str n_id node_str g) = Some (map (fun n => (n_id n, n_name n, n_values n)) (get_nodes g), map ends_of (get_edges g)).
Proof.
  intros Hn HN HE. unfold read_network, graph_str. generalize dependent (get_edges g). generalize dependent (get_nodes g). clear g. intros ns Hn HN es HE.
  rewrite lines.
  2:{ destruct ns; [congruence|discriminate]. }
  2:{ apply Forall_map, Forall_forall. intros n H. destruct (HN n H) as (H1 & H2 & H3 & H4). apply node_free; auto. apply Forall_forall. intros v Hv. apply H4; auto. }
  2:{ apply Forall_map, Forall_forall. intros e H. apply key_free; auto; try discriminate; vm_compute; left; lia. }
  set (rest := match map (edge_str n_id) es with [] => [EmptyString] | _ => map (edge_str n_id) es end).
  assert (R1 : filter has_bar rest = []).
  { unfold rest. destruct es as [|e es]; [reflexivity|]. apply filter_none. intros x Hx. apply in_map_iff in Hx. destruct Hx as (f & <- & Hf). apply bar_free, key_free; auto; try discriminate; vm_compute; right; lia. }
  assert (R2 : filter (fun l => negb (has_bar l || is_blank l)) rest = map (edge_str n_id) es).
  { unfold rest. destruct es as [|e es]; [reflexivity|]. apply filter_all. intros x Hx. apply in_map_iff in Hx. destruct Hx as (f & <- & Hf). rewrite key_some by auto. rewrite bar_free; [reflexivity|]. apply key_free; auto; try discriminate; vm_compute; right; lia. }
  rewrite !filter_app, R1, R2, app_nil_r. rewrite filter_all by (intros x Hx; apply in_map_iff in Hx; destruct Hx as (n & <- & _); apply bar_node).
  rewrite (filter_none _ (map node_str ns)) by (intros x Hx; apply in_map_iff in Hx; destruct Hx as (n & <- & _); rewrite bar_node; reflexivity). cbn [List.app].
  rewrite (every_map read_node node_str (fun n => (n_id n, n_name n, n_values n))).
  2:{ intros n H. destruct (HN n H) as (H1 & H2 & H3 & H4). apply read_node_ok; auto. apply Forall_forall. intros v Hv. apply H4; auto. }
  rewrite (every_map read_arc (edge_str n_id) ends_of); [reflexivity|]. intros e H. apply read_arc_ok; auto.
Qed.

Lemma ends_once ops : NoDup (map ends_of (get_edges (b_g (build ops)))).
Proof.
  induction ops as [|op ops IH] using rev_ind; [constructor|]. unfold build. rewrite fold_left_app. cbn [fold_left]. fold (build ops). pose proof (build_inv ops) as BI.
  destruct op as [n|x y]; cbn [bstep bbn_add_node bbn_add_edge b_g].
  - unfold get_edges. rewrite add_node_edges. exact IH.
  - unfold get_edges, put_edge, add_ends. cbn [g_edges]. rewrite !add_node_edges. rewrite dset_ends; [|apply (bi_key _ _ BI)|reflexivity].
    destruct (in_dec _ _ _) as [H|H]; [exact IH|]. apply NoDup_rev in IH. rewrite <- (rev_involutive (map _ _ ++ _)). apply NoDup_rev. rewrite rev_app_distr. cbn [rev List.app]. constructor; auto. rewrite <- in_rev. exact H.
Qed.

Theorem c94_text ops : net_vars ops <> [] -> showable ops -> exists es,
  read_network (graph_str n_id node_str (b_g (build ops))) = Some (map (fun i => (i, net_name ops i, net_dom ops i)) (net_vars ops), es) /\ arcs_in_order ops es.
Proof.
  intros Hv HS. pose proof (build_inv ops) as BI. set (b := build ops) in *.
  assert (Hid : map n_id (get_nodes (b_g b)) = net_vars ops).
  { rewrite <- (bi_ids _ _ BI). unfold get_nodes, dvals, ids, dkeys. rewrite map_map. apply map_ext_in. intros [k n] H. apply (bi_kid _ _ BI k n H). }
  assert (Hof : forall n, In n (get_nodes (b_g b)) -> node_of ops (n_id n) = Some n).
  { intros n H. rewrite <- (bi_get _ _ BI). unfold get_nodes, dvals in H. apply in_map_iff in H. destruct H as ([k m] & E & H). cbn [snd] in E. subst m.
    rewrite (bi_kid _ _ BI k n H). apply dget_In_NoDup; [|exact H]. change (NoDup (ids (b_g b))). rewrite (bi_ids _ _ BI). apply firsts_NoDup. }
  exists (map ends_of (get_edges (b_g b))). split.
  2:{ split; [apply ends_once|]. intros j. apply edges_order. }
  rewrite read_graph.
  - do 2 f_equal. rewrite <- Hid, map_map. apply map_ext_in. intros n H. unfold net_name, net_dom. rewrite (Hof n H). reflexivity.
  - intros E. apply Hv. rewrite <- Hid, E. reflexivity.
  - intros n H. assert (Hi : In (n_id n) (net_vars ops)) by (rewrite <- Hid; apply in_map; auto). specialize (HS _ Hi). unfold net_name, net_dom in HS. rewrite (Hof n H) in HS. exact HS.
  - intros e H. unfold get_edges, dvals in H. apply in_map_iff in H. destruct H as ([k e'] & <- & H). apply (bi_key _ _ BI k e' H).
Qed.

(** ** cliques *)
Lemma c94_contains c i : contains c i = true <-> In i (cl_nodes c).
Proof.
  unfold contains. rewrite Nat.ltb_lt. split.
  - intros H. destruct (filter _ _) as [|x l] eqn:E; [simpl in H; lia|]. assert (Hx : In x (filter (fun n => Z.eqb n i) (cl_nodes c))) by (rewrite E; left; auto).
    apply filter_In in Hx. destruct Hx as [H1 H2]. apply Z.eqb_eq in H2. subst. auto.
  - intros H. assert (Hx : In i (filter (fun n => Z.eqb n i) (cl_nodes c))) by (apply filter_In; split; auto; apply Z.eqb_refl). destruct (filter _ _); [destruct Hx|simpl; lia].
Qed.
Lemma c94_superset c d : is_superset c d = true <-> incl (cl_nodes d) (cl_nodes c).
Proof. unfold is_superset. apply subset_spec. Qed.
Lemma inter_In c d : forall i, In i (filter (fun x => mem x (cl_nodes d)) (cl_nodes c)) <-> in_both c d i.
Proof. intros i. rewrite filter_In, mem_In. reflexivity. Qed.
Lemma c94_sepset c d : let s := get_sep_set c d in
  (forall i, In i (ss_nodes s) <-> in_both c d i) /\ (NoDup (cl_nodes c) -> NoDup (ss_nodes s)) /\ (is_empty s = true <-> forall i, ~ in_both c d i) /\ ss_left s = c /\ ss_right s = d.
Proof.
  cbv zeta. unfold get_sep_set, mk_sepset. pose proof (inter_In c d) as I. unfold is_empty.
  assert (E : exists l r m, intersects c d = (l, r, m, snd (intersects c d))) by (destruct (intersects c d) as [[[a b] e] f]; exists a, b, e; reflexivity).
  destruct E as (x & y & z & E). assert (J : forall i, In i (snd (intersects c d)) <-> in_both c d i).
  { intros i. unfold intersects. rewrite <- I. destruct (filter _ _) as [|a l]; [reflexivity|]. cbn [snd]. apply isort_In. }
  rewrite E. cbn [ss_nodes ss_left ss_right]. rewrite E. split; [|split; [|split; [|auto]]].
  - intros i. rewrite filter_In, mem_In, J. unfold in_both. tauto.
  - apply NoDup_filter.
  - rewrite Nat.eqb_eq. split.
    + intros L i H. apply J in H. destruct (snd (intersects c d)); [destruct H|discriminate].
    + intros H. destruct (snd (intersects c d)) as [|i l]; [reflexivity|]. exfalso. apply (H i), J. left. auto.
Qed.
