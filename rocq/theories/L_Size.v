(** How large the tables and the join trees of a network are. *)
From Verif Require Import Py M_Graph M_Node M_Pptc M_Round Spec SpecNet SpecEv SpecRound L_Base L_Table L_Forest L_Root L_Good L_Elim L_Init L_Exact L_Apply L_Net L_Claims L_Hist L_P1 L_Door L_Round L_Round2 L_Round3 L_Round4.
Open Scope nat_scope.

Lemma size_perm dm l l' : Permutation l l' -> size dm l = size dm l'.
Proof. induction 1; simpl; lia. Qed.
Lemma size_pos dm l : (forall i, In i l -> dm i <> []) -> 1 <= size dm l.
Proof. induction l as [|x l IH]; intros H; simpl; auto. assert (dm x <> []) by (apply H; left; auto). destruct (dm x); [congruence|]. simpl. specialize (IH (fun i Hi => H i (or_intror Hi))). lia. Qed.
Lemma size_sub dm l : forall vs, NoDup l -> incl l vs -> (forall i, In i vs -> dm i <> []) -> size dm l <= size dm vs.
Proof.
  induction l as [|x l IH]; intros vs Hn Hi Hd. { simpl. apply size_pos; auto. }
  inversion Hn as [|? ? H1 H2]; subst. assert (Hx : In x vs) by (apply Hi; left; auto). apply in_split in Hx. destruct Hx as [a [b ->]].
  rewrite (size_perm dm (a ++ x :: b) (x :: a ++ b)) by (symmetry; apply Permutation_middle). simpl. apply Nat.mul_le_mono_l. apply IH; auto.
  - intros y Hy. assert (H : In y (a ++ x :: b)) by (apply Hi; right; auto). apply in_app_or in H. apply in_or_app. destruct H as [H|[->|H]]; auto. contradiction.
  - intros y Hy. apply Hd. apply in_app_or in Hy. apply in_or_app. simpl. tauto.
Qed.
Lemma tab_len dm l f : List.length (tab dm l f) = size dm l.
Proof. unfold tab. rewrite map_length, cartesian_len, size_vsize. auto. Qed.
Lemma pfn_len dm l : List.length (potential_from_nodes (map (fun i => (i, dm i)) l)) = size dm l.
Proof. unfold potential_from_nodes. rewrite map_length, cartesian_len, size_vsize, map_map. reflexivity. Qed.

Lemma nodes_len j : List.length (jt_nodes j) = List.length (jt_cliques j) + List.length (jt_sepsets j).
Proof. unfold jt_cliques, jt_sepsets, dvals. induction (jt_nodes j) as [|[k [c|s]] l IH]; simpl; lia. Qed.
Lemma cl_ids_nd j : JG j -> NoDup (map cl_id (jt_cliques j)).
Proof.
  intros HJ. pose proof (jg_keys _ HJ) as H. assert (K : forall k n, In (k, n) (jt_nodes j) -> k = j_id n) by apply HJ. revert H K. unfold jt_cliques, dvals, dkeys. induction (jt_nodes j) as [|[k n] l IH]; intros H K; simpl; [constructor|].
  simpl in H. inversion H as [|? ? H1 H2]; subst. assert (K' : forall k n, In (k, n) l -> k = j_id n) by (intros; apply K; right; auto). destruct n as [c|s]; simpl; auto. constructor; auto.
  intros Hc. apply H1. apply in_map_iff in Hc. destruct Hc as [d [Ed Hd]]. apply in_flat_map in Hd. destruct Hd as [n [Hn Hd]]. apply in_map_iff in Hn. destruct Hn as [[k' n'] [<- Hn]]. cbn [snd] in Hd. destruct n' as [c'|s']; [|destruct Hd]. destruct Hd as [->|[]].
  apply in_map_iff. exists (k', JC d). split; auto. cbn [fst]. pose proof (K' _ _ Hn) as X. cbn [j_id] in X. pose proof (K k (JC c) (or_introl eq_refl)) as Y. cbn [j_id] in Y. congruence.
Qed.
Lemma seps_fewer j : JG j -> List.length (jt_sepsets j) <= List.length (jt_cliques j).
Proof.
  intros HJ. destruct (jg_forest _ HJ) as [es [P F]]. rewrite <- (Permutation_length P), <- (map_length cl_id (jt_cliques j)), <- (map_length ends es).
  destruct (labelling (map cl_id (jt_cliques j)) (map ends es) (cl_ids_nd j HJ)) as [lab [_ [_ L]]]. { intros u v H. apply in_map_iff in H. destruct H as [s [E Hs]]. unfold ends in E. inversion E; subst. apply (Permutation_in _ P) in Hs. destruct (jg_ends _ HJ s Hs) as [A1 [A2 _]]. split; apply in_map; auto. }
  specialize (L F). lia.
Qed.
Lemma keep_len Ks : forall acc, List.length (keep acc Ks) <= List.length acc + List.length Ks.
Proof. induction Ks as [|K Ks IH]; intros acc; simpl; [lia|]. eapply Nat.le_trans; [apply IH|]. destruct (existsb _ acc); [lia|]. rewrite app_length. simpl. lia. Qed.
Lemma elim_len V adj Ks : elim V adj Ks -> List.length Ks = List.length V.
Proof. induction 1 as [|V V' v N adj Ks P H1 H2 H3 IH]; auto. rewrite (Permutation_length P). simpl. lia. Qed.
Lemma compile_len N nm b o j : nshape N -> bgood N nm b -> ord_ok o -> compile o b = Ok j -> List.length (jt_cliques j) <= List.length (vars N) /\ JG j.
Proof.
  intros HN HB Ho E. destruct (compile_full _ _ _ HN HB o Ho) as [u [Ks [j' [F [C1 [C2 [C3 [C4 [C5 [C6 [C7 [C8 [C9 [C10 [C11 [C12 _]]]]]]]]]]]]]]]]. rewrite E in C1. inversion C1; subst j'. split; auto.
  rewrite C4, map_length. eapply Nat.le_trans; [apply keep_len|]. simpl. rewrite (elim_len _ _ _ C2). auto.
Qed.

(** a number that bounds the tables of a network and its parts *)
Record room (B : nat) (N : net) : Prop := { rm_two : 2 <= B; rm_size : size (dom N) (vars N) <= B; rm_vars : List.length (vars N) <= B }.
Lemma jnet_tpos B N nm j : nshape N -> jnet N nm j -> jt_evid j = [] -> room B N -> walk_fuel j <= B -> small B (jkeys j) (jt_pots j) -> tpos B j.
Proof.
  intros HN HJ He [R1 R2 R3] HF HS. pose proof (jn_JG _ _ _ HJ) as JJ. pose proof (jn_hg _ _ _ HJ) as HG.
  assert (S1 : forall l, NoDup l -> incl l (vars N) -> size (dom N) l <= B). { intros l H1 H2. eapply Nat.le_trans; [apply size_sub with (vs := vars N); auto|auto]. intros i Hi. apply (ns_dom _ HN i Hi). }
  assert (Hv : forall i, In i (jt_bbn_ids j) -> In i (vars N)) by (intros i; apply (jn_ids _ _ _ HJ)).
  assert (Hc : forall c, In c (jt_cliques j) -> incl (cl_nodes c) (jt_bbn_ids j)). { intros c Hc i Hi. unfold jt_bbn_ids. apply sof_In. apply in_flat_map. eauto. }
  assert (Ht : forall ns, NoDup ns -> incl ns (jt_bbn_ids j) -> List.length (potential_from_nodes (h_nv (jt_heap j) ns)) <= B).
  { intros ns H1 H2. replace (h_nv (jt_heap j) ns) with (map (fun i => (i, dom N i)) ns). { rewrite pfn_len. apply S1; auto. intros i Hi; auto. }
    unfold h_nv. apply map_ext_in. intros i Hi. f_equal. unfold h_values. destruct (hg_node _ _ _ _ HG i (H2 i Hi)) as [n [E1 [_ [E3 _]]]]. rewrite E1. auto. }
  constructor; auto; try lia.
  - intros i n p Hi Hn Hp. destruct (hg_node _ _ _ _ HG i Hi) as [m [E1 [_ [_ [E4 _]]]]]. rewrite Hn in E1. inversion E1; subst m. rewrite Hp in E4. inversion E4; subst p. split.
    + apply Forall_forall. intros e H. unfold tab in H. apply in_map_iff in H. destruct H as [x [<- _]]. cbn [pe_val]. apply entry_nonneg. intros q Hq. eapply (ns_pos _ HN); eauto.
    + rewrite tab_len. apply S1. { apply (ns_par _ HN). } intros x Hx. apply in_app_or in Hx. destruct Hx as [Hx|[->|[]]]; auto. apply (ns_ends _ HN x i Hx).
  - intros i n Hi Hn. destruct (hg_node _ _ _ _ HG i Hi) as [m [E1 [_ [E3 _]]]]. rewrite Hn in E1. inversion E1; subst m. rewrite E3.
    assert (X : size (dom N) [i] <= B). { apply S1. { repeat constructor. intros []. } intros y [->|[]]; auto. } simpl in X. lia.
  - rewrite He. discriminate.
  - intros ns Hns. apply in_app_or in Hns. destruct Hns as [H|H]; apply in_map_iff in H; destruct H as [c [<- H]].
    + apply Ht; auto. apply (jg_cl _ JJ); auto.
    + destruct (jg_ss _ JJ c H) as [A1 [A2 _]]. destruct (jg_ends _ JJ c H) as [L1 _]. apply Ht; auto. intros i Hi. apply (Hc (ss_left c)); auto.
  - rewrite (NoDup_incl_length (bbn_ids_NoDup j) Hv). auto.
  - intros x Hx. unfold walk_fuel in HF. rewrite nodes_len in HF. apply in_map_iff in Hx. destruct Hx as [[k n] [<- Hn]]. cbn [fst]. rewrite (jg_kid _ JJ _ _ Hn). destruct n as [c|s]; cbn [j_id].
    + rewrite (Permutation_length (jg_nbc _ JJ c ltac:(apply jt_cliques_In; eauto))), map_length. eapply Nat.le_trans; [apply filter_le|]. lia.
    + rewrite (Permutation_length (jg_nbs _ JJ s ltac:(apply jt_sepsets_In; eauto))). simpl. lia.
  - apply (jg_kid _ JJ).
Qed.
