(** Generated structures. *)
From Verif Require Import Py M_Graph M_Node M_Nx M_Gen Spec SpecNx L_Base L_Sums L_Table L_PD L_Forest L_UG L_Nx.
Open Scope nat_scope.

Lemma upto_In n i : In i (upto n) <-> below_n n i.
Proof.
  unfold upto, below_n. rewrite in_map_iff. split.
  - intros (k & <- & Hk). apply in_seq in Hk. lia.
  - intros H. exists (Z.to_nat i). split; [lia|]. apply in_seq. lia.
Qed.
Lemma upto_NoDup n : NoDup (upto n).
Proof. apply NoDup_map_inj; [intros; lia|apply seq_NoDup]. Qed.
Lemma upto_S n : upto (S n) = upto n ++ [Z.of_nat n].
Proof. unfold upto. rewrite seq_S, map_app. reflexivity. Qed.
Lemma upto_length n : List.length (upto n) = n.
Proof. unfold upto. rewrite map_length, seq_length. auto. Qed.

Lemma tree_nodes n : fold_left dg_add_node (upto n) dg_empty = mkDg (upto n) [].
Proof.
  induction n as [|n IH]; [reflexivity|]. rewrite upto_S, fold_left_app, IH. simpl. unfold dg_add_node. simpl.
  destruct (mem_spec (Z.of_nat n) (upto n)) as [H|H]; auto. apply upto_In in H. unfold below_n in H. lia.
Qed.
Lemma tree_edges n : simple_ordered_tree n = mkDg (upto n) (map (fun i => (i, i + 1)%Z) (upto (n - 1))).
Proof.
  unfold simple_ordered_tree. rewrite tree_nodes.
  assert (G : forall k, k <= n - 1 -> fold_left (fun g i => dg_add_edge g i (i + 1)%Z) (upto k) (mkDg (upto n) []) = mkDg (upto n) (map (fun i => (i, i + 1)%Z) (upto k))).
  { induction k as [|k IH]; intros Hk; [reflexivity|]. rewrite upto_S, fold_left_app, IH by lia. simpl fold_left. rewrite map_app. simpl map.
    set (g := mkDg (upto n) (map (fun i => (i, (i + 1)%Z)) (upto k))).
    assert (EN : dg_nodes (dg_add_edge g (Z.of_nat k) (Z.of_nat k + 1)) = upto n).
    { apply add_edge_nodes_in; simpl; apply upto_In; unfold below_n; lia. }
    assert (EE : dg_edges (dg_add_edge g (Z.of_nat k) (Z.of_nat k + 1)) = dg_edges g ++ [(Z.of_nat k, (Z.of_nat k + 1)%Z)]).
    { rewrite add_edge_edges. destruct (dg_has_edge g (Z.of_nat k) (Z.of_nat k + 1)) eqn:E; auto. apply has_edge_iff in E. simpl in E.
      apply in_map_iff in E as (i & Ei & Hi). injection Ei as -> _. apply upto_In in Hi. unfold below_n in Hi. lia. }
    destruct (dg_add_edge g (Z.of_nat k) (Z.of_nat k + 1)) as [a b]. simpl in *. subst. auto. }
  apply G. lia.
Qed.

(** what every generated graph satisfies *)
Definition conn_dag (n : nat) (g : digraph) : Prop :=
  dgood g /\ dg_nodes g = upto n /\ connected_on (dg_nodes g) (dg_edges g) /\ acyclic (E g).
Definition conn_tree (n : nat) (g : digraph) : Prop :=
  dgood g /\ dg_nodes g = upto n /\ connected_on (dg_nodes g) (dg_edges g) /\ List.length (dg_edges g) = n - 1.

Lemma tree_start n : dgood (simple_ordered_tree n) /\ conn_tree n (simple_ordered_tree n) /\ acyclic (E (simple_ordered_tree n)).
Proof.
  rewrite tree_edges.
  assert (HE : forall i j, In (i, j) (map (fun i => (i, i + 1)%Z) (upto (n - 1))) <-> j = (i + 1)%Z /\ below_n (n - 1) i).
  { intros i j. rewrite in_map_iff. split. intros (k & Ek & Hk). injection Ek as -> <-. apply upto_In in Hk. auto.
    intros [-> H]. exists i. split; auto. apply upto_In; auto. }
  assert (G : dgood (mkDg (upto n) (map (fun i => (i, i + 1)%Z) (upto (n - 1))))).
  { constructor; simpl. apply upto_NoDup. apply NoDup_map_inj; [intros x y _ _ E; injection E; auto|apply upto_NoDup].
    intros i j H. apply HE in H as [-> H]. rewrite !upto_In. unfold below_n in *. lia. }
  split; auto. split; [split; auto; split; auto; split|].
  - simpl. assert (H0 : forall k, k < n -> path (sym (arc (map (fun i => (i, i + 1)%Z) (upto (n - 1))))) 0%Z (Z.of_nat k)).
    { induction k as [|k IH]; intros Hk. apply path_refl. eapply path_trans; [apply IH; lia|]. apply path_step with (Z.of_nat (S k)); [|apply path_refl].
      left. apply HE. split. lia. unfold below_n. lia. }
    intros u v Hu Hv. apply upto_In in Hu, Hv. unfold below_n in *. rewrite <- (Z2Nat.id u), <- (Z2Nat.id v) by lia.
    eapply path_trans; [|apply H0; lia]. apply path_sym; [unfold sym; tauto|]. apply H0; lia.
  - simpl. rewrite map_length, upto_length. auto.
  - simpl. intros x y Hxy Hp. apply HE in Hxy as [-> Hx].
    assert (G1 : forall s t, path (arc (map (fun i => (i, i + 1)%Z) (upto (n - 1)))) s t -> (s <= t)%Z).
    { induction 1 as [|s t z Hst Hp' IH]; [lia|]. apply HE in Hst as [-> _]. lia. }
    apply G1 in Hp. lia.
Qed.

Lemma connected_ext V es es' : (forall e, In e es -> In e es') -> connected_on V es -> connected_on V es'.
Proof. intros H C u v Hu Hv. specialize (C u v Hu Hv). revert C. apply path_mono. intros a b [K|K]; [left|right]; apply H; auto. Qed.
Lemma acyclic_ext (es es' : list (Z * Z)) : (forall e, In e es' -> In e es) -> acyclic (arc es) -> acyclic (arc es').
Proof. intros H A x y Hxy Hp. apply (A x y). apply H; auto. revert Hp. apply path_mono. intros a b; apply H. Qed.

Lemma draws_in n ints i j ints' : Forall (below_n n) ints -> random_node_pair n ints = Ok (i, j, ints') ->
  below_n n i /\ below_n n j /\ i <> j /\ Forall (below_n n) ints'.
Proof.
  intros H E. unfold random_node_pair, randint in E. destruct (n =? 0); [discriminate|]. destruct ints as [|i0 t]; [discriminate|]. cbn [rbind fst snd] in E.
  inversion_clear H as [|? ? H1 H2].
  assert (G : forall l j l', Forall (below_n n) l -> other_than i0 l = Ok (j, l') -> below_n n j /\ i0 <> j /\ Forall (below_n n) l').
  { clear. induction l as [|y l IH]; intros j l' H E; simpl in E; [discriminate|]. inversion_clear H.
    destruct (Z.eqb_spec y i0). apply IH; auto. injection E as <- <-. auto. }
  destruct (other_than i0 t) as [[j0 t']|] eqn:Eo; [|discriminate]. cbn [rbind fst snd] in E. injection E as <- <- <-. destruct (G t j0 t' H2 Eo) as (? & ? & ?). auto.
Qed.
Lemma pair_err n ints x : n <> 0 -> random_node_pair n ints = Err x -> x = OutOfFuel.
Proof.
  intros Hn. unfold random_node_pair, randint. destruct (Nat.eqb_spec n 0); [tauto|]. destruct ints as [|i0 t]; cbn [rbind fst snd]; [congruence|].
  assert (G : forall l x, other_than i0 l = Err x -> x = OutOfFuel). { induction l as [|y l IH]; intros z; simpl; [congruence|]. destruct (Z.eqb y i0); [apply IH|discriminate]. }
  destruct (other_than i0 t) as [[j0 t']|e] eqn:Eo; cbn [rbind]; [discriminate|]. intros E. injection E as <-. eauto.
Qed.

Section Multi.
  Variables (n : nat).
  Hypothesis Hn : n <> 0.
  Lemma nodes_ne g : dg_nodes g = upto n -> dg_nodes g <> [].
  Proof. intros ->. destruct n; [tauto|]. unfold upto. simpl. discriminate. Qed.

  Lemma multi_step g i j : conn_dag n g -> below_n n i -> below_n n j ->
    exists g', (if dg_has_edge g i j then del_edge i j g else add_edge_dag i j g) = Ok g' /\ conn_dag n g'.
  Proof.
    intros (G & HN & HC & HA) Hi Hj.
    assert (Hi' : In i (dg_nodes g)) by (rewrite HN; apply upto_In; auto). assert (Hj' : In j (dg_nodes g)) by (rewrite HN; apply upto_In; auto).
    destruct (dg_has_edge g i j) eqn:He.
    - unfold del_edge. rewrite He. apply has_edge_iff in He. destruct (remove_edge_ok g i j He) as (g1 & E1 & N1 & H1 & F1). rewrite E1. cbn [rbind].
      assert (G1 : dgood g1) by (eapply remove_edge_good; eauto). unfold connected_dg, to_undirected.
      destruct (is_connected_iff g1 G1) as (b & Eb & Hb). { apply nodes_ne. congruence. } rewrite Eb. cbn [rbind]. destruct b.
      + exists g1. split; auto. split; auto. split; [congruence|]. split; [apply Hb; auto|]. apply acyclic_ext with (dg_edges g); auto. intros e H. apply H1 in H. tauto.
      + exists (dg_add_edge g1 i j). split; auto. split; [apply add_edge_good; auto|]. assert (EN : dg_nodes (dg_add_edge g1 i j) = dg_nodes g).
        { rewrite add_edge_nodes_in; auto; rewrite N1; auto. }
        split; [congruence|]. rewrite EN. split.
        * apply connected_ext with (dg_edges g); auto. intros e H. apply add_edge_In. destruct (list_eq_dec Z.eq_dec [fst e; snd e] [i; j]) as [K|K].
          { right. destruct e; simpl in K. congruence. } { left. apply H1. split; auto. intros ->. apply K; auto. }
        * apply acyclic_ext with (dg_edges g); auto. intros e H. apply add_edge_In in H as [H| ->]; auto. apply H1 in H. tauto.
    - unfold add_edge_dag. assert (EN : dg_nodes (dg_add_edge g i j) = dg_nodes g) by (apply add_edge_nodes_in; auto).
      assert (G1 : dgood (dg_add_edge g i j)) by (apply add_edge_good; auto).
      destruct (is_dag (dg_add_edge g i j)) eqn:Ed.
      + exists (dg_add_edge g i j). split; auto. split; auto. split; [congruence|]. split; [|apply is_dag_iff; auto]. rewrite EN.
        apply connected_ext with (dg_edges g); auto. intros e H. apply add_edge_In; auto.
      + apply has_edge_false in He. destruct (remove_edge_ok (dg_add_edge g i j) i j) as (g2 & E2 & N2 & H2 & F2). { apply add_edge_In; auto. }
        exists g2. split; auto. split; [eapply remove_edge_good; eauto|]. split; [congruence|]. rewrite N2, EN. split.
        * apply connected_ext with (dg_edges g); auto. intros e H. apply H2. split; [apply add_edge_In; auto|]. intros ->. auto.
        * apply acyclic_ext with (dg_edges g); auto. intros e H. apply H2 in H as [H Hne]. apply add_edge_In in H as [|]; tauto.
  Qed.
  Lemma multi_loop_ok iters : forall ints g, Forall (below_n n) ints -> conn_dag n g ->
    match multi_loop iters n ints g with Ok g' => conn_dag n g' | Err x => x = OutOfFuel end.
  Proof.
    induction iters as [|k IH]; intros ints g Hi Hg; simpl; auto.
    destruct (random_node_pair n ints) as [[[i j] ints']|x] eqn:Ep; cbn [rbind]; [|eapply pair_err; eauto].
    destruct (draws_in n ints i j ints' Hi Ep) as (H1 & H2 & H3 & H4). destruct (multi_step g i j Hg H1 H2) as (g' & Eg & Hg'). rewrite Eg. cbn [rbind]. apply IH; auto.
  Qed.
End Multi.

(** ** trees *)
Section Tree.
  Variables (V : list Z) (es : list (Z * Z)).
  Hypothesis HV : NoDup V.
  Hypothesis HE : NoDup es.
  Hypothesis Hin : forall u v, In (u, v) es -> In u V /\ In v V.
  Hypothesis HC : connected_on V es.
  Hypothesis HL : List.length es = List.length V - 1.

  Lemma pair_dec (a b : Z * Z) : {a = b} + {a <> b}.
  Proof. decide equality; apply Z.eq_dec. Defined.
  Definition without (e : Z * Z) : list (Z * Z) := remove pair_dec e es.
  Lemma without_In e x : In x (without e) <-> In x es /\ x <> e.
  Proof. unfold without. split. apply in_remove. intros [H1 H2]. apply in_in_remove; auto. Qed.
  Lemma without_length e : In e es -> S (List.length (without e)) = List.length es.
  Proof.
    intros H. assert (P : Permutation es (e :: without e)); [|apply Permutation_length in P; simpl in P; lia].
    apply NoDup_Permutation; auto.
    - constructor. rewrite without_In. tauto. unfold without. clear - HE. induction es as [|a l IH]; simpl; [constructor|]. inversion_clear HE.
      destruct (pair_dec e a); auto. constructor; auto. intros C. apply in_remove in C. tauto.
    - intros x. simpl. rewrite without_In. split; [|intros [<-|[]]; auto]. intros Hx.
      destruct e as [a b], x as [c d]. destruct (Z.eq_dec a c), (Z.eq_dec b d); subst; auto; right; split; auto; congruence.
  Qed.
  Lemma conn_path l x y : conn l x y <-> path (sym (arc l)) x y.
  Proof. reflexivity. Qed.

  (** without one of its edges, a tree no longer joins the ends of that edge *)
  Lemma bridge u v : In (u, v) es -> ~ path (sym (arc (without (u, v)))) u v.
  Proof.
    intros He Hc. destruct (labelling V (without (u, v)) HV) as (lab & L1 & L2 & _). { intros a b H. apply without_In in H as [H _]. auto. }
    pose proof (without_length (u, v) He) as Hl.
    assert (Hall : forall x y, In x V -> In y V -> lab x = lab y).
    { intros x y Hx Hy. apply L1. specialize (HC x y Hx Hy). clear Hx Hy. induction HC as [x|x z y Hs Hp IH]; [apply conn_refl|]. eapply conn_trans; [|apply IH; exact Hp].
      assert (D : forall a b, In (a, b) es -> conn (without (u, v)) a b).
      { intros a b Hab. destruct (Z.eq_dec a u) as [->|]; [destruct (Z.eq_dec b v) as [->|]|]; try exact Hc; apply conn_edge, without_In; (split; [exact Hab|congruence]). }
      destruct Hs as [Hs|Hs]; [|apply conn_sym]; apply D; auto. }
    assert (Hcl : classes V lab <= 1).
    { unfold classes. clear - Hall. assert (G : forall l : list Z, NoDup l -> (forall x y, In x l -> In y l -> x = y) -> List.length l <= 1).
      { intros [|a [|b l]] HN H; simpl; auto. exfalso. inversion_clear HN as [|? ? H1 _]. apply H1. rewrite (H a b); simpl; auto. }
      apply G. apply NoDup_nodup. intros x y Hx Hy. apply nodup_In, in_map_iff in Hx as (a & <- & Ha). apply nodup_In, in_map_iff in Hy as (b & <- & Hb). auto. }
    assert (In u V) as Hu by (apply (Hin u v); auto). destruct V as [|r V']; [destruct Hu|]. simpl in *. lia.
  Qed.

  Lemma tree_acyclic : acyclic (arc es).
  Proof.
    intros x y Hxy Hp. apply (bridge x y Hxy). apply path_sym; [unfold sym; tauto|]. clear Hxy.
    assert (G : forall s, path (arc es) s x -> path (sym (arc (without (x, y)))) s x); auto. clear Hp. intros s Hp.
    remember x as z eqn:Ez in Hp. assert (Hz : z = x) by auto. clear Ez.
    induction Hp as [s|s t z Hst Hp IH]; [subst; apply path_refl|]. destruct (Z.eq_dec s x) as [->|Hne]; [apply path_refl|].
    apply path_step with t; auto. left. apply without_In. split; auto. congruence.
  Qed.

  Lemma chain_avoid x e c a b : (fst e = x \/ snd e = x) -> chain (sym (arc es)) c -> ~ In x c -> hd_error c = Some a -> hd_error (rev c) = Some b ->
    path (sym (arc (without e))) a b.
  Proof.
    intros He. revert a. induction c as [|s c IH]; intros a Hc Hx Ha Hb; [discriminate|]. injection Ha as ->. destruct c as [|t c].
    - injection Hb as ->. apply path_refl.
    - destruct Hc as [Hst Hc]. apply path_step with t.
      + assert (a <> x /\ t <> x) as [N1 N2] by (simpl in Hx; split; intros ->; tauto).
        destruct Hst as [H|H]; [left|right]; apply without_In; (split; [exact H|]); intros <-; simpl in He; destruct He; congruence.
      + apply IH; auto. simpl in Hx |- *. tauto. simpl rev in Hb |- *. destruct (rev c ++ [t]) as [|w l] eqn:El; [destruct (rev c); discriminate|]. exact Hb.
  Qed.
  Lemma last_in {A} (c : list A) y : hd_error (rev c) = Some y -> In y c.
  Proof. intros H. apply in_rev. destruct (rev c); [discriminate|]. injection H as ->. simpl; auto. Qed.

  Lemma tree_no_cycle c : ~ cycle es c.
  Proof.
    intros (Hl & HN & Hc & x & y & Hx & Hy & Hxy). destruct c as [|x0 [|z c]]; simpl in Hl; try lia. injection Hx as ->.
    destruct Hc as [Hxz Hc]. inversion_clear HN as [|? ? Hx1 HN1].
    assert (Hyl : hd_error (rev (z :: c)) = Some y). { simpl rev in Hy |- *. destruct (rev c ++ [z]) as [|w l] eqn:El; [destruct (rev c); discriminate|]. exact Hy. }
    assert (Hyz : y <> z).
    { destruct c as [|w c]; [simpl in Hl; lia|]. assert (In y (w :: c)). { apply last_in. simpl rev in Hyl |- *. destruct (rev c ++ [w]) as [|w' l] eqn:El; [destruct (rev c); discriminate|]. exact Hyl. }
      inversion_clear HN1 as [|? ? Hz _]. intros ->. auto. }
    assert (Hxy' : x <> y). { intros ->. apply Hx1, last_in; auto. }
    assert (Hend : forall e, In e es -> e = (x, y) \/ e = (y, x) -> path (sym (arc (without e))) x y).
    { intros e He Ee. apply path_step with z; [|eapply (chain_avoid x e (z :: c)); eauto; destruct Ee as [-> | ->]; simpl; auto].
      destruct Hxz as [H|H]; [left|right]; apply without_In; (split; [exact H|]); destruct Ee as [-> | ->]; congruence. }
    destruct Hxy as [H|H].
    - apply (bridge y x H). apply path_sym; [unfold sym; tauto|]. apply Hend; auto.
    - apply (bridge x y H). apply Hend; auto.
  Qed.

  Lemma tree_unique : forall p q x y, NoDup p -> NoDup q -> chain (sym (arc es)) p -> chain (sym (arc es)) q ->
    hd_error p = Some x -> hd_error q = Some x -> hd_error (rev p) = Some y -> hd_error (rev q) = Some y -> p = q.
  Proof.
    induction p as [|x0 p IH]; intros q x y Np Nq Cp Cq Hp Hq Lp Lq; [discriminate|]. injection Hp as ->. destruct q as [|x0 q]; [discriminate|]. injection Hq as ->. f_equal.
    inversion_clear Np as [|? ? Xp Np']. inversion_clear Nq as [|? ? Xq Nq'].
    assert (Lst : forall c, c <> [] -> hd_error (rev (x :: c)) = hd_error (rev c)).
    { intros c Hc. simpl. destruct (rev c) eqn:Er; auto. apply (f_equal (@rev Z)) in Er. rewrite rev_involutive in Er. simpl in Er. congruence. }
    destruct p as [|a p], q as [|b q]; auto.
    - injection Lp as ->. exfalso. apply Xq. apply last_in. rewrite <- Lst; auto. discriminate.
    - injection Lq as ->. exfalso. apply Xp. apply last_in. rewrite <- Lst; auto. discriminate.
    - destruct Cp as [Ca Cp], Cq as [Cb Cq]. rewrite Lst in Lp, Lq by discriminate.
      destruct (Z.eq_dec a b) as [->|Hab]. { apply (IH (b :: q) b y); auto. }
      exfalso.
      assert (G : forall e, In e es -> e = (x, a) \/ e = (a, x) -> path (sym (arc (without e))) x a).
      { intros e He Ee. assert (Hx : fst e = x \/ snd e = x) by (destruct Ee as [-> | ->]; simpl; auto).
        apply path_trans with y.
        - apply path_step with b; [|apply (chain_avoid x e (b :: q)); auto].
          destruct Cb as [H|H]; [left|right]; apply without_In; (split; [exact H|]); destruct Ee as [-> | ->]; intros K; injection K; intros; subst; tauto.
        - apply path_sym; [unfold sym; tauto|]. apply (chain_avoid x e (a :: p)); auto. }
      destruct Ca as [H|H].
      + apply (bridge x a H). apply G; auto.
      + apply (bridge a x H). apply path_sym; [unfold sym; tauto|]. apply G; auto.
  Qed.
End Tree.

Section Singly.
  Variables (n : nat).
  Hypothesis Hn : n <> 0.

  Lemma removed_length g i j g' : dgood g -> In (i, j) (dg_edges g) -> dg_remove_edge g i j = Ok g' -> S (List.length (dg_edges g')) = List.length (dg_edges g).
  Proof.
    intros G H E. destruct (remove_edge_ok g i j H) as (g0 & E0 & _ & H0 & _). rewrite E0 in E. injection E as ->.
    assert (P : Permutation (dg_edges g) ((i, j) :: dg_edges g')); [|apply Permutation_length in P; simpl in P; lia].
    apply NoDup_Permutation. apply G. constructor. rewrite H0; tauto. apply (dg_ne g'). eapply remove_edge_good; eauto.
    intros [a b]. simpl. rewrite H0. split; [|intros [<-|[]]; auto]. intros Hx. destruct (Z.eq_dec a i) as [->|]; [destruct (Z.eq_dec b j) as [->|]|]; auto; right; split; auto; congruence.
  Qed.
  Lemma added_length g i j : ~ In (i, j) (dg_edges g) -> List.length (dg_edges (dg_add_edge g i j)) = S (List.length (dg_edges g)).
  Proof. intros H. rewrite add_edge_edges. apply has_edge_false in H. rewrite H, app_length. simpl. lia. Qed.

  Lemma singly_step_ok g i j p : conn_tree n g -> below_n n i -> below_n n j -> i <> j -> ~ In (i, j) (dg_edges g) -> ~ In (j, i) (dg_edges g) ->
    exists g', singly_step i j p g = Ok g' /\ conn_tree n g'.
  Proof.
    intros (G & HN & HC & HL) Hi Hj Hij N1 N2.
    assert (Hi' : In i (dg_nodes g)) by (rewrite HN; apply upto_In; auto). assert (Hj' : In j (dg_nodes g)) by (rewrite HN; apply upto_In; auto).
    unfold singly_step, find_predecessor, predecessors. assert (mem j (dg_nodes g) = true) as -> by (apply mem_In; auto). cbn [rbind].
    destruct (find _ (preds g j)) as [k|] eqn:Ek; [|exists g; split; auto; split; auto].
    apply find_some in Ek as [Ek _]. apply preds_In in Ek. destruct (dg_in _ G k j Ek) as [Hk _].
    destruct (remove_edge_ok g k j Ek) as (g1 & E1 & M1 & H1 & _). rewrite E1. cbn [rbind]. pose proof (remove_edge_good g k j g1 G E1) as G1.
    pose proof (removed_length g k j g1 G Ek E1) as L1.
    set (e := if qltb p half then (j, i) else (i, j)).
    assert (Ee : (if qltb p half then dg_add_edge g1 j i else dg_add_edge g1 i j) = dg_add_edge g1 (fst e) (snd e)) by (unfold e; destruct (qltb p half); auto).
    assert (He : ~ In e (dg_edges g)) by (unfold e; destruct (qltb p half); auto).
    assert (Hee : In (fst e) (dg_nodes g) /\ In (snd e) (dg_nodes g)) by (unfold e; destruct (qltb p half); auto).
    rewrite Ee. set (g2 := dg_add_edge g1 (fst e) (snd e)).
    assert (Er : forall g3, (if qltb p half then dg_remove_edge g3 j i else dg_remove_edge g3 i j) = dg_remove_edge g3 (fst e) (snd e)) by (intros; unfold e; destruct (qltb p half); auto).
    rewrite Er. clearbody e. destruct e as [u v]. simpl fst in *. simpl snd in *. clear Ee Er.
    assert (G2 : dgood g2) by (apply add_edge_good; auto).
    assert (M2 : dg_nodes g2 = dg_nodes g). { unfold g2. rewrite add_edge_nodes_in; auto; rewrite M1; tauto. }
    assert (L2 : List.length (dg_edges g2) = n - 1). { unfold g2. rewrite added_length; [lia|]. rewrite H1. tauto. }
    unfold connected_dg, to_undirected. destruct (is_connected_iff g2 G2) as (c & Ec & Hc). { apply (nodes_ne n Hn). congruence. } rewrite Ec. cbn [rbind].
    destruct c.
    - exists g2. split; auto. split; auto. split; [congruence|]. split; auto. apply Hc; auto.
    - set (g3 := dg_add_edge g2 k j). assert (G3 : dgood g3) by (apply add_edge_good; auto).
      assert (M3 : dg_nodes g3 = dg_nodes g). { unfold g3. rewrite add_edge_nodes_in; auto; rewrite M2; tauto. }
      assert (Hne : (k, j) <> (u, v)) by (intros C; rewrite <- C in He; auto).
      assert (L3 : List.length (dg_edges g3) = S (n - 1)). { unfold g3. rewrite added_length; [lia|]. unfold g2. rewrite add_edge_In, H1. intros [[_ C]|C]; auto. }
      assert (Hu : In (u, v) (dg_edges g3)). { apply add_edge_In. left. apply add_edge_In. auto. }
      destruct (remove_edge_ok g3 u v Hu) as (g4 & E4 & M4 & H4 & _). exists g4. split; auto.
      pose proof (removed_length g3 u v g4 G3 Hu E4) as L4. split; [eapply remove_edge_good; eauto|]. split; [congruence|]. split; [|lia].
      rewrite M4, M3. apply connected_ext with (dg_edges g); auto. intros [a b] Hx. apply H4. split; [|intros C; rewrite C in Hx; auto].
      apply add_edge_In. destruct (Z.eq_dec a k) as [->|]; [destruct (Z.eq_dec b j) as [->|]|]; auto; left; apply add_edge_In; left; apply H1; split; auto; congruence.
  Qed.
  Lemma singly_loop_ok iters : forall ints units g, Forall (below_n n) ints -> conn_tree n g ->
    match singly_loop iters n ints units g with Ok g' => conn_tree n g' | Err x => x = OutOfFuel end.
  Proof.
    induction iters as [|k IH]; intros ints units g Hi Hg; simpl; auto.
    destruct (random_node_pair n ints) as [[[i j] ints']|x] eqn:Ep; cbn [rbind]; [|eapply pair_err; eauto].
    destruct (draws_in n ints i j ints' Hi Ep) as (H1 & H2 & H3 & H4).
    destruct (dg_has_edge g i j || dg_has_edge g j i) eqn:Ee; [apply IH; auto|].
    apply orb_false_iff in Ee as [E1 E2]. apply has_edge_false in E1, E2. destruct units as [|u units]; auto.
    destruct (singly_step_ok g i j u Hg H1 H2 H3 E1 E2) as (g' & Eg & Hg'). rewrite Eg. cbn [rbind]. apply IH; auto.
  Qed.
End Singly.

Lemma c39 : forall n max_iter ints, n <> 0 -> Forall (below_n n) ints ->
  match multi_structure n max_iter ints with
  | Ok g => dg_nodes g = map Z.of_nat (seq 0 n) /\ (forall e, In e (dg_edges g) -> In (fst e) (dg_nodes g) /\ In (snd e) (dg_nodes g)) /\
            connected_on (dg_nodes g) (dg_edges g) /\ acyclic (arc (dg_edges g))
  | Err x => x = OutOfFuel
  end.
Proof.
  intros n mi ints Hn Hi. destruct (tree_start n) as (G & (_ & HN & HC & _) & HA).
  pose proof (multi_loop_ok n Hn mi ints (simple_ordered_tree n) Hi (conj G (conj HN (conj HC HA)))) as H. unfold multi_structure.
  destruct (multi_loop mi n ints (simple_ordered_tree n)) as [g|]; auto. destruct H as (G' & H1 & H2 & H3). split; auto. split; auto. intros [a b] He. apply (dg_in _ G'); auto.
Qed.
Lemma c40 : forall n max_iter ints units, n <> 0 -> Forall (below_n n) ints ->
  match singly_structure n max_iter ints units with
  | Ok g => dg_nodes g = map Z.of_nat (seq 0 n) /\ (forall e, In e (dg_edges g) -> In (fst e) (dg_nodes g) /\ In (snd e) (dg_nodes g)) /\
            NoDup (dg_edges g) /\ S (List.length (dg_edges g)) = n /\
            connected_on (dg_nodes g) (dg_edges g) /\ acyclic (arc (dg_edges g)) /\ (forall c, ~ cycle (dg_edges g) c) /\
            (forall p q x y, NoDup p -> NoDup q -> chain (sym (arc (dg_edges g))) p -> chain (sym (arc (dg_edges g))) q ->
               hd_error p = Some x -> hd_error q = Some x -> hd_error (rev p) = Some y -> hd_error (rev q) = Some y -> p = q)
  | Err x => x = OutOfFuel
  end.
Proof.
  intros n mi ints units Hn Hi. destruct (tree_start n) as (G & HT & HA).
  pose proof (singly_loop_ok n Hn mi ints units (simple_ordered_tree n) Hi HT) as H. unfold singly_structure.
  destruct (singly_loop mi n ints units (simple_ordered_tree n)) as [g|]; auto. destruct H as (G' & H1 & H2 & H3). split; auto.
  assert (HL : List.length (dg_edges g) = List.length (dg_nodes g) - 1) by (rewrite H1, upto_length; auto).
  split. { intros [a b] He. apply (dg_in _ G'); auto. } split; [apply G'|]. split; [lia|]. split; auto.
  split; [|split].
  - apply (tree_acyclic (dg_nodes g)); auto; apply G'.
  - apply (tree_no_cycle (dg_nodes g)); auto; apply G'.
  - apply (tree_unique (dg_nodes g)); auto; apply G'.
Qed.
