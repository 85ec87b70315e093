(** Sampling from a network. *)
From Verif Require Import Py M_Graph M_Node M_Sampling Spec SpecNet SpecPot SpecSamp L_Base L_Sums L_Table L_UG L_Moral L_Build L_Apply L_Net L_P4 L_Samp L_Sort.
Open Scope nat_scope.

Lemma isort_ascending l : NoDup l -> ascending (isort Z.leb l).
Proof.
  intros HN. pose proof (L_Ids.isort_incr l HN) as H. revert H. generalize (isort Z.leb l) as m. clear. induction m as [|x m IH]; intros H.
  - intros a y b z c E. destruct a; discriminate.
  - apply ascending_cons. split; [|apply IH; inversion H; auto].
    intros y Hy. apply (L_Ids.incr_app [x] m H); simpl; auto.
Qed.

Lemma size_perm dm vs ws : Permutation vs ws -> size dm vs = size dm ws.
Proof. induction 1; simpl; lia. Qed.

(** the order in which the sampler's tables list the parents *)
Definition spar (ops : list bop) (i : Z) : list Z := isort Z.leb (net_par ops i).
(** the row the sampler uses *)
Definition srow (ops : list bop) (v : Z) (a : asg) : list Qc := row_for (net_dom ops) (net_cpt ops v) (spar ops v) v a.

Lemma parents_ordered ops i : get_parents_ordered (build ops) i = spar ops i.
Proof.
  unfold get_parents_ordered, spar. pose proof (bi_par _ _ (build_inv ops) i) as H. unfold dgets in H.
  destruct (dget (b_parents (build ops)) i); rewrite <- H; auto.
Qed.
Lemma spar_In ops i p : In p (spar ops i) <-> In p (net_par ops i).
Proof. apply isort_In. Qed.
Lemma spar_NoDup ops i : NoDup (spar ops i).
Proof. eapply Permutation_NoDup; [symmetry; apply isort_perm|]. apply firsts_NoDup. Qed.

Section T.
  Variable ops : list bop.
  Hypothesis W : well_shaped ops.
  Hypothesis C : clean ops.

  Lemma par_vars i p : In p (net_par ops i) -> In p (net_vars ops) /\ In i (net_vars ops).
  Proof. intros H. apply (bi_ends _ _ (build_inv ops)); auto. Qed.

  Lemma get_nodes_of l : incl l (net_vars ops) -> exists ns, mapM (get_node (b_g (build ops))) l = Ok ns /\ map n_id ns = l /\
    forall n, In n ns -> node_of ops (n_id n) = Some n.
  Proof.
    induction l as [|i l IH]; intros Hl; simpl. exists []; repeat split; simpl; tauto.
    destruct IH as (ns & E & Ei & Hn). { intros x Hx; apply Hl; simpl; auto. }
    assert (Hi : In i (net_vars ops)) by (apply Hl; simpl; auto).
    destruct (node_of ops i) as [n|] eqn:En; [|apply node_of_None in En; tauto].
    destruct (node_of_Some _ _ _ En) as [_ Hid].
    exists (n :: ns). unfold get_node at 1, dgetE. rewrite (bi_get _ _ (build_inv ops)), En. cbn [rbind]. rewrite E. simpl. rewrite Ei, Hid. repeat split; auto.
    intros m [<-|Hm]; auto. rewrite Hid; auto.
  Qed.

  Lemma table_of n : In (n_id n) (net_vars ops) -> node_of ops (n_id n) = Some n ->
    exists ps t, mapM (get_node (b_g (build ops))) (get_parents_ordered (build ops) (n_id n)) = Ok ps /\ mk_table n ps = Ok t /\
      table_right t (net_dom ops) (spar ops (n_id n)) (n_id n) (srow ops (n_id n)).
  Proof.
    intros Hi En. set (i := n_id n) in *. rewrite parents_ordered.
    destruct (get_nodes_of (spar ops i)) as (ps & E & Ei & Hn). { intros p Hp. apply spar_In in Hp. apply par_vars in Hp; tauto. }
    assert (Hd : net_dom ops i = n_values n) by (unfold net_dom; rewrite En; auto).
    assert (Hc : net_cpt ops i = n_probs n) by (unfold net_cpt; rewrite En; auto).
    assert (Hpd : forall p, In p ps -> net_dom ops (n_id p) = n_values p /\ In (n_id p) (net_vars ops)).
    { intros p Hp. unfold net_dom. rewrite (Hn p Hp). split; auto. apply (in_map n_id) in Hp. rewrite Ei in Hp. apply spar_In, par_vars in Hp. tauto. }
    destruct (table_ok (net_dom ops) n ps) as (t & Et & _ & Ht).
    - split.
      + rewrite map_app, Ei. simpl. apply NoDup_app_intro. apply spar_NoDup. constructor; [simpl; tauto|constructor].
        intros x Hx [<-|[]]. apply spar_In in Hx. apply (ws_loop _ W) in Hx. auto.
      + intros m Hm. apply in_app_or in Hm as [Hm|[<-|[]]].
        * destruct (Hpd m Hm) as [D Hv]. split; auto. rewrite <- D. apply (ws_dom _ W); auto.
        * fold i. rewrite Hd. split; auto. rewrite <- Hd. apply (ws_dom _ W); auto.
    - rewrite Ei. apply isort_ascending, firsts_NoDup.
    - intros _ p x Hp Hx. destruct (Hpd p Hp) as [D Hv]. apply (C (n_id p)); auto. rewrite D; auto.
    - rewrite <- Hd. apply (ws_dom _ W); auto.
    - rewrite Ei. fold i. rewrite <- Hc. rewrite (size_perm _ _ (net_par ops i ++ [i])). apply (ws_cpt _ W); auto. apply Permutation_app_tail, isort_perm.
    - intros q Hq. apply (ws_pos _ W i); auto. rewrite Hc; auto.
    - exists ps, t. split; auto. split; auto. rewrite Ei, <- Hc in Ht. exact Ht.
  Qed.

  Lemma get_tables_ok : exists d, get_tables (build ops) = Ok d /\
    forall v, In v (net_vars ops) -> exists t, dget d v = Some t /\ table_right t (net_dom ops) (spar ops v) v (srow ops v).
  Proof.
    unfold get_tables.
    assert (G : forall l d0, (forall n, In n l -> In (n_id n) (net_vars ops) /\ node_of ops (n_id n) = Some n) ->
      exists d, foldM (fun d n => ps <- mapM (get_node (b_g (build ops))) (get_parents_ordered (build ops) (n_id n)) ;;
           t <- mk_table n ps ;; Ok (dset d (n_id n) t)) l d0 = Ok d /\
        forall v, (In v (map n_id l) -> exists t, dget d v = Some t /\ table_right t (net_dom ops) (spar ops v) v (srow ops v)) /\
                  (~ In v (map n_id l) -> dget d v = dget d0 v)).
    { induction l as [|n l IH]; intros d0 Hl; cbn [foldM]. exists d0; simpl; split; auto. split; [tauto|auto].
      destruct (Hl n) as [Hi En]; simpl; auto. destruct (table_of n Hi En) as (ps & t & E1 & E2 & Ht).
      rewrite E1. cbn [rbind]. rewrite E2. cbn [rbind].
      destruct (IH (dset d0 (n_id n) t)) as (d & Ed & Hd). { intros m Hm; apply Hl; simpl; auto. }
      exists d. split; auto. intros v. destruct (Hd v) as [H1 H2]. destruct (in_dec Z.eq_dec v (map n_id l)) as [Hv|Hv].
      - split; intros; auto. simpl in H. tauto.
      - split.
        + intros [<-|Hv']; [|tauto]. exists t. rewrite H2, dget_dset_eq; auto.
        + intros Hn. rewrite H2 by auto. apply dget_dset_neq. simpl in Hn. intros ->; tauto. }
    pose proof (build_inv ops) as B.
    assert (Hids : map n_id (get_nodes (b_g (build ops))) = net_vars ops).
    { rewrite <- (bi_ids _ _ B). unfold get_nodes, ids, dvals. rewrite map_map. apply map_ext_in. intros [k n] H. simpl. apply (bi_kid _ _ B); auto. }
    destruct (G (get_nodes (b_g (build ops))) []) as (d & E & Hd).
    - intros n Hn. assert (Hi : In (n_id n) (net_vars ops)) by (rewrite <- Hids; apply in_map; auto). split; auto.
      unfold get_nodes in Hn. apply dvals_In in Hn as (k & Hk). pose proof (bi_kid _ _ B _ _ Hk) as <-.
      rewrite <- (bi_get _ _ B). apply In_dget; auto. fold (ids (b_g (build ops))). rewrite (bi_ids _ _ B). apply firsts_NoDup.
    - exists d. split; auto. intros v Hv. apply Hd. rewrite Hids; auto.
  Qed.

  (** rows of the sampler are slices of the CPT, so they sum to 1 when the rows of the CPT do *)
  Lemma srow_row v a : In v (net_vars ops) -> okon (net_dom ops) (spar ops v) a ->
    exists b, okon (net_dom ops) (net_par ops v) b /\ srow ops v a = cpt_row (net_of ops) v b.
  Proof.
    intros Hv Ha.
    assert (Hsz : size (net_dom ops) (spar ops v) = size (net_dom ops) (net_par ops v)) by (apply size_perm, isort_perm).
    assert (Hsc : proper_scope (net_dom ops) (net_par ops v)).
    { split. apply firsts_NoDup. intros p Hp. apply par_vars in Hp as [Hp _]. apply (ws_dom _ W); auto. }
    destruct (row_index_onto (net_dom ops) (net_par ops v) (row_index (net_dom ops) (spar ops v) a) Hsc) as (b & Hb & Er).
    { rewrite <- Hsz. apply row_index_lt; auto. }
    exists b. split; auto. unfold srow. pose proof (ws_cpt _ W v Hv) as Hs. pose proof (ws_dom _ W v Hv) as [HN _].
    rewrite <- (slice_row (net_dom ops) (net_cpt ops v) (spar ops v) v a), <- Er; auto.
    - rewrite (slice_row (net_dom ops) (net_cpt ops v) (net_par ops v) v b); auto. apply (ws_loop _ W).
    - rewrite spar_In. apply (ws_loop _ W).
    - rewrite (size_perm _ _ (net_par ops v ++ [v])); auto. apply Permutation_app_tail, isort_perm.
  Qed.
  Lemma srow_sum v a : stochastic (net_of ops) -> In v (net_vars ops) -> okon (net_dom ops) (spar ops v) a -> qsum (srow ops v a) = 1%Qc.
  Proof. intros S Hv Ha. destruct (srow_row v a Hv Ha) as (b & Hb & ->). apply S; auto. Qed.
  Lemma srow_ext v a b : (forall p, In p (spar ops v) -> a p = b p) -> srow ops v a = srow ops v b.
  Proof.
    intros H. unfold srow, row_for. apply map_ext. intros x. f_equal. apply row_index_ext. intros u Hu. unfold upd.
    destruct (Z.eqb_spec u v); auto. apply in_app_or in Hu as [Hu|[Hu|[]]]; auto. congruence.
  Qed.
  Lemma srow_length v a : List.length (srow ops v a) = List.length (net_dom ops v).
  Proof. unfold srow, row_for. apply map_length. Qed.
  Lemma srow_nonneg v a : In v (net_vars ops) -> okon (net_dom ops) (spar ops v) a -> nonneg (srow ops v a).
  Proof.
    intros Hv Ha. destruct (srow_row v a Hv Ha) as (b & Hb & ->). intros q Hq. apply in_map_iff in Hq as (x & <- & Hx).
    unfold cpt_entry. simpl. apply (ws_pos _ W v); auto. apply nth_In. eapply Nat.lt_le_trans; [|apply (ws_cpt _ W v Hv)].
    apply row_index_lt. intros u Hu. unfold upd. destruct (Z.eqb_spec u v) as [->|]; auto. apply in_app_or in Hu as [Hu|[Hu|[]]]; auto. congruence.
  Qed.
  Lemma srow_asc v : ascending (net_par ops v) -> srow ops v = cpt_row (net_of ops) v.
  Proof. intros H. unfold srow, spar. rewrite sorted_ids by auto. reflexivity. Qed.
End T.

Lemma nth_pos x l : In x l -> nth_error l (pos x l) = Some x.
Proof.
  induction l as [|y l IH]; simpl; [tauto|]. intros H. destruct (String.eqb_spec x y) as [->|]; simpl; auto. apply IH. destruct H; auto. congruence.
Qed.

Lemma get_value_ext t u s s' : (forall i, In i (tb_pids t) -> dget s i = dget s' i) -> get_value t u s = get_value t u s'.
Proof.
  intros H. unfold get_value. destruct (tb_probs t); auto. erewrite mapM_ext; [reflexivity|]. intros i Hi. simpl. unfold dgetE. rewrite H; auto.
Qed.

(** ** Walking through the variables in a topological order *)
Section Walk.
  Variables (dm : Z -> list string) (ps : Z -> list Z) (row : Z -> asg -> list Qc) (tables : list (Z * table)) (order : list Z).
  Hypothesis HT : forall v, In v order -> exists t, dget tables v = Some t /\ table_right t dm (ps v) v (row v).
  Hypothesis Hord : forall before v after p, order = before ++ v :: after -> In p (ps v) -> In p before.
  Hypothesis HN : NoDup order.
  Hypothesis HD : forall v, In v order -> NoDup (dm v).
  Hypothesis Hext : forall v a b, (forall p, In p (ps v) -> a p = b p) -> row v a = row v b.
  Hypothesis Hlen : forall v a, List.length (row v a) = List.length (dm v).
  Hypothesis Hnn : forall v a, In v order -> okon dm (ps v) a -> nonneg (row v a).
  Hypothesis Hsum : forall v a, In v order -> okon dm (ps v) a -> qsum (row v a) = 1%Qc.

  (** the interval of draws that give [v] its value in [a] *)
  Definition within (a : asg) (v : Z) (u : Qc) : Prop :=
    (below (row v a) (pos (a v) (dm v)) <= u)%Qc /\ (u < below (row v a) (S (pos (a v) (dm v))))%Qc.

  Lemma value_iff v t a s u : In v order -> dget tables v = Some t -> okon dm (ps v) a -> records s (ps v) a -> In (a v) (dm v) -> (0 <= u)%Qc ->
    (get_value t u s = Ok (a v) <-> within a v u).
  Proof.
    intros Hv Et Ha Hs Hin Hu. destruct (HT v Hv) as (t' & Et' & _ & Ht). rewrite Et in Et'. injection Et' as <-.
    destruct (Ht a s u Ha Hs Hu) as [H _]. apply H. apply nth_pos; auto.
  Qed.
  Lemma value_some v t a s u : In v order -> dget tables v = Some t -> okon dm (ps v) a -> records s (ps v) a -> uniform u ->
    exists x, In x (dm v) /\ get_value t u s = Ok x.
  Proof.
    intros Hv Et Ha Hs [Hu Hu1]. destruct (HT v Hv) as (t' & Et' & _ & Ht). rewrite Et in Et'. injection Et' as <-.
    destruct (Ht a s u Ha Hs Hu) as [H _].
    destruct (row_hit (row v a) u) as (i & Hi & Hb); auto. rewrite Hsum; auto. rewrite Hlen in Hi.
    destruct (nth_error (dm v) i) as [x|] eqn:E; [|apply nth_error_None in E; lia].
    exists x. split; [eapply nth_error_In; eauto|]. apply (H i x E); auto.
  Qed.

  (** one step *)
  Lemma order_mid before v after : order = before ++ v :: after -> In v order /\ ~ In v before /\ ~ In v after.
  Proof.
    intros E. pose proof HN as H. rewrite E in H. apply NoDup_remove in H as [_ H]. split; [rewrite E; apply in_or_app; simpl; auto|].
    rewrite in_app_iff in H. tauto.
  Qed.
  Lemma forward rest : forall before d a0 us, order = before ++ rest -> map fst d = before -> records d before a0 -> okon dm before a0 ->
    List.length us = List.length rest -> Forall uniform us ->
    exists a, (forall v, In v before -> a v = a0 v) /\ okon dm order a /\
      sample_walk tables [] d (combine us rest) = Ok (d ++ map (fun v => (v, a v)) rest) /\ Forall2 (within a) rest us.
  Proof.
    induction rest as [|v rest IH]; intros before d a0 us Eo Ek Hr Ho Hl Hu.
    - destruct us; [|simpl in Hl; lia]. exists a0. rewrite app_nil_r in Eo. subst order. simpl. rewrite app_nil_r. auto.
    - destruct us as [|u us]; [simpl in Hl; lia|]. destruct (order_mid _ _ _ Eo) as (Hv & Hnb & Hna).
      inversion_clear Hu as [|? ? Hu0 Hus]. assert (Hps : incl (ps v) before) by (intros p Hp; eapply Hord; eauto).
      destruct (HT v Hv) as (t & Et & _). cbn [combine sample_walk]. unfold dgetE. rewrite Et. cbn [rbind].
      assert (Hap : okon dm (ps v) a0) by (intros p Hp; auto). assert (Hrp : records d (ps v) a0) by (intros p Hp; auto).
      destruct (value_some v t a0 d u Hv Et Hap Hrp Hu0) as (x & Hx & Ex). rewrite Ex. cbn [rbind dget].
      assert (Ed : dset d v x = d ++ [(v, x)]) by (apply dkeys_dset_notin; unfold dkeys; rewrite Ek; auto). rewrite Ed.
      destruct (IH (before ++ [v]) (d ++ [(v, x)]) (upd a0 v x) us) as (a & Ha & Hok & Ew & Hf).
      + rewrite <- app_assoc; auto.
      + rewrite map_app, Ek; auto.
      + intros w Hw. apply in_app_or in Hw as [Hw|[<-|[]]].
        * rewrite dget_app, (Hr w Hw). f_equal. symmetry. apply upd_neq. congruence.
        * rewrite dget_app. assert (dget d v = None) as -> by (apply dget_None; unfold dkeys; rewrite Ek; auto). simpl. rewrite Z.eqb_refl, upd_eq; auto.
      + intros w Hw. apply in_app_or in Hw as [Hw|[<-|[]]]; [rewrite upd_neq by congruence; auto|rewrite upd_eq; auto].
      + simpl in Hl; lia.
      + auto.
      + exists a. assert (Hav : a v = x) by (rewrite Ha, upd_eq; auto; apply in_or_app; simpl; auto).
        assert (Hab : forall w, In w before -> a w = a0 w). { intros w Hw. rewrite Ha by (apply in_or_app; auto). apply upd_neq. congruence. }
        split; [auto|]. split; [auto|]. split.
        * rewrite Ew, <- app_assoc. simpl. rewrite Hav. auto.
        * constructor; auto.
          assert (O1 : okon dm (ps v) a) by (intros p Hp; rewrite Hab; auto). assert (O2 : records d (ps v) a) by (intros p Hp; rewrite Hab; auto).
          assert (O3 : In (a v) (dm v)) by (rewrite Hav; auto). apply (proj1 (value_iff v t a d u Hv Et O1 O2 O3 (proj1 Hu0))). congruence.
  Qed.

  (** the draws in the box give the sample [b] *)
  Lemma boxed b : okon dm order b -> forall rest before d us, order = before ++ rest -> map fst d = before -> records d before b ->
    Forall uniform us -> Forall2 (within b) rest us -> sample_walk tables [] d (combine us rest) = Ok (d ++ map (fun v => (v, b v)) rest).
  Proof.
    intros Hb. induction rest as [|v rest IH]; intros before d us Eo Ek Hr Hu HF.
    - inversion HF. simpl. rewrite app_nil_r; auto.
    - inversion HF as [|z0 u l0 us' Hw HF']; subst us; clear HF; subst before. destruct (order_mid _ _ _ Eo) as (Hv & Hnb & Hna). inversion_clear Hu as [|? ? Hu0 Hus].
      assert (Hps : incl (ps v) (map fst d)) by (intros p Hp; eapply Hord; eauto).
      assert (Hin : incl (map fst d) order) by (rewrite Eo; apply incl_appl, incl_refl).
      destruct (HT v Hv) as (t & Et & _). cbn [combine sample_walk]. unfold dgetE. rewrite Et. cbn [rbind].
      assert (Ex : get_value t u d = Ok (b v)). { apply (value_iff v t b d u); auto; [intros p Hp; auto|intros p Hp; auto|apply Hu0]. }
      rewrite Ex. cbn [rbind dget]. assert (Ed : dset d v (b v) = d ++ [(v, b v)]) by (apply dkeys_dset_notin; auto). rewrite Ed.
      rewrite (IH (map fst d ++ [v])); auto.
      + rewrite <- app_assoc; auto.
      + rewrite <- app_assoc; auto.
      + rewrite map_app; auto.
      + intros w Hw'. apply in_app_or in Hw' as [Hw'|[<-|[]]].
        * rewrite dget_app, (Hr w Hw'). auto.
        * rewrite dget_app. assert (dget d v = None) as -> by (apply dget_None; auto). simpl. rewrite Z.eqb_refl; auto.
  Qed.

  (** with evidence: the walk follows the walk without evidence up to the first mismatch *)
  Variable ev : sample.
  Hypothesis Hev : NoDup (dkeys ev).
  Hypothesis Hevo : incl (dkeys ev) order.

  Lemma evidence_walk a rest : forall before d us, okon dm order a -> order = before ++ rest -> NoDup (dkeys d) -> incl (dkeys d) order -> records d before a ->
    (forall v, ~ In v before -> dget d v = dget ev v) -> Forall uniform us -> Forall2 (within a) rest us ->
    exists r, sample_walk tables ev d (combine us rest) = Ok r /\ NoDup (dkeys r) /\ incl (dkeys r) order /\
      ((records r order a /\ (forall v x, In v rest -> dget ev v = Some x -> a v = x)) \/
       exists mid v after, rest = mid ++ v :: after /\ (forall w x, In w mid -> dget ev w = Some x -> a w = x) /\
         (exists x, dget ev v = Some x /\ a v <> x) /\ (forall w, In w (dkeys r) <-> In w (before ++ mid) \/ In w (dkeys ev))).
  Proof.
    induction rest as [|v rest IH]; intros before d us Hok Eo HNd Hid Hr He Hu HF.
    - inversion HF. simpl. exists d. rewrite app_nil_r in Eo. rewrite <- Eo in Hr. repeat split; auto. left. split; auto. simpl; tauto.
    - inversion HF as [|z0 u l0 us' Hw HF']; subst us; clear HF. destruct (order_mid _ _ _ Eo) as (Hv & Hnb & Hna). inversion_clear Hu as [|? ? Hu0 Hus].
      assert (Hps : incl (ps v) before) by (intros p Hp; eapply Hord; eauto).
      destruct (HT v Hv) as (t & Et & _). cbn [combine sample_walk]. unfold dgetE. rewrite Et. cbn [rbind].
      assert (Hin : incl before order) by (rewrite Eo; apply incl_appl, incl_refl).
      assert (Ex : get_value t u d = Ok (a v)). { apply (value_iff v t a d u); auto; [intros p Hp; auto|intros p Hp; auto|apply Hu0]. }
      rewrite Ex. cbn [rbind].
      assert (Step : (forall x, dget ev v = Some x -> a v = x) -> exists r, sample_walk tables ev (dset d v (a v)) (combine us' rest) = Ok r /\ NoDup (dkeys r) /\ incl (dkeys r) order /\
      ((records r order a /\ (forall w x, In w (v :: rest) -> dget ev w = Some x -> a w = x)) \/
       exists mid w after, v :: rest = mid ++ w :: after /\ (forall z x, In z mid -> dget ev z = Some x -> a z = x) /\
         (exists x, dget ev w = Some x /\ a w <> x) /\ (forall z, In z (dkeys r) <-> In z (before ++ mid) \/ In z (dkeys ev)))).
      { intros Hm. destruct (IH (before ++ [v]) (dset d v (a v)) us') as (r & Er & HNr & Hir & Hc); auto.
        - rewrite <- app_assoc; auto.
        - apply dset_NoDup; auto.
        - intros w Hw'. apply dkeys_dset_In in Hw' as [|]; auto. subst; auto.
        - intros w Hw'. rewrite dget_dset. destruct (eqb_spec w v) as [->|Hne]; auto. apply in_app_or in Hw' as [Hw'|[Hw'|[]]]; auto. congruence.
        - intros w Hw'. rewrite in_app_iff in Hw'. rewrite dget_dset_neq; [apply He; tauto|]. intros ->. simpl in Hw'; tauto.
        - exists r. split; auto. split; auto. split; auto. destruct Hc as [[Hc1 Hc2]|(mid & w & after & E & H1 & H2 & H3)].
          + left. split; auto. intros w x [<-|Hw']; auto.
          + right. exists (v :: mid), w, after. split; [rewrite E; auto|]. split; [intros z x [<-|Hz]; auto|]. split; auto.
            intros z. rewrite H3, <- app_assoc. simpl. tauto. }
      destruct (dget ev v) as [e|] eqn:Ee.
      + destruct (eqb_spec (a v) e) as [Hae|Hne].
        * apply Step. intros x Hx. congruence.
        * exists d. split; auto. split; auto. split; auto. right. exists [], v, rest. split; auto. split; [simpl; tauto|]. split; [eauto|].
          intros w. rewrite app_nil_r. destruct (in_dec Z.eq_dec w before) as [Hb|Hb].
          -- split; auto. intros _. apply dget_Some_key with (a w). apply Hr; auto.
          -- specialize (He w Hb). split.
             ++ intros Hk. right. apply dkeys_dget in Hk as [x Hx]. rewrite He in Hx. eapply dget_Some_key; eauto.
             ++ intros [|Hk]; [tauto|]. apply dkeys_dget in Hk as [x Hx]. rewrite <- He in Hx. eapply dget_Some_key; eauto.
      + apply Step. intros; discriminate.
  Qed.
End Walk.
