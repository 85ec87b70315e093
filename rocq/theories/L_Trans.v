(** Transformer.transform builds a forest over the cliques by the greedy rule, whatever the iteration order of sets. *)
From Coq Require Import Sorted.
From Verif Require Import Py M_Graph M_Node M_Pptc Spec L_Base L_PD L_Forest L_Table L_Root L_Good L_Ids.

Section Trans.
  Context (cs : list clique) (Hcl : forall c, In c cs -> cl_ok c) (HN : NoDup (map cl_id cs)).

  Lemma id_inj a b : In a cs -> In b cs -> cl_id a = cl_id b -> a = b.
  Proof using HN.
    clear Hcl. intros Ha Hb E. induction cs as [|c l IH]; [destruct Ha|]. inversion HN as [|? ? N1 N2]; subst.
    destruct Ha as [<-|Ha], Hb as [<-|Hb]; auto; exfalso; apply N1; [rewrite E|rewrite <- E]; apply in_map; auto.
  Qed.

  Definition sgood (s : sepset) : Prop :=
    exists a b, s = mk_sepset a b /\ In a cs /\ In b cs /\ cl_id a <> cl_id b /\ inter a b <> [].

  Lemma sgood_left s : sgood s -> In (ss_left s) cs.
  Proof. intros [a [b [-> [Ha _]]]]. rewrite mk_sepset_left; auto. Qed.
  Lemma sgood_right s : sgood s -> In (ss_right s) cs.
  Proof. intros [a [b [-> [_ [Hb _]]]]]. rewrite mk_sepset_right; auto. Qed.
  Lemma sgood_neq s : sgood s -> cl_id (ss_left s) <> cl_id (ss_right s).
  Proof. intros [a [b [-> [_ [_ [Hn _]]]]]]. rewrite mk_sepset_left, mk_sepset_right; auto. Qed.
  Lemma sgood_id s s' : sgood s -> sgood s' -> ss_id s = ss_id s' -> s = s'.
  Proof using Hcl HN.
    intros [a [b [-> [Ha [Hb [_ N1]]]]]] [c [d [-> [Hc [Hd [_ N2]]]]]] E.
    destruct (ss_id_inj a b c d) as [E1 E2]; auto. apply id_inj in E1; auto. apply id_inj in E2; auto. congruence.
  Qed.
  Lemma sgood_cl s c : sgood s -> In c cs -> ss_id s <> cl_id c.
  Proof using Hcl. intros [a [b [-> [Ha [Hb [_ N1]]]]]] Hc. apply ss_cl_id; auto. Qed.

  Lemma sgood_key s s' : sgood s -> sgood s' -> jt_edge_key s = jt_edge_key s' ->
    (cl_id (ss_left s) = cl_id (ss_left s') /\ cl_id (ss_right s) = cl_id (ss_right s')) \/
    (cl_id (ss_left s) = cl_id (ss_right s') /\ cl_id (ss_right s) = cl_id (ss_left s')).
  Proof using Hcl.
    assert (G : forall s, sgood s -> cl_ok (ss_left s) /\ cl_ok (ss_right s) /\ cl_nodes (ss_left s) <> [] /\ cl_nodes (ss_right s) <> []).
    { intros t [a [b [-> [Ha [Hb [_ Hi]]]]]]. rewrite mk_sepset_left, mk_sepset_right. split; auto. split; auto.
      destruct (inter a b) as [|x l] eqn:E; [congruence|]. assert (Hx : In x (inter a b)) by (rewrite E; left; auto). apply inter_In in Hx. destruct Hx as [X1 X2].
      split; intros E0; rewrite E0 in *; auto. }
    intros H1 H2. destruct (G s H1) as [A1 [A2 [A3 A4]]], (G s' H2) as [B1 [B2 [B3 B4]]]. apply edge_key_inj; auto.
  Qed.

  Record tinv (h : heap) (j : jtree) (F : list sepset) : Prop := {
    ti_nodes : jt_nodes j = map (fun c => (cl_id c, JC c)) cs ++ map (fun s => (ss_id s, JS s)) (rev F);
    ti_good : forall s, In s F -> sgood s;
    ti_nd : NoDup (map ss_id F);
    ti_nbs : forall s, In s F -> jt_neighbors j (ss_id s) = [cl_id (ss_left s); cl_id (ss_right s)];
    ti_nbc : forall c, In c cs -> jt_neighbors j (cl_id c) = map ss_id (filter (touch c) (rev F));
    ti_fresh : forall s, sgood s -> ~ In (ss_id s) (map ss_id F) -> jt_neighbors j (ss_id s) = [];
    ti_closed : forall x y, In y (jt_neighbors j x) -> In y (dkeys (jt_nbrs j));
    ti_edges : jt_edges j = map (fun s => (jt_edge_key s, s)) (rev F);
    ti_pots : jt_pots j = []; ti_evid : jt_evid j = []; ti_lis : jt_listener j = false; ti_pinfo : jt_pinfo j = []; ti_heap : jt_heap j = h }.

  Section Step.
    Context (o : Ord) (Ho : ord_ok o) (h : heap) (j : jtree) (F : list sepset) (T : tinv h j F).

    Lemma touch_spec c s : touch c s = true <-> cl_id (ss_left s) = cl_id c \/ cl_id (ss_right s) = cl_id c.
    Proof. unfold touch. rewrite orb_true_iff, !eqb_true. reflexivity. Qed.

    Lemma nb_conn a b : In a cs -> In b cs ->
      path (fun x y => In y (sord o x (jt_neighbors j x))) (cl_id a) (cl_id b) <-> conn (map ends F) (cl_id a) (cl_id b).
    Proof using Hcl HN Ho T.
      intros Ha Hb. split.
      - intros Hp.
        set (Q := fun y => (exists b, In b cs /\ y = cl_id b /\ conn (map ends F) (cl_id a) (cl_id b)) \/
                           (exists s, In s F /\ y = ss_id s /\ conn (map ends F) (cl_id a) (cl_id (ss_left s)))).
        assert (G : Q (cl_id b)).
        { apply (path_inv _ Q) with (x := cl_id a) in Hp; auto.
          - intros x y Hx Hy. apply sord_In in Hy; auto. destruct Hx as [[c [Hc [-> Hx]]]|[s [Hs [-> Hx]]]].
            + rewrite (ti_nbc _ _ _ T c Hc) in Hy. apply in_map_iff in Hy. destruct Hy as [s [<- Hs]]. apply filter_In in Hs. destruct Hs as [Hs Ht].
              apply in_rev in Hs. right. exists s. split; auto. split; auto. apply touch_spec in Ht. destruct Ht as [E|E].
              * rewrite E; auto.
              * eapply conn_trans; [exact Hx|]. rewrite <- E. apply conn_sym, conn_edge. apply in_map_iff. exists s; auto.
            + rewrite (ti_nbs _ _ _ T s Hs) in Hy. pose proof (ti_good _ _ _ T s Hs) as Hg. left. destruct Hy as [<-|[<-|[]]].
              * exists (ss_left s). split; [apply sgood_left; auto|auto].
              * exists (ss_right s). split; [apply sgood_right; auto|]. split; auto. eapply conn_trans; [exact Hx|]. apply conn_edge. apply in_map_iff. exists s; auto.
          - left. exists a. split; auto. split; auto. apply conn_refl. }
        destruct G as [[c [Hc [E Hx]]]|[s [Hs [E Hx]]]].
        + rewrite E. auto.
        + exfalso. symmetry in E. revert E. apply sgood_cl; auto. apply (ti_good _ _ _ T); auto.
      - intros Hp. unfold conn in Hp. induction Hp as [x|x y z Hs Hp IH]; [constructor|]. eapply path_trans; [|exact IH].
        assert (G : forall s, In s F -> forall u v, ends s = (u, v) ->
           path (fun x y => In y (sord o x (jt_neighbors j x))) u v /\ path (fun x y => In y (sord o x (jt_neighbors j x))) v u).
        { intros s Hs' u v E. inversion E; subst. pose proof (ti_good _ _ _ T s Hs') as Hg.
          assert (A1 : forall c, In c cs -> touch c s = true -> In (ss_id s) (sord o (cl_id c) (jt_neighbors j (cl_id c)))).
          { intros c Hc Ht. apply sord_In; auto. rewrite (ti_nbc _ _ _ T c Hc). apply in_map, filter_In. split; auto. apply in_rev; rewrite rev_involutive; auto. }
          split; eapply path_step; try (apply A1; [first [apply sgood_left|apply sgood_right]; auto|apply touch_spec; auto]);
            apply path_one; apply sord_In; auto; rewrite (ti_nbs _ _ _ T s Hs'); simpl; auto. }
        destruct Hs as [Hs|Hs]; apply in_map_iff in Hs; destruct Hs as [s [E Hs]]; destruct (G s Hs _ _ E); auto.
    Qed.

    Lemma shouldadd_ok s : sgood s -> exists b, jt_shouldadd o j s = Ok b /\
      (b = true <-> ~ conn (map ends F) (cl_id (ss_left s)) (cl_id (ss_right s))).
    Proof using Hcl HN Ho T.
      intros Hs. unfold jt_shouldadd. destruct (eqb_spec (cl_id (ss_left s)) (cl_id (ss_right s))) as [E|E].
      - exfalso. revert E. apply sgood_neq; auto.
      - destruct (pd_exists_fuel (fun i => sord o i (jt_neighbors j i)) (cl_id (ss_right s)) (cl_id (ss_left s) :: dkeys (jt_nbrs j))) with
          (f := jt_fuel j) (start := cl_id (ss_left s)) as [b Eb].
        + intros x y _ Hy. right. apply sord_In in Hy; auto. eapply ti_closed; eauto.
        + left; auto.
        + unfold jt_fuel, dkeys. simpl. rewrite map_length. lia.
        + rewrite Eb. cbn [rbind]. exists (negb b). split; auto. apply pd_exists_spec in Eb. unfold R in Eb.
          rewrite <- nb_conn by (first [apply sgood_left|apply sgood_right]; auto). rewrite <- Eb. destruct b; simpl; split; intros; try congruence; tauto.
    Qed.

    Lemma nodes_dmem c : In c cs -> forall x, dmem (jt_nodes j ++ x) (cl_id c) = true.
    Proof using T.
      intros Hc x. apply dmem_In. unfold dkeys. rewrite (ti_nodes _ _ _ T), !map_app, map_map. simpl. apply in_or_app; left. apply in_or_app; left. apply in_map; auto.
    Qed.
    Lemma nodes_fresh s : sgood s -> ~ In (ss_id s) (map ss_id F) -> ~ In (ss_id s) (dkeys (jt_nodes j)).
    Proof using Hcl T.
      intros Hs Hn Hi. unfold dkeys in Hi. rewrite (ti_nodes _ _ _ T), map_app, !map_map in Hi. simpl in Hi. apply in_app_or in Hi. destruct Hi as [Hi|Hi].
      - apply in_map_iff in Hi. destruct Hi as [c [E Hc]]. symmetry in E. revert E. apply sgood_cl; auto.
      - apply Hn. apply in_map_iff in Hi. destruct Hi as [s' [E Hs']]. apply in_map_iff. exists s'. split; auto. apply in_rev; auto.
    Qed.

    Lemma add_edge_ok s : sgood s -> exists j', jt_add_edge o j s = Ok j' /\
      ((conn (map ends F) (cl_id (ss_left s)) (cl_id (ss_right s)) /\ j' = j) \/
       (~ conn (map ends F) (cl_id (ss_left s)) (cl_id (ss_right s)) /\ tinv h j' (s :: F))).
    Proof using Hcl HN Ho T.
      intros Hs. unfold jt_add_edge. destruct (shouldadd_ok s Hs) as [b [-> Hb]]. cbn [rbind]. destruct b.
      2:{ exists j. split; auto. left. split; auto. destruct (pd_exists_fuel (fun i => sord o i (jt_neighbors j i)) (cl_id (ss_right s)) (cl_id (ss_left s) :: dkeys (jt_nbrs j))) with
          (f := jt_fuel j) (start := cl_id (ss_left s)) as [b Eb].
        - intros x y _ Hy. right. apply sord_In in Hy; auto. eapply ti_closed; eauto.
        - left; auto.
        - unfold jt_fuel, dkeys. simpl. rewrite map_length. lia.
        - pose proof (pd_exists_spec _ _ _ _ _ Eb) as Hsp. unfold R in Hsp.
          rewrite nb_conn in Hsp by (first [apply sgood_left|apply sgood_right]; auto). destruct b; [tauto|].
          exfalso. assert (false = true); [|discriminate]. apply Hb. rewrite <- Hsp. discriminate. }
      assert (Hc : ~ conn (map ends F) (cl_id (ss_left s)) (cl_id (ss_right s))) by (apply Hb; auto).
      assert (Hf : ~ In (ss_id s) (map ss_id F)).
      { intros Hi. apply Hc. apply in_map_iff in Hi. destruct Hi as [s' [E Hs']]. apply sgood_id in E; auto; [|apply (ti_good _ _ _ T); auto]. subst.
        apply conn_edge, in_map_iff. exists s; auto. }
      assert (En : jt_add_node (jt_add_node (jt_add_node j (JS s)) (JC (ss_left s))) (JC (ss_right s)) = set_jnodes j (jt_nodes j ++ [(ss_id s, JS s)])).
      { unfold jt_add_node at 3. simpl j_id.
        rewrite (proj2 (dmem_false _ _) (nodes_fresh s Hs Hf)). rewrite dkeys_dset_notin by (apply nodes_fresh; auto).
        unfold jt_add_node at 2. simpl. rewrite nodes_dmem by (apply sgood_left; auto).
        unfold jt_add_node. simpl. rewrite nodes_dmem by (apply sgood_right; auto). auto. }
      rewrite En. clear En. simpl. eexists. split; [reflexivity|]. right. split; auto.
      set (l := cl_id (ss_left s)) in *. set (r := cl_id (ss_right s)) in *. set (k := ss_id s) in *.
      assert (Hlr : l <> r) by (apply sgood_neq; auto).
      assert (Hkl : k <> l) by (apply sgood_cl; auto; apply sgood_left; auto).
      assert (Hkr : k <> r) by (apply sgood_cl; auto; apply sgood_right; auto).
      assert (Hk0 : dgets (jt_nbrs j) k = []) by (apply (ti_fresh _ _ _ T); auto).
      assert (Hkn : forall x c, In c cs -> In x (dgets (jt_nbrs j) (cl_id c)) -> x <> k).
      { intros x c Hcc Hx ->. pose proof (ti_nbc _ _ _ T c Hcc) as E. unfold jt_neighbors in E. rewrite E in Hx.
        apply Hf. apply in_map_iff in Hx. destruct Hx as [s' [E' Hs']]. apply filter_In in Hs'. apply in_map_iff. exists s'. split; auto. apply in_rev; tauto. }
      assert (Enb : forall x, dgets (dsadds (dsadds (dsadds (dsadds (jt_nbrs j) l k) r k) k l) k r) x =
                 if eqb x k then [l; r] else if eqb x l || eqb x r then dgets (jt_nbrs j) x ++ [k] else dgets (jt_nbrs j) x).
      { intros x. unfold dsadds. rewrite !dgets_dset.
        rewrite (eqb_refl k). rewrite (proj2 (eqb_false k r)), (proj2 (eqb_false k l)), (proj2 (eqb_false r l)) by auto. rewrite Hk0.
        assert (Sk : sadd (sadd [] l) r = [l; r]). { change (sadd [] l) with [l]. unfold sadd. destruct (mem_spec r [l]) as [[Hq|[]]|_]; [congruence|reflexivity]. }
        rewrite Sk.
        assert (Sn : forall c, In c cs -> sadd (dgets (jt_nbrs j) (cl_id c)) k = dgets (jt_nbrs j) (cl_id c) ++ [k]).
        { intros c Hcc. unfold sadd. destruct (mem_spec k (dgets (jt_nbrs j) (cl_id c))) as [Hi|Hi]; auto. exfalso. eapply Hkn; eauto. }
        destruct (eqb_spec x k); auto. destruct (eqb_spec x r) as [->|]; [|destruct (eqb_spec x l) as [->|]; auto].
        - rewrite orb_true_r. apply Sn. apply sgood_right; auto.
        - simpl. apply Sn. apply sgood_left; auto. }
      constructor; simpl.
      - rewrite (ti_nodes _ _ _ T), map_app, <- app_assoc. auto.
      - intros s' [<-|Hs']; auto. apply (ti_good _ _ _ T); auto.
      - constructor; auto. apply (ti_nd _ _ _ T).
      - intros s' Hs'. unfold jt_neighbors. simpl. rewrite Enb. destruct (eqb_spec (ss_id s') k) as [E|E].
        + destruct Hs' as [<-|Hs']; auto. exfalso. apply Hf. change (ss_id s) with k. rewrite <- E. apply in_map; auto.
        + destruct Hs' as [<-|Hs']; [exfalso; apply E; auto|]. pose proof (ti_good _ _ _ T s' Hs') as Hg.
          rewrite (proj2 (eqb_false (ss_id s') l)), (proj2 (eqb_false (ss_id s') r)) by (apply sgood_cl; auto; first [apply sgood_left|apply sgood_right]; auto).
          apply (ti_nbs _ _ _ T); auto.
      - intros c Hcc. unfold jt_neighbors. simpl. rewrite Enb. rewrite (proj2 (eqb_false (cl_id c) k)) by (intros E; symmetry in E; revert E; apply sgood_cl; auto).
        rewrite filter_app, map_app. cbn [filter]. pose proof (ti_nbc _ _ _ T c Hcc) as E. unfold jt_neighbors in E. rewrite E.
        assert (Et : touch c s = eqb (cl_id c) l || eqb (cl_id c) r). { unfold touch. rewrite (eqb_sym (cl_id c) l), (eqb_sym (cl_id c) r). reflexivity. }
        rewrite Et. destruct (eqb (cl_id c) l || eqb (cl_id c) r); auto. cbn [map]. rewrite app_nil_r; auto.
      - intros s' Hg' Hn'. unfold jt_neighbors. simpl. rewrite Enb. rewrite (proj2 (eqb_false (ss_id s') k)) by (intros E; apply Hn'; left; auto).
        rewrite (proj2 (eqb_false (ss_id s') l)), (proj2 (eqb_false (ss_id s') r)) by (apply sgood_cl; auto; first [apply sgood_left|apply sgood_right]; auto).
        apply (ti_fresh _ _ _ T); auto.
      - intros x y Hy. unfold jt_neighbors in Hy. simpl in Hy. rewrite Enb in Hy. unfold dsadds. rewrite !dkeys_dset_In.
        destruct (eqb x k). { simpl in Hy. destruct Hy as [<-|[<-|[]]]; auto. }
        destruct (eqb x l || eqb x r).
        + apply in_app_or in Hy. destruct Hy as [Hy|[<-|[]]]; auto. left. left. left. left. eapply ti_closed; eauto.
        + left. left. left. left. eapply ti_closed; eauto.
      - rewrite dkeys_dset_notin.
        + rewrite (ti_edges _ _ _ T), map_app. reflexivity.
        + rewrite (ti_edges _ _ _ T). unfold dkeys. rewrite map_map. simpl. intros Hi. apply in_map_iff in Hi. destruct Hi as [s' [E Hs']]. apply in_rev in Hs'.
          pose proof (ti_good _ _ _ T s' Hs') as Hg. apply sgood_key in E; auto. apply Hc. assert (Hcs : conn (map ends F) (cl_id (ss_left s')) (cl_id (ss_right s'))).
          { apply conn_edge, in_map_iff. exists s'; auto. }
          destruct E as [[E1 E2]|[E1 E2]]; unfold l, r; rewrite <- E1, <- E2; auto. apply conn_sym; auto.
      - apply (ti_pots _ _ _ T).
      - apply (ti_evid _ _ _ T).
      - apply (ti_lis _ _ _ T).
      - apply (ti_pinfo _ _ _ T).
      - apply (ti_heap _ _ _ T).
    Qed.
  End Step.

  Lemma fold_edges o h (Ho : ord_ok o) L : forall j F, tinv h j F -> (forall s, In s L -> sgood s) ->
    exists j' F', foldM (jt_add_edge o) L j = Ok j' /\ tinv h j' F' /\ greedy ends F L F'.
  Proof using Hcl HN.
    induction L as [|s L IH]; intros j F T HL; simpl.
    - exists j, F. split; auto. split; auto. constructor.
    - destruct (add_edge_ok o Ho h j F T s) as [j1 [E1 [[Hc Ej]|[Hc T1]]]]; [apply HL; left; auto| |]; rewrite E1; cbn [rbind].
      + subst. destruct (IH j F T) as [j' [F' [E [T' G]]]]; [intros; apply HL; right; auto|]. exists j', F'. split; auto. split; auto. apply greedy_skip; auto.
      + destruct (IH j1 (s :: F) T1) as [j' [F' [E [T' G]]]]; [intros; apply HL; right; auto|]. exists j', F'. split; auto. split; auto. apply greedy_take; auto.
  Qed.

  Lemma tinv_start h : tinv h (fold_left (fun j c => jt_add_node j (JC c)) cs (jt_empty h)) [].
  Proof using HN.
    assert (G : forall l l0 j, NoDup (map cl_id (l0 ++ l)) -> jt_nodes j = map (fun c => (cl_id c, JC c)) l0 ->
       fold_left (fun j c => jt_add_node j (JC c)) l j = set_jnodes j (map (fun c => (cl_id c, JC c)) (l0 ++ l))).
    { induction l as [|c l IH]; intros l0 j Hn Ej.
      - simpl. rewrite app_nil_r, <- Ej. destruct j; auto.
      - simpl. assert (Hc : ~ In (cl_id c) (dkeys (jt_nodes j))).
        { rewrite Ej. unfold dkeys. rewrite map_map. simpl. rewrite map_app in Hn. simpl in Hn. apply NoDup_remove_2 in Hn. rewrite in_app_iff in Hn. tauto. }
        unfold jt_add_node at 2. simpl j_id. rewrite (proj2 (dmem_false _ _) Hc). rewrite dkeys_dset_notin by auto.
        rewrite (IH (l0 ++ [c])).
        + rewrite <- app_assoc. destruct j; auto.
        + rewrite <- app_assoc. auto.
        + simpl. rewrite Ej, map_app. auto. }
    rewrite (G cs [] (jt_empty h)); auto. constructor; simpl; try (rewrite app_nil_r); auto; try (intros s []); try (intros x y []).
    constructor.
  Qed.

  Lemma pairs_In {A} (l : list A) a b : In (a, b) (pairs l) -> In a l /\ In b l.
  Proof.
    induction l as [|x l IH]; simpl; [tauto|]. rewrite in_app_iff. intros [Hi|Hi].
    - apply in_map_iff in Hi. destruct Hi as [y [E Hy]]. inv E. auto.
    - destruct (IH Hi); auto.
  Qed.
  Lemma pairs_all {A} (l : list A) a b : In a l -> In b l -> a <> b -> In (a, b) (pairs l) \/ In (b, a) (pairs l).
  Proof.
    induction l as [|x l IH]; simpl; [tauto|]. rewrite !in_app_iff. intros [->|Ha] [->|Hb] Hn; try congruence.
    - left; left. apply in_map; auto.
    - right; left. apply in_map; auto.
    - destruct (IH Ha Hb Hn); auto.
  Qed.
  Lemma pairs_neq {A B} (f : A -> B) (l : list A) a b : NoDup (map f l) -> In (a, b) (pairs l) -> f a <> f b.
  Proof.
    induction l as [|x l IH]; simpl; [tauto|]. intros Hn. inversion Hn as [|? ? N1 N2]; subst. rewrite in_app_iff. intros [Hi|Hi]; auto.
    apply in_map_iff in Hi. destruct Hi as [y [E Hy]]. inv E. intros E. apply N1. rewrite E. apply in_map; auto.
  Qed.

  Lemma sep_sets_In wt s : In s (get_sep_sets wt cs) <-> exists a b, In (a, b) (pairs cs) /\ inter a b <> [] /\ s = mk_sepset a b.
  Proof.
    unfold get_sep_sets. rewrite isort_In, in_flat_map. split.
    - intros [[a b] [Hp Hi]]. simpl in Hi. exists a, b. split; auto. destruct (inter a b) as [|x l] eqn:E.
      + rewrite intersects_false in Hi by auto. destruct Hi.
      + rewrite intersects_true in Hi by congruence. destruct Hi as [<-|[]]. split; auto; discriminate.
    - intros [a [b [Hp [Hi ->]]]]. exists (a, b). split; auto. simpl. rewrite intersects_true by auto. left; auto.
  Qed.
  Lemma sep_sets_good wt s : In s (get_sep_sets wt cs) -> sgood s.
  Proof using HN.
    rewrite sep_sets_In. intros [a [b [Hp [Hi ->]]]]. exists a, b. destruct (pairs_In cs a b Hp). split; auto. split; auto. split; auto. split; auto.
    eapply pairs_neq; eauto.
  Qed.

  Lemma ss_leb_total wt x y : ss_leb wt x y = true \/ ss_leb wt y x = true.
  Proof.
    unfold ss_leb. rewrite (Nat.eqb_sym (ss_mass y)), (Z.eqb_sym (ss_cost wt y)).
    destruct (Nat.eqb_spec (ss_mass x) (ss_mass y)).
    - destruct (Z.eqb_spec (ss_cost wt x) (ss_cost wt y)). apply str_leb_total. apply Zleb_total.
    - rewrite !Nat.leb_le. lia.
  Qed.
  Lemma ss_leb_trans wt x y z : ss_leb wt x y = true -> ss_leb wt y z = true -> ss_leb wt x z = true.
  Proof.
    unfold ss_leb.
    destruct (Nat.eqb_spec (ss_mass x) (ss_mass y)), (Nat.eqb_spec (ss_mass y) (ss_mass z)), (Nat.eqb_spec (ss_mass x) (ss_mass z)); try (rewrite !Nat.leb_le); try lia; try (intros; exfalso; lia).
    destruct (Z.eqb_spec (ss_cost wt x) (ss_cost wt y)), (Z.eqb_spec (ss_cost wt y) (ss_cost wt z)), (Z.eqb_spec (ss_cost wt x) (ss_cost wt z)); try (rewrite !Z.leb_le); try lia; try (intros; exfalso; lia).
    apply str_leb_trans.
  Qed.
  Lemma ss_leb_mass wt x y : ss_leb wt x y = true -> ss_mass y <= ss_mass x.
  Proof. unfold ss_leb. destruct (Nat.eqb_spec (ss_mass x) (ss_mass y)). lia. rewrite Nat.leb_le. auto. Qed.

  Lemma sep_sets_sorted wt : StronglySorted (fun a b => ss_mass b <= ss_mass a) (get_sep_sets wt cs).
  Proof.
    unfold get_sep_sets. match goal with |- context [isort _ ?l] => pose proof (isort_sorted (ss_leb wt) (ss_leb_total wt) (ss_leb_trans wt) l) as HS end.
    induction HS as [|x l Hl IH HF]; constructor; auto. rewrite Forall_forall in *. intros y Hy. apply ss_leb_mass with wt; auto.
  Qed.

  Record transformed (h : heap) (j : jtree) (F : list sepset) : Prop := {
    tf_greedy : greedy ends [] (get_sep_sets (h_weight h) cs) F;
    tf_JG : JG j;
    tf_cl : jt_cliques j = cs;
    tf_ss : jt_sepsets j = rev F;
    tf_edges : jt_edges j = map (fun s => (jt_edge_key s, s)) (rev F);
    tf_heap : jt_heap j = h; tf_evid : jt_evid j = []; tf_pots : jt_pots j = []; tf_lis : jt_listener j = false }.

  Theorem transform_ok o h : ord_ok o -> exists j F, transform o h cs = Ok j /\ transformed h j F.
  Proof using Hcl HN.
    intros Ho. unfold transform. destruct (fold_edges o h Ho (get_sep_sets (h_weight h) cs) _ [] (tinv_start h)) as [j [F [E [T G]]]].
    { apply sep_sets_good. }
    exists j, F. split; auto.
    assert (Ec : jt_cliques j = cs).
    { unfold jt_cliques, dvals. rewrite (ti_nodes _ _ _ T), map_app, flat_map_app, !map_map. simpl.
      replace (flat_map _ (map (fun s => JS s) (rev F))) with (@nil clique). 2:{ induction (rev F); simpl; auto. }
      rewrite app_nil_r. clear. induction cs; simpl; congruence. }
    assert (Es : jt_sepsets j = rev F).
    { unfold jt_sepsets, dvals. rewrite (ti_nodes _ _ _ T), map_app, flat_map_app, !map_map. simpl.
      replace (flat_map _ (map (fun s => JC s) cs)) with (@nil sepset). 2:{ clear. induction cs; simpl; auto. }
      simpl. clear. induction (rev F); simpl; congruence. }
    constructor; auto.
    - constructor.
      + unfold dkeys. rewrite (ti_nodes _ _ _ T), map_app, !map_map. simpl. apply NoDup_app_intro; auto.
        * rewrite map_rev. apply NoDup_rev. apply (ti_nd _ _ _ T).
        * intros x Hx Hx'. apply in_map_iff in Hx. apply in_map_iff in Hx'. destruct Hx as [c [<- Hc]]. destruct Hx' as [s [Es' Hs]].
          revert Es'. apply sgood_cl; auto. apply (ti_good _ _ _ T), in_rev; auto.
      + intros k n Hi. rewrite (ti_nodes _ _ _ T) in Hi. apply in_app_or in Hi. destruct Hi as [Hi|Hi]; apply in_map_iff in Hi; destruct Hi as [x [Ex _]]; inv Ex; auto.
      + intros s Hs. rewrite Es in Hs. rewrite Ec. apply in_rev in Hs. pose proof (ti_good _ _ _ T s Hs).
        split; [apply sgood_left; auto|split; [apply sgood_right; auto|apply sgood_neq; auto]].
      + intros s Hs. rewrite Es in Hs. apply in_rev in Hs. rewrite (ti_nbs _ _ _ T s Hs). auto.
      + intros c Hc. rewrite Ec in Hc. rewrite (ti_nbc _ _ _ T c Hc), Es. auto.
      + exists F. split; [rewrite Es; apply Permutation_rev|]. eapply greedy_forest; eauto. constructor.
      + intros c Hc. rewrite Ec in Hc. apply Hcl; auto.
      + intros s Hs. rewrite Es in Hs. apply in_rev in Hs. destruct (ti_good _ _ _ T s Hs) as [a [b [-> [Ha [Hb [Hn Hi]]]]]].
        rewrite mk_sepset_nodes, mk_sepset_left, mk_sepset_right. split; [|split].
        * apply NoDup_filter. apply Hcl; auto.
        * intros x Hx. apply inter_In in Hx. tauto.
        * intros x Hx. apply inter_In in Hx. tauto.
    - apply (ti_edges _ _ _ T).
    - apply (ti_heap _ _ _ T).
    - apply (ti_evid _ _ _ T).
    - apply (ti_pots _ _ _ T).
    - apply (ti_lis _ _ _ T).
  Qed.
End Trans.
