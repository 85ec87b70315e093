(** The keys of edges, and the list of edges after any calls. *)
From Verif Require Import Py M_Graph M_Node Spec SpecGraph SpecKeys L_Base L_PD L_UG L_Ids L_Elim L_Trans L_Tri L_Moral L_P3.

Section Keys.
  Context {N : Type} (nid : N -> Z).
  Notation graph := (graph N).

  Lemma key_link e f : edge_key nid e = edge_key nid f <-> same_link nid e f.
  Proof.
    unfold edge_key, same_link. destruct (e_t e), (e_t f).
    - split.
      + intros E. apply key_und_inj in E. split; auto. set (a := nid (e_i e)) in *. set (b := nid (e_j e)) in *. set (c := nid (e_i f)) in *. set (d := nid (e_j f)) in *. assert (H : (a = c /\ b = d) \/ (a = d /\ b = c)) by lia. tauto.
      + intros [_ [[-> ->]|[_ [-> ->]]]]; auto. rewrite Z.min_comm, Z.max_comm. reflexivity.
    - split; [|intros [E _]; discriminate]. intros E. exfalso. apply str_prefix in E; [|right; simpl; eauto|right; simpl; eauto]. destruct E as [_ E]. discriminate.
    - split; [|intros [E _]; discriminate]. intros E. exfalso. apply str_prefix in E; [|right; simpl; eauto|right; simpl; eauto]. destruct E as [_ E]. discriminate.
    - split.
      + intros E. apply key_dir_inj in E. tauto.
      + intros [_ [[-> ->]|[E _]]]; auto; discriminate.
  Qed.

  Definition keyed (g : graph) : Prop := ekeyed nid g /\ NoDup (dkeys (g_edges g)).
  Lemma dset_vals_iff {K V} `{EqB K} (d : list (K * V)) k v w : NoDup (dkeys d) -> (In w (dvals (dset d k v)) <-> w = v \/ exists k', In (k', w) d /\ k' <> k).
  Proof.
    induction d as [|[k1 v1] d IH]; simpl; intros Hd.
    - split; [intros [->|[]]; auto|]. intros [->|[k' [[] _]]]; auto.
    - inversion Hd as [|? ? Hn Hd']; subst. destruct (eqb_spec k k1) as [->|Hne]; simpl.
      + split.
        * intros [->|Hi]; auto. right. unfold dvals in Hi. apply in_map_iff in Hi. destruct Hi as [[k' w'] [E Hi]]. simpl in E. subst. exists k'. split; auto. intros ->. apply Hn. apply in_map_iff. exists (k1, w). auto.
        * intros [->|[k' [[E|Hi] Hk]]]; auto; [congruence|]. right. apply in_map_iff. exists (k', w). auto.
      + rewrite IH by auto. split.
        * intros [->|[->|[k' [Hi Hk]]]]; auto; right; [exists k1|exists k']; auto.
        * intros [->|[k' [[E|Hi] Hk]]]; auto; [inversion E; auto|]. right. right. eauto.
  Qed.
  Lemma keyed_put g e : keyed g -> keyed (put_edge nid g e).
  Proof. intros [K D]. split; [apply ekeyed_put; auto|]. simpl. apply dset_NoDup; auto. Qed.
  Lemma keyed_same g g' : g_edges g' = g_edges g -> keyed g -> keyed g'.
  Proof. unfold keyed, ekeyed. intros ->. auto. Qed.
  Lemma put_edges g e w : keyed g -> (In w (get_edges (put_edge nid g e)) <-> w = e \/ In w (get_edges g) /\ ~ same_link nid w e).
  Proof.
    intros [K D]. unfold get_edges. simpl. rewrite dset_vals_iff by auto. split; (intros [->|H]; [left; auto|right]).
    - destruct H as [k [Hi Hk]]. split. { apply in_map_iff. exists (k, w). auto. } rewrite <- key_link. rewrite <- (K _ _ Hi). auto.
    - destruct H as [Hi Hs]. apply in_map_iff in Hi. destruct Hi as [[k w'] [E Hi]]. simpl in E. subst. exists k. split; auto. rewrite (K _ _ Hi), key_link. auto.
  Qed.
  Lemma add_node_edges g n : g_edges (add_node nid g n) = g_edges g.
  Proof. unfold add_node. destruct (dmem _ _); auto. Qed.
  Lemma ends_edges g e : g_edges (add_ends nid g e) = g_edges g.
  Proof. unfold add_ends. rewrite !add_node_edges. auto. Qed.

  Lemma links_of_keyed g : keyed g -> links_once nid (get_edges g).
  Proof.
    unfold links_once, get_edges, keyed, ekeyed, dvals, dkeys. induction (g_edges g) as [|[k e] l IH]; simpl; intros [K D]; constructor.
    - inversion D as [|? ? Hn D']; subst. rewrite Forall_forall. intros f Hf Hs. apply in_map_iff in Hf. destruct Hf as [[k' f'] [E Hf]]. simpl in E. subst f'.
      apply Hn. rewrite (K k e) by auto. apply key_link in Hs. rewrite Hs, <- (K k' f) by auto. apply in_map_iff. exists (k', f). auto.
    - inversion D; subst. apply IH. split; auto.
  Qed.

  (** ** any kind of graph *)
  Section Run.
    Context {A : Type} (adds : A -> option (edge N)) (acc : list A -> edge N -> Prop).
    Lemma last_snoc ops op e : last_accepted nid adds acc (ops ++ [op]) e <->
      (adds op = Some e /\ acc ops e) \/ (last_accepted nid adds acc ops e /\ ~ exists f, adds op = Some f /\ acc ops f /\ same_link nid e f).
    Proof.
      split.
      - intros [before [x [after [E [Ha [Hc Hl]]]]]]. destruct after as [|y after _] using rev_ind.
        + apply app_inj_tail in E. destruct E as [-> ->]. auto.
        + assert (E' : ops ++ [op] = (before ++ x :: after) ++ [y]) by (rewrite E, <- app_assoc; auto). apply app_inj_tail in E'. destruct E' as [-> ->]. right. split.
          * exists before, x, after. repeat split; auto. intros mid op' rest f -> Hf Hacc. apply (Hl mid op' (rest ++ [y]) f); auto. rewrite <- app_assoc. auto.
          * intros [f [Hf [Hacc Hs]]]. apply (Hl after y [] f); auto.
      - intros [[Ha Hc]|[[before [x [after [-> [Ha [Hc Hl]]]]]] Hn]].
        + exists ops, op, []. repeat split; auto. intros mid op' rest f E. destruct mid; discriminate.
        + exists before, x, (after ++ [op]). split; [rewrite <- app_assoc; auto|]. repeat split; auto. intros mid op' rest f E Hf Hacc Hs.
          destruct rest as [|z rest _] using rev_ind.
          * apply app_inj_tail in E. destruct E as [-> ->]. apply Hn. eauto.
          * assert (E' : after ++ [op] = (mid ++ op' :: rest) ++ [z]) by (rewrite E, <- app_assoc; auto). apply app_inj_tail in E'. destruct E' as [-> ->]. eapply Hl; eauto.
    Qed.
    Lemma last_nil e : ~ last_accepted nid adds acc [] e.
    Proof. intros [b [x [a [E _]]]]. destruct b; discriminate. Qed.

    Context (state : list A -> graph -> Prop).
    Hypothesis H0 : forall g, state [] g -> g_edges g = [].
    Hypothesis HS : forall ops op g', state (ops ++ [op]) g' -> exists g, state ops g /\
      ((exists e h, adds op = Some e /\ acc ops e /\ g_edges h = g_edges g /\ g_edges g' = g_edges (put_edge nid h e)) \/
       (g_edges g' = g_edges g /\ forall f, adds op = Some f -> ~ acc ops f)).
    Lemma run_listed ops : forall g, state ops g -> keyed g /\ forall e, In e (get_edges g) <-> last_accepted nid adds acc ops e.
    Proof using H0 HS.
      induction ops as [|op ops IH] using rev_ind; intros g' Hg.
      - apply H0 in Hg. split. { split; [intros k e|]; rewrite Hg; [intros []|constructor]. }
        intros e. unfold get_edges. rewrite Hg. simpl. split; [tauto|]. intros H. destruct (last_nil e H).
      - destruct (HS _ _ _ Hg) as [g [Hs C]]. destruct (IH g Hs) as [K L]. destruct C as [[e [h [Ha [Hc [Eh E]]]]]|[E Hn]].
        + pose proof (keyed_same _ _ Eh K) as Kh. split. { eapply keyed_same; [exact E|]. apply keyed_put; auto. }
          intros w. rewrite last_snoc. unfold get_edges at 1. rewrite E. change (In w (get_edges (put_edge nid h e)) <-> (adds op = Some w /\ acc ops w) \/ (last_accepted nid adds acc ops w /\ ~ exists f, adds op = Some f /\ acc ops f /\ same_link nid w f)).
          rewrite put_edges by auto. assert (Eg : get_edges h = get_edges g) by (unfold get_edges; rewrite Eh; auto). rewrite Eg, L. split.
          * intros [->|[Hw Hl]]; [auto|]. right. split; auto. intros [f [Hf [_ Hs']]]. rewrite Ha in Hf. inversion Hf; subst. auto.
          * intros [[Hf _]|[Hw Hl]]; [rewrite Ha in Hf; inversion Hf; auto|]. right. split; auto. intros Hs'. apply Hl. exists e. auto.
        + split; [eapply keyed_same; eauto|]. intros w. rewrite last_snoc. unfold get_edges at 1. rewrite E. change (In w (get_edges g) <-> (adds op = Some w /\ acc ops w) \/ (last_accepted nid adds acc ops w /\ ~ exists f, adds op = Some f /\ acc ops f /\ same_link nid w f)). rewrite L. split.
          * intros Hw. right. split; auto. intros [f [Hf [Hc _]]]. eapply Hn; eauto.
          * intros [[Hf Hc]|[Hw _]]; auto. exfalso. eapply Hn; eauto.
    Qed.
  End Run.

  (** ** Graph and Ug *)
  Lemma shouldadd_accepts ops e : shouldadd nid (add_ends nid (graph_run nid ops) e) e = true <-> graph_accepts nid ops e.
  Proof.
    unfold shouldadd, graph_accepts. set (x := nid (e_i e)). set (y := nid (e_j e)).
    assert (M : forall a b, mem b (emap (add_ends nid (graph_run nid ops) e) a) = true <-> pointed nid ops a b). { intros a b. rewrite mem_In, ends_emap. apply run_emap. }
    destruct (Z.eqb_spec x y) as [E|E]. { split; [discriminate|]. intros [H _]. congruence. }
    destruct (e_t e).
    - rewrite orb_true_iff, !negb_true_iff. destruct (mem x (emap (add_ends nid (graph_run nid ops) e) y)) eqn:E1, (mem y (emap (add_ends nid (graph_run nid ops) e) x)) eqn:E2.
      + apply M in E1. apply M in E2. split; [intros [H|H]; discriminate|]. intros [_ H]. exfalso. apply H. auto.
      + split; auto. intros _. split; auto. intros [H _]. apply M in H. congruence.
      + split; auto. intros _. split; auto. intros [_ H]. specialize (H eq_refl). apply M in H. congruence.
      + split; auto. intros _. split; auto. intros [H _]. apply M in H. congruence.
    - rewrite negb_true_iff. destruct (mem y (emap (add_ends nid (graph_run nid ops) e) x)) eqn:E2.
      + apply M in E2. split; [discriminate|]. intros [_ H]. exfalso. apply H. split; auto. discriminate.
      + split; auto. intros _. split; auto. intros [H _]. apply M in H. congruence.
  Qed.
  Lemma c82_graph ops : links_once nid (get_edges (graph_run nid ops)) /\
    forall e, In e (get_edges (graph_run nid ops)) <-> last_accepted nid added (graph_accepts nid) ops e.
  Proof.
    destruct (run_listed added (graph_accepts nid) (fun ops g => g = graph_run nid ops)) with (ops := ops) (g := graph_run nid ops) as [K L]; auto.
    - intros g ->. reflexivity.
    - intros ops' op g' ->. exists (graph_run nid ops'). split; auto. rewrite run_snoc. destruct op as [n|e|i]; simpl.
      + right. split; [apply add_node_edges|discriminate].
      + unfold add_edge. destruct (shouldadd nid (add_ends nid (graph_run nid ops') e) e) eqn:E.
        * left. exists e, (add_ends nid (graph_run nid ops') e). split; auto. split; [apply shouldadd_accepts; auto|]. split; [apply ends_edges|reflexivity].
        * right. split; [apply ends_edges|]. intros f Hf. inversion Hf; subst. intros H. apply shouldadd_accepts in H. congruence.
      + right. split; [reflexivity|discriminate].
    - split; auto. apply links_of_keyed; auto.
  Qed.

  (** ** Dag *)
  Lemma run_snoc_inv {A} (f : graph -> A -> res graph) ops op g0 g' : foldM f (ops ++ [op]) g0 = Ok g' -> exists g, foldM f ops g0 = Ok g /\ f g op = Ok g'.
  Proof.
    revert g0. induction ops as [|x ops IH]; simpl; intros g0 H.
    - exists g0. split; auto. destruct (f g0 op); simpl in H; auto.
    - destruct (f g0 x); simpl in *; [auto|discriminate].
  Qed.
  Lemma orders_snoc {A} (ops : list (Ord * A)) op : Forall (fun p => ord_ok (fst p)) (ops ++ [op]) -> Forall (fun p => ord_ok (fst p)) ops /\ ord_ok (fst op).
  Proof. intros H. apply Forall_app in H. destruct H as [H1 H2]. inversion H2; subst. auto. Qed.
  Lemma dag_add_edges o g e g' : ord_ok o -> ginv nid g -> dag_add_edge nid o g e = Ok g' ->
    (admissible nid (arc g) e /\ g_edges g' = g_edges (put_edge nid (add_ends nid g e) e)) \/ (~ admissible nid (arc g) e /\ g_edges g' = g_edges g).
  Proof.
    intros Ho G E. destruct (dag_add nid o g e Ho G) as [g1 [E1 [_ [_ D]]]]. rewrite E in E1. inversion E1; subst g1. clear E1.
    unfold dag_add_edge in E. destruct (dag_shouldadd nid o (add_ends nid g e) e) as [[|]|] eqn:S; cbn [rbind] in E; inversion E; subst.
    - left. split; auto. destruct D as [[D _]|[D1 D2]]; auto. exfalso. assert (H : arc (put_edge nid (add_ends nid g e) e) (nid (e_i e)) (nid (e_j e))).
      { unfold arc. apply put_emap. right. left. auto. }
      apply D2 in H. unfold dag_shouldadd in S. destruct (e_t e); [discriminate|]. destruct (Z.eqb _ _); [discriminate|].
      destruct (mem_spec (nid (e_j e)) (emap (add_ends nid g e) (nid (e_i e)))) as [M|M]; [discriminate|]. apply M. rewrite ends_emap. exact H.
    - right. split; [|apply ends_edges]. destruct D as [[D1 D2]|[D _]]; auto. intros H. assert (Q : arc (add_ends nid g e) (nid (e_i e)) (nid (e_j e))) by (apply D2; auto).
      unfold arc in Q. rewrite ends_emap in Q. destruct H as [_ [_ [H _]]]. apply H. exact Q.
  Qed.
  Lemma c82_dag ops : orders_ok ops -> exists g, dag_run nid ops = Ok g /\ links_once nid (get_edges g) /\
    forall e, In e (get_edges g) <-> last_accepted nid (fun op => added (snd op)) (dag_accepts nid) ops e.
  Proof.
    intros H. destruct (dag_ok nid ops H) as [g [E _]]. exists g. split; auto.
    destruct (run_listed (fun op => added (snd op)) (dag_accepts nid) (fun ops g => orders_ok ops /\ dag_run nid ops = Ok g)) with (ops := ops) (g := g) as [K L]; auto.
    - intros g0 [_ E0]. inversion E0. reflexivity.
    - intros ops' op g' [Ho E']. apply orders_snoc in Ho. destruct Ho as [Ho Hop]. unfold dag_run in E'. apply run_snoc_inv in E'. destruct E' as [g1 [E1 E2]]. exists g1. split; [split; auto|].
      destruct (dag_ok nid ops' Ho) as [g2 [E3 [G _]]]. unfold dag_run in E3. rewrite E1 in E3. inversion E3; subst g2.
      destruct op as [o [n|e|i]]; unfold dag_step in E2; simpl in E2.
      + inversion E2; subst. right. split; [apply add_node_edges|discriminate].
      + destruct (dag_add_edges o g1 e g' Hop G E2) as [[D1 D2]|[D1 D2]].
        * left. exists e, (add_ends nid g1 e). split; auto. split; [exists g1; auto|]. split; [apply ends_edges|auto].
        * right. split; auto. simpl. intros f Hf. inversion Hf; subst. intros [g2 [Eg Ha]]. unfold dag_run in Eg. rewrite E1 in Eg. inversion Eg; subst. auto.
      + inversion E2; subst. right. split; [reflexivity|discriminate].
    - split; auto. apply links_of_keyed; auto.
  Qed.

  (** ** Pdag *)
  Lemma pdag_add_edges o g e g' : ord_ok o -> ginv nid g -> pdag_add_edge nid o g e = Ok g' ->
    (padmissible nid g e /\ g_edges g' = g_edges (put_edge nid (add_ends nid g e) e)) \/ (~ padmissible nid g e /\ g_edges g' = g_edges g).
  Proof.
    intros Ho G E. destruct (pdag_add nid o g e Ho G) as [g1 [E1 [_ D]]]. rewrite E in E1. inversion E1; subst g1. clear E1.
    unfold pdag_add_edge in E. destruct (pdag_shouldadd nid o (add_ends nid g e) e) as [[|]|] eqn:S; cbn [rbind] in E; inversion E; subst.
    - left. split; auto. destruct D as [[D _]|[D1 D2]]; auto. exfalso. assert (H : arc (put_edge nid (add_ends nid g e) e) (nid (e_i e)) (nid (e_j e))).
      { unfold arc. apply put_emap. right. left. auto. }
      apply D2 in H. unfold pdag_shouldadd in S. destruct (Z.eqb _ _); [discriminate|].
      destruct (mem_spec (nid (e_j e)) (emap (add_ends nid g e) (nid (e_i e)))) as [M|M]; [discriminate|]. apply M. rewrite ends_emap. exact H.
    - right. split; [|apply ends_edges]. destruct D as [[D1 D2]|[D _]]; auto. intros H. assert (Q : arc (add_ends nid g e) (nid (e_i e)) (nid (e_j e))) by (apply D2; right; left; auto).
      unfold arc in Q. rewrite ends_emap in Q. destruct H as [_ [H _]]. apply H. exact Q.
  Qed.
  Lemma c82_pdag ops : orders_ok ops -> exists g, pdag_run nid ops = Ok g /\ links_once nid (get_edges g) /\
    forall e, In e (get_edges g) <-> last_accepted nid (fun op => added (snd op)) (pdag_accepts nid) ops e.
  Proof.
    intros H. destruct (pdag_ok nid ops H) as [g [E _]]. exists g. split; auto.
    destruct (run_listed (fun op => added (snd op)) (pdag_accepts nid) (fun ops g => orders_ok ops /\ pdag_run nid ops = Ok g)) with (ops := ops) (g := g) as [K L]; auto.
    - intros g0 [_ E0]. inversion E0. reflexivity.
    - intros ops' op g' [Ho E']. apply orders_snoc in Ho. destruct Ho as [Ho Hop]. unfold pdag_run in E'. apply run_snoc_inv in E'. destruct E' as [g1 [E1 E2]]. exists g1. split; [split; auto|].
      destruct (pdag_ok nid ops' Ho) as [g2 [E3 [G _]]]. unfold pdag_run in E3. rewrite E1 in E3. inversion E3; subst g2.
      destruct op as [o [n|e|i]]; unfold pdag_step in E2; simpl in E2.
      + inversion E2; subst. right. split; [apply add_node_edges|discriminate].
      + destruct (pdag_add_edges o g1 e g' Hop G E2) as [[D1 D2]|[D1 D2]].
        * left. exists e, (add_ends nid g1 e). split; auto. split; [exists g1; split; auto|]. split; [apply ends_edges|auto].
        * right. split; auto. simpl. intros f Hf. inversion Hf; subst. intros [g2 [Eg Ha]]. unfold pdag_run in Eg. rewrite E1 in Eg. inversion Eg; subst. auto.
      + inversion E2; subst. right. split; [reflexivity|discriminate].
    - split; auto. apply links_of_keyed; auto.
  Qed.
End Keys.

(** ** Bbn *)
Lemma c82_bbn ops : links_once n_id (get_edges (b_g (build ops))) /\
  forall e, In e (get_edges (b_g (build ops))) <-> last_accepted n_id arrow bbn_accepts ops e.
Proof.
  destruct (run_listed n_id arrow bbn_accepts (fun ops g => g = b_g (build ops))) with (ops := ops) (g := b_g (build ops)) as [K L]; auto.
  - intros g ->. reflexivity.
  - intros ops' op g' ->. exists (b_g (build ops')). split; auto. unfold build. rewrite fold_left_app. fold (build ops'). simpl. destruct op as [n|i j]; simpl.
    + right. split; [apply add_node_edges|discriminate].
    + left. exists (mkEdge i j DIRECTED), (add_ends n_id (b_g (build ops')) (mkEdge i j DIRECTED)). split; auto. split; [exact I|]. split; [apply ends_edges|reflexivity].
  - split; auto. apply links_of_keyed; auto.
Qed.
