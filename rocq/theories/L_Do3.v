(** Each path once; what exactly the minimal sets consist of. *)
From Verif Require Import Py M_Graph M_Nx M_Gen M_Do Spec SpecNx SpecDo L_Base L_Sums L_Table L_PD L_UG L_Nx L_Do L_Do2.
Open Scope nat_scope.

Lemma adj_NoDup nodes es i : NoDup (ug_adj (u_of nodes es) i).
Proof.
  simpl. assert (G : forall l : list Z, NoDup l -> NoDup (fold_left (fun l e => if eqb (fst e) i then sadd l (snd e) else if eqb (snd e) i then sadd l (fst e) else l) es l)).
  { induction es as [|[a b] es IH]; intros l Hl; simpl; auto. apply IH. destruct (Z.eqb a i); [apply sadd_NoDup; auto|]. destruct (Z.eqb b i); auto. apply sadd_NoDup; auto. }
  apply G. constructor.
Qed.
Lemma NoDup_flat {A B} (f : A -> list B) l : NoDup l -> (forall a, In a l -> NoDup (f a)) ->
  (forall a b z, In a l -> In b l -> In z (f a) -> In z (f b) -> a = b) -> NoDup (flat_map f l).
Proof.
  induction l as [|a l IH]; intros HN H1 H2; simpl; [constructor|]. inversion_clear HN as [|? ? Ha HN']. apply NoDup_app_iff. split; [apply H1; simpl; auto|]. split.
  - apply IH; auto. intros; apply H1; simpl; auto. intros; eapply H2; simpl; eauto.
  - intros z Hz Hz'. apply in_flat_map in Hz'. destruct Hz' as (b & Hb & Hz'). apply Ha. rewrite (H2 a b z); simpl; auto.
Qed.
Lemma simple_paths_NoDup adj t : (forall i, NoDup (adj i)) -> forall f seen cur, NoDup (simple_paths f adj t seen cur).
Proof.
  intros Ha. induction f as [|f IH]; intros seen cur; simpl; [constructor|]. apply NoDup_flat; auto.
  - intros j _. destruct (mem j seen); [constructor|]. destruct (Z.eqb j t); auto. constructor; [intros []|constructor].
  - assert (K : forall j p, In p (if mem j seen then [] else if Z.eqb j t then [seen ++ [j]] else simple_paths f adj t (seen ++ [j]) j) -> exists q, p = seen ++ j :: q).
    { intros j p. destruct (mem j seen); [intros []|]. destruct (Z.eqb j t). { intros [<-|[]]. exists []; auto. }
      intros H. apply simple_paths_In in H. destruct H as (q & -> & _). rewrite <- app_assoc. simpl. eauto. }
    intros a b z _ _ H1 H2. apply K in H1. apply K in H2. destruct H1 as (q & ->). destruct H2 as (q' & E). apply app_inv_head in E. congruence.
Qed.

(** one node taken from each long path *)
Lemma picked (ps : list (list Z)) : forall ms, NoDup ps ->
  Forall2 (fun p m => (3 <= List.length p -> exists c, m = [c] /\ inside p c) /\ (List.length p < 3 -> m = [])) ps ms ->
  exists pick : list Z -> Z, (forall p, In p ps -> 3 <= List.length p -> inside p (pick p)) /\
    forall z, In z (List.concat ms) <-> exists p, In p ps /\ 3 <= List.length p /\ pick p = z.
Proof.
  induction ps as [|p ps IH]; intros ms HN F.
  - inversion F; subst. exists (fun _ => 0%Z). split; [intros p []|]. intros z. split; [intros []|intros (p & [] & _)].
  - inversion F as [|? m ? ms' [F1 F2] F3]; subst. inversion_clear HN as [|? ? Hp HN']. destruct (IH ms' HN' F3) as (pick & P1 & P2).
    set (c := match m with [] => 0%Z | c :: _ => c end).
    exists (fun q => if list_eq_dec Z.eq_dec q p then c else pick q). split.
    + intros q [<-|Hq] Hl.
      * destruct (list_eq_dec Z.eq_dec p p); [|congruence]. destruct (F1 Hl) as (c' & E & H). unfold c. rewrite E. auto.
      * destruct (list_eq_dec Z.eq_dec q p); [subst; tauto|auto].
    + intros z. simpl. rewrite in_app_iff, P2. split.
      * intros [Hz|(q & Q1 & Q2 & Q3)].
        -- exists p. split; auto. destruct (le_lt_dec 3 (List.length p)) as [Hl|Hl]; [|rewrite F2 in Hz by auto; destruct Hz].
           split; auto. destruct (list_eq_dec Z.eq_dec p p); [|congruence]. destruct (F1 Hl) as (c' & E & _). unfold c. rewrite E in *. destruct Hz as [Hz|[]]; auto.
        -- exists q. split; auto. split; auto. destruct (list_eq_dec Z.eq_dec q p); [subst; tauto|auto].
      * intros (q & Q1 & Q2 & Q3). destruct (list_eq_dec Z.eq_dec q p) as [->|Hne].
        -- left. destruct (F1 Q2) as (c' & E & _). unfold c in Q3. rewrite E in *. simpl. auto.
        -- right. exists q. destruct Q1 as [Q1|Q1]; [congruence|auto].
Qed.

Section Do.
  Variables (o : Ord) (d : digraph) (x y : Z).
  Hypothesis Ho : ord_ok o.
  Hypothesis G : dgood d.
  Hypothesis A : acyclic (arc (dg_edges d)).
  Notation es := (dg_edges d).
  Hypothesis Hx : In x (dg_nodes d).
  Hypothesis Hy : In y (dg_nodes d).
  Hypothesis Hxy : x <> y.

  Lemma all_paths_once : exists ps, get_all_paths d x y = Ok ps /\ NoDup ps /\ (forall p, In p ps <-> simple_path es x y p).
  Proof.
    destruct (all_paths_ok d G x y Hx Hy Hxy) as (ps & E & H). exists ps. split; auto. split; auto.
    unfold get_all_paths, all_simple_paths, do_undirected in E. destruct (_ && _); [|discriminate]. injection E as <-. apply simple_paths_NoDup. intros i. exact (adj_NoDup (dg_nodes d) (edge_list d) i).
  Qed.
  Lemma paths_once : exists is, get_paths o d x y = Ok is /\ NoDup (map pi_path is) /\ Forall (pi_ok d x y) is /\ (forall p, In p (map pi_path is) <-> simple_path es x y p).
  Proof.
    unfold get_paths. destruct all_paths_once as (ps & Ep & HN & Hps). rewrite Ep. cbn [rbind].
    assert (K : forall l, (forall kp, In kp l -> simple_path es x y (snd kp)) ->
      exists is, mapM (path_metadata o d x y) l = Ok is /\ Forall (pi_ok d x y) is /\ map pi_path is = map snd l).
    { induction l as [|[k p] l IH]; intros Hl. { exists []. repeat split; auto. }
      destruct (metadata_ok o d x y Ho G A Hxy k p) as (i & Ei & Pi & Oi). { apply (Hl (k, p)); simpl; auto. }
      destruct IH as (is & Eis & Fis & His). { intros kp Hkp. apply Hl; simpl; auto. } exists (i :: is). cbn [mapM]. rewrite Ei. cbn [rbind]. rewrite Eis. cbn [rbind].
      split; auto. split; auto. simpl. congruence. }
    assert (Hsnd : map snd (combine (seq 0 (List.length ps)) ps) = ps).
    { generalize 0. clear. induction ps as [|p ps IH] in |- *; intros s; auto. simpl. f_equal. apply IH. }
    destruct (K (combine (seq 0 (List.length ps)) ps)) as (is & Ei & Fi & Hi).
    { intros [k p] H. apply in_combine_r in H. apply Hps; auto. }
    exists is. rewrite Hi, Hsnd. auto.
  Qed.

  Lemma NoDup_map_filter {T U} (g : T -> U) (f : T -> bool) l : NoDup (map g l) -> NoDup (map g (filter f l)).
  Proof.
    induction l as [|a l IH]; simpl; auto. intros H. inversion_clear H as [|? ? H1 H2]. destruct (f a); auto. simpl. constructor; auto.
    intros C. apply H1. apply in_map_iff in C. destruct C as (b & <- & Hb). apply filter_In in Hb. apply in_map. tauto.
  Qed.
  Lemma chosen_one i z : pi_ok d x y i -> open_path es [] (pi_path i) -> (forall v, In v z <-> inside (pi_path i) v /\ ~ collider_on es (pi_path i) v) ->
    (3 <= List.length (pi_path i) -> exists c, chosen z = [c] /\ inside (pi_path i) c) /\ (List.length (pi_path i) < 3 -> chosen z = []).
  Proof.
    intros Hi Hop Hz. split.
    - intros Hl. destruct (long_inside d x y _ (po_path _ _ _ i Hi) Hop Hl) as (v & V). apply Hz in V. destruct z as [|c z]; [destruct V|]. exists c. split; auto. apply Hz. simpl; auto.
    - intros Hl. destruct z as [|c z]; auto. exfalso. destruct (proj1 (Hz c) (or_introl eq_refl)) as ((a & b & l & r & E) & _). rewrite E, app_length in Hl. simpl in Hl. lia.
  Qed.

  Lemma minimal_exactly : exists Z0 (pick : list Z -> Z), get_minimal_confounders o d x y = Ok Z0 /\ NoDup Z0 /\
    (forall p, simple_path es x y p -> backdoor es p -> open_path es [] p -> 3 <= List.length p -> inside p (pick p)) /\
    (forall z, In z Z0 <-> exists p, simple_path es x y p /\ backdoor es p /\ open_path es [] p /\ 3 <= List.length p /\ pick p = z).
  Proof.
    unfold get_minimal_confounders. destruct paths_once as (is & Ei & HN & Fi & Hi). rewrite Ei. cbn [rbind]. rewrite Forall_forall in Fi.
    set (fs := filter (fun p => pi_active p && pi_back p) is).
    assert (Hfs : forall i, In i fs <-> In i is /\ open_path es [] (pi_path i) /\ backdoor es (pi_path i)).
    { intros i. unfold fs. rewrite filter_In, andb_true_iff. split; intros (H1 & H2 & H3); (split; [auto|]); rewrite (po_active d x y i), (po_back d x y i) in *; auto. }
    assert (Hp : forall p, In p (map pi_path fs) <-> simple_path es x y p /\ backdoor es p /\ open_path es [] p).
    { intros p. split.
      - intros H. apply in_map_iff in H. destruct H as (i & <- & H). apply Hfs in H. destruct H as (H1 & H2 & H3). split; auto. apply (po_path _ _ _ i (Fi i H1)).
      - intros (H1 & H2 & H3). apply Hi in H1. apply in_map_iff in H1. destruct H1 as (i & <- & H1). apply in_map. apply Hfs; auto. }
    rewrite (mapM_all _ (fun i => chosen (pi_z i))).
    2:{ intros i H. apply Hfs in H as (H1 & H2 & H3). apply (find_minimal_ok d x y G A); auto. apply Fi; auto. intros c Hc. apply (po_z d x y i) in Hc; [tauto|apply Fi; auto]. }
    cbn [rbind]. destruct (picked (map pi_path fs) (map (fun i => chosen (pi_z i)) fs)) as (pick & P1 & P2).
    { apply NoDup_map_filter; auto. }
    { assert (Q : forall i, In i fs -> In i is /\ open_path es [] (pi_path i)) by (intros i H; apply Hfs in H; tauto). clear - Q Fi. induction fs as [|i fs IH]; simpl; constructor.
      - destruct (Q i (or_introl eq_refl)) as [Q1 Q2]. apply chosen_one; auto. apply (po_z d x y i (Fi i Q1)).
      - apply IH. intros j Hj. apply Q; simpl; auto. }
    set (S0 := sof (List.concat (map (fun i => chosen (pi_z i)) fs))). pose proof (proj1 Ho (-1)%Z S0) as P.
    exists (zord o (-1) S0), pick. split; auto. split. { eapply Permutation_NoDup; [apply Permutation_sym, P|]. apply sof_NoDup. } split.
    - intros p H1 H2 H3 H4. apply P1; auto. apply Hp; auto.
    - intros z. assert (K : In z (zord o (-1) S0) <-> In z S0) by (split; apply Permutation_in; [|apply Permutation_sym]; apply P). rewrite K. unfold S0. rewrite sof_In, P2.
      split; intros (p & H); exists p; rewrite ?Hp in *; tauto.
  Qed.

  Lemma mediators_exactly : exists M (pick : list Z -> Z), get_minimal_mediators o d x y = Ok M /\ NoDup M /\
    (forall p, simple_path es x y p -> directed es p -> 3 <= List.length p -> inside p (pick p)) /\
    (forall z, In z M <-> (exists p, simple_path es x y p /\ directed es p /\ 3 <= List.length p /\ pick p = z) /\
       forall q, simple_path es x y q -> ~ collider_on es q z).
  Proof.
    unfold get_minimal_mediators. destruct paths_once as (is & Ei & HN & Fi & Hi). rewrite Ei. cbn [rbind]. rewrite Forall_forall in Fi.
    set (fs := filter (fun p => pi_active p && pi_front p) is).
    assert (Hfs : forall i, In i fs <-> In i is /\ open_path es [] (pi_path i) /\ frontdoor es (pi_path i)).
    { intros i. unfold fs. rewrite filter_In, andb_true_iff. split; intros (H1 & H2 & H3); (split; [auto|]); rewrite (po_active d x y i), (po_front d x y i) in *; auto. }
    pose proof (open_directed d x y A Hxy) as OD.
    assert (Hp : forall p, In p (map pi_path fs) <-> simple_path es x y p /\ directed es p).
    { intros p. split.
      - intros H. apply in_map_iff in H. destruct H as (i & <- & H). apply Hfs in H. destruct H as (H1 & H2 & H3). pose proof (po_path _ _ _ i (Fi i H1)) as S. split; auto. apply OD; auto.
      - intros (H1 & H2). apply OD in H2; auto. apply Hi in H1. apply in_map_iff in H1. destruct H1 as (i & <- & H1). apply in_map. apply Hfs; tauto. }
    assert (HM : forall s, exists ms, mapM (fun kp => find_minimal_mediator o (fst kp) d (pi_path (snd kp)) x y) (combine (seq s (List.length fs)) fs) = Ok ms /\
      Forall2 (fun p m => (3 <= List.length p -> exists c, m = [c] /\ inside p c) /\ (List.length p < 3 -> m = [])) (map pi_path fs) ms).
    { assert (Q : forall i, In i fs -> In i is /\ open_path es [] (pi_path i)) by (intros i H; apply Hfs in H; tauto). clear - Q Fi Ho G A. induction fs as [|i fs IH]; intros s. { exists []. split; auto. constructor. }
      destruct (Q i (or_introl eq_refl)) as [Q1 Q2]. pose proof (po_path _ _ _ i (Fi i Q1)) as Hp. destruct (IH (fun j Hj => Q j (or_intror Hj)) (S s)) as (ms & Em & M1).
      destruct (colliders_ok d G A (pi_path i)) as (cs & Ec & Hcs); [apply Hp|]. destruct (inner_ok o d x y Ho s (pi_path i) cs Hp Hcs) as [I1 I2].
      exists (chosen (inner o s (pi_path i) x y cs) :: ms). split.
      - simpl. unfold find_minimal_mediator at 1. cbn [fst snd]. rewrite Ec. cbn [rbind]. rewrite (find_minimal_ok d x y G A); auto. 2:{ intros c Hc. apply I2 in Hc. tauto. }
        cbn [rbind]. rewrite Em. reflexivity.
      - simpl. constructor; auto. apply chosen_one; auto. }
    destruct (HM 0) as (ms & Em & F). rewrite Em. cbn [rbind]. destruct (picked _ ms (NoDup_map_filter _ _ _ HN) F) as (pick & P1 & P2). fold fs in P1, P2.
    set (S0 := filter (fun v => negb (mem v (flat_map pi_colliders is))) (sof (List.concat ms))). pose proof (proj1 Ho (-1)%Z S0) as P.
    exists (zord o (-1) S0), pick. split; auto. split. { eapply Permutation_NoDup; [apply Permutation_sym, P|]. apply NoDup_filter, sof_NoDup. } split.
    - intros p H1 H2 H3. apply P1; auto. apply Hp; auto.
    - intros z. assert (K : In z (zord o (-1) S0) <-> In z S0) by (split; apply Permutation_in; [|apply Permutation_sym]; apply P). rewrite K. unfold S0. rewrite filter_In, sof_In, negb_true_iff, P2.
      assert (C : mem z (flat_map pi_colliders is) = false <-> forall q, simple_path es x y q -> ~ collider_on es q z).
      { split.
        - intros E q Hq C. apply Hi in Hq. apply in_map_iff in Hq. destruct Hq as (j & <- & Hj). destruct (mem_spec z (flat_map pi_colliders is)) as [|Hm]; [discriminate|]. apply Hm, in_flat_map. exists j. split; auto. apply (po_colliders d x y j (Fi j Hj)); auto.
        - intros H. destruct (mem_spec z (flat_map pi_colliders is)) as [Hm|]; auto. exfalso. apply in_flat_map in Hm as (j & Hj & Hz). apply (H (pi_path j)); [apply Fi; auto|]. apply (po_colliders d x y j (Fi j Hj)); auto. }
      rewrite C. split; intros [(p & H) H']; (split; [|exact H']); exists p; rewrite ?Hp in *; tauto.
  Qed.
End Do.

Lemma c35_exactly : forall o d x y, ord_ok o -> graph_ok (dg_nodes d) (dg_edges d) -> acyclic (arc (dg_edges d)) -> In x (dg_nodes d) -> In y (dg_nodes d) -> x <> y ->
  exists Z0 (pick : list Z -> Z), get_minimal_confounders o d x y = Ok Z0 /\ NoDup Z0 /\
    (forall p, simple_path (dg_edges d) x y p -> backdoor (dg_edges d) p -> open_path (dg_edges d) [] p -> 3 <= List.length p -> inside p (pick p)) /\
    (forall z, In z Z0 <-> exists p, simple_path (dg_edges d) x y p /\ backdoor (dg_edges d) p /\ open_path (dg_edges d) [] p /\ 3 <= List.length p /\ pick p = z).
Proof. intros o d x y Ho G A Hx Hy Hxy. exact (minimal_exactly o d x y Ho (dgood_graph d G) A Hx Hy Hxy). Qed.
Lemma c51_exactly : forall o d x y, ord_ok o -> graph_ok (dg_nodes d) (dg_edges d) -> acyclic (arc (dg_edges d)) -> In x (dg_nodes d) -> In y (dg_nodes d) -> x <> y ->
  exists M (pick : list Z -> Z), get_minimal_mediators o d x y = Ok M /\ NoDup M /\
    (forall p, simple_path (dg_edges d) x y p -> directed (dg_edges d) p -> 3 <= List.length p -> inside p (pick p)) /\
    (forall z, In z M <-> (exists p, simple_path (dg_edges d) x y p /\ directed (dg_edges d) p /\ 3 <= List.length p /\ pick p = z) /\
       forall q, simple_path (dg_edges d) x y q -> ~ collider_on (dg_edges d) q z).
Proof. intros o d x y Ho G A Hx Hy Hxy. exact (mediators_exactly o d x y Ho (dgood_graph d G) A Hx Hy Hxy). Qed.
Lemma c75 : forall o d x y, ord_ok o -> graph_ok (dg_nodes d) (dg_edges d) -> acyclic (arc (dg_edges d)) -> In x (dg_nodes d) -> In y (dg_nodes d) -> x <> y ->
  exists l, get_paths o d x y = Ok l /\ NoDup (map pi_path l) /\ (forall p, In p (map pi_path l) <-> simple_path (dg_edges d) x y p) /\
    forall i, In i l ->
      (pi_active i = true <-> open_path (dg_edges d) [] (pi_path i)) /\
      (forall z, In z (pi_colliders i) <-> collider_on (dg_edges d) (pi_path i) z) /\
      (pi_back i = true <-> backdoor (dg_edges d) (pi_path i)) /\
      (pi_front i = true <-> frontdoor (dg_edges d) (pi_path i)) /\
      NoDup (pi_z i) /\ forall z, In z (pi_z i) <-> inside (pi_path i) z /\ ~ collider_on (dg_edges d) (pi_path i) z.
Proof.
  intros o d x y Ho G A Hx Hy Hxy. destruct (paths_once o d x y Ho (dgood_graph d G) A Hx Hy Hxy) as (l & E & HN & F & H). exists l. split; auto. split; auto. split; auto.
  rewrite Forall_forall in F. intros i Hi. destruct (F i Hi) as [H1 H2 H3 H4 H5 H6 H7]. auto 10.
Qed.
