(** Adjustment sets and mediators. *)
From Verif Require Import Py M_Graph M_Nx M_Gen M_Do Spec SpecNx SpecDo L_Base L_Sums L_Table L_PD L_UG L_Nx L_Do.
Open Scope nat_scope.

Lemma hd_rev_last {A} (l : list A) y : hd_error (rev l) = Some y -> exists l0, l = l0 ++ [y].
Proof.
  destruct l as [|a l] using rev_ind; [discriminate|]. rewrite rev_app_distr. simpl. intros E. injection E as ->. eauto.
Qed.
Lemma inside_iff p x y z : NoDup p -> hd_error p = Some x -> hd_error (rev p) = Some y -> (inside p z <-> In z p /\ z <> x /\ z <> y).
Proof.
  intros HN Hx Hy. split.
  - intros (a & b & l & r & ->). split; [rewrite in_app_iff; simpl; auto|]. split; intros ->.
    + destruct l as [|c l]; simpl in *; injection Hx as ->; inversion_clear HN as [|? ? H1 _]; apply H1; [simpl; auto|rewrite in_app_iff; simpl; auto].
    + apply hd_rev_last in Hy as (l0 & E). change (l ++ a :: y :: b :: r) with (l ++ [a] ++ y :: b :: r) in *. rewrite app_assoc in *.
      apply NoDup_remove_2 in HN. apply HN. apply in_or_app. right.
      destruct (exists_last (l := b :: r)) as (r' & c & Er); [discriminate|]. rewrite Er in E |- *.
      change (y :: r' ++ [c]) with ((y :: r') ++ [c]) in E. rewrite app_assoc in E. apply app_inj_tail in E as [_ ->]. apply in_or_app; simpl; auto.
  - intros (Hz & Hzx & Hzy). apply in_split in Hz as (l & r & ->). destruct l as [|a l] using rev_ind; [simpl in Hx; congruence|]. clear IHl.
    destruct r as [|b r]. { rewrite rev_app_distr in Hy. simpl in Hy. congruence. }
    exists a, b, l, r. rewrite <- app_assoc. auto.
Qed.
Lemma simple_length es x y p : x <> y -> simple_path es x y p -> exists a r, p = x :: a :: r.
Proof.
  intros Hne (HN & Hc & Hx & Hy). destruct p as [|x0 [|a r]]; [discriminate| |]; injection Hx as ->; [simpl in Hy; congruence|eauto].
Qed.
Lemma short_open es ev p : List.length p < 3 -> open_path es ev p.
Proof. intros H x z y (l & r & ->). rewrite app_length in H. simpl in H. lia. Qed.
(** without evidence, open means without colliders *)
Lemma open_nil es p : open_path es [] p <-> forall x z y, triple p x z y -> ~ collides es x z y.
Proof.
  split; intros H x z y T.
  - intros C. destruct (proj1 (H x z y T) C) as (v & _ & []).
  - split; [intros C; destruct (H x z y T C)|auto].
Qed.

Lemma dgood_of V es : graph_ok V es -> dgood (mkDg V es).
Proof. intros (H1 & H2 & H3). constructor; auto. Qed.
Lemma dgood_graph d : graph_ok (dg_nodes d) (dg_edges d) -> dgood d.
Proof. intros (H1 & H2 & H3). constructor; auto. Qed.

Section Do.
  Variables (o : Ord) (d : digraph) (x y : Z).
  Hypothesis Ho : ord_ok o.
  Hypothesis G : dgood d.
  Hypothesis A : acyclic (E d).
  Notation es := (dg_edges d).
  Hypothesis Hx : In x (dg_nodes d).
  Hypothesis Hy : In y (dg_nodes d).
  Hypothesis Hxy : x <> y.

  (** what the metadata of a path say *)
  Record pi_ok (i : pinfo) : Prop := {
    po_path : simple_path es x y (pi_path i);
    po_active : pi_active i = true <-> open_path es [] (pi_path i);
    po_colliders : forall z, In z (pi_colliders i) <-> collider_on es (pi_path i) z;
    po_back : pi_back i = true <-> backdoor es (pi_path i);
    po_front : pi_front i = true <-> frontdoor es (pi_path i);
    po_z : forall z, In z (pi_z i) <-> inside (pi_path i) z /\ ~ collider_on es (pi_path i) z;
    po_zn : NoDup (pi_z i) }.

  Lemma inner_ok k p cs : simple_path es x y p -> (forall z, In z cs <-> collider_on es p z) ->
    NoDup (inner o k p x y cs) /\ forall z, In z (inner o k p x y cs) <-> inside p z /\ ~ collider_on es p z.
  Proof.
    intros (HN & Hc & Hp & Hq) Hcs. pose proof (proj1 Ho (Z.of_nat k) (filter (fun v => negb (mem v [x; y]) && negb (mem v cs)) (sof p))) as P. split.
    - eapply Permutation_NoDup; [apply Permutation_sym, P|]. apply NoDup_filter, sof_NoDup.
    - intros z. unfold inner. rewrite (inside_iff p x y z HN Hp Hq), <- Hcs. split.
      + intros H. apply (Permutation_in _ P), filter_In in H as [H1 H2]. apply andb_true_iff in H2 as [H2 H3]. rewrite negb_true_iff in H2, H3.
        rewrite sof_In in H1. destruct (mem_spec z [x; y]) as [|Hm]; [discriminate|]. destruct (mem_spec z cs); [discriminate|]. simpl in Hm. split; [|auto]. split; [exact H1|]. split; intros ->; tauto.
      + intros ((H1 & H2 & H3) & H4). apply (Permutation_in _ (Permutation_sym P)), filter_In. split; [apply sof_In; auto|].
        destruct (mem_spec z [x; y]) as [[K|[K|[]]]|]; try congruence. destruct (mem_spec z cs); auto; tauto.
  Qed.
  Lemma metadata_ok k p : simple_path es x y p -> exists i, path_metadata o d x y (k, p) = Ok i /\ pi_path i = p /\ pi_ok i.
  Proof.
    intros Hp. destruct (simple_length _ _ _ _ Hxy Hp) as (a & r & Ep). pose proof Hp as (HN & Hc & H1 & H2). unfold path_metadata.
    destruct (colliders_ok d G A p Hc) as (cs & Ec & Hcs). rewrite Ec. cbn [rbind].
    assert (exists b, is_active_path d p (EvSet []) = Ok b /\ (b = true <-> open_path es [] p)) as (b & Eb & Hb).
    { destruct (le_lt_dec 3 (List.length p)) as [Hl|Hl]; [apply active_path_set; auto|]. exists true. split; [|split; auto; intros _; apply short_open; auto].
      rewrite (active_path_short d [] p x y) by auto. auto. }
    rewrite Eb. cbn [rbind]. destruct (inner_ok k p cs Hp Hcs) as [I1 I2]. subst p. eexists. split; [reflexivity|]. split; auto. constructor; cbn [pi_path pi_active pi_colliders pi_back pi_front pi_z]; auto.
    - rewrite has_edge_iff. reflexivity.
    - rewrite has_edge_iff. reflexivity.
  Qed.
  Lemma paths_ok : exists is, get_paths o d x y = Ok is /\ Forall pi_ok is /\ (forall p, simple_path es x y p -> exists i, In i is /\ pi_path i = p).
  Proof.
    unfold get_paths. destruct (all_paths_ok d G x y Hx Hy Hxy) as (ps & Ep & Hps). rewrite Ep. cbn [rbind].
    assert (K : forall l, (forall kp, In kp l -> simple_path es x y (snd kp)) ->
      exists is, mapM (path_metadata o d x y) l = Ok is /\ Forall pi_ok is /\ (forall p, In p (map snd l) -> exists i, In i is /\ pi_path i = p)).
    { induction l as [|[k p] l IH]; intros Hl. { exists []. repeat split; auto. intros p []. }
      destruct (metadata_ok k p) as (i & Ei & Pi & Oi). { apply (Hl (k, p)); simpl; auto. }
      destruct IH as (is & Eis & Fis & His). { intros kp Hkp. apply Hl; simpl; auto. } exists (i :: is). cbn [mapM]. rewrite Ei. cbn [rbind]. rewrite Eis. cbn [rbind].
      split; auto. split; auto. intros q [<-|Hq]; [exists i; simpl; auto|]. destruct (His q Hq) as (j & ? & ?). exists j; simpl; auto. }
    assert (Hsnd : map snd (combine (seq 0 (List.length ps)) ps) = ps).
    { generalize 0. induction ps as [|p ps IH] in |- *; intros s; auto. simpl. f_equal. apply IH. }
    destruct (K (combine (seq 0 (List.length ps)) ps)) as (is & Ei & Fi & Hi).
    { intros [k p] H. apply in_combine_r in H. apply Hps; auto. }
    exists is. split; auto. split; auto. intros p Hp. apply Hi. rewrite Hsnd. apply Hps; auto.
  Qed.

  (** an open path is blocked by any single node inside *)
  Lemma find_minimal_ok p z : simple_path es x y p -> open_path es [] p -> (forall c, In c z -> inside p c) ->
    find_minimal d p z = Ok match z with [] => [] | c :: _ => [c] end.
  Proof.
    intros (HN & Hc & H1 & H2) Hop Hz. destruct z as [|c z]; auto. simpl. assert (Hi : inside p c) by (apply Hz; simpl; auto).
    assert (Hl : 3 <= List.length p). { destruct Hi as (a & b & l & r & ->). rewrite app_length. simpl. lia. }
    unfold is_active_path. destruct (Nat.ltb_spec (List.length p) 3); [lia|]. rewrite triplets_eq by auto.
    destruct (all_active_list d G A [c] p Hc) as (b & Eb & Hb). { apply open_nil; auto. } rewrite Eb. cbn [rbind]. destruct b; auto.
    exfalso. apply (proj1 Hb eq_refl c); simpl; auto.
  Qed.
  Lemma blocked p Z0 z : open_path es [] p -> inside p z -> In z Z0 -> ~ open_path es Z0 p.
  Proof. intros Hop (a & b & T) Hz Ho'. apply (proj2 (Ho' a z b T)); auto. apply (proj1 (open_nil es p) Hop a z b T). Qed.
  Lemma long_inside p : simple_path es x y p -> open_path es [] p -> 3 <= List.length p -> exists z, inside p z /\ ~ collider_on es p z.
  Proof.
    intros Hp Hop Hl. destruct p as [|a [|b [|c r]]]; simpl in Hl; try lia. exists b. split. exists a, c, [], r; auto.
    intros (u & v & T & C). apply (proj1 (open_nil _ _) Hop _ _ _ T C).
  Qed.

  Definition chosen (z : list Z) : list Z := match z with [] => [] | c :: _ => [c] end.
  Lemma chosen_in z c : In c (chosen z) -> In c z. Proof. destruct z; simpl; tauto. Qed.

  Lemma minimal_ok : exists Z0, get_minimal_confounders o d x y = Ok Z0 /\ NoDup Z0 /\
    (forall p, simple_path es x y p -> backdoor es p -> open_path es [] p -> 3 <= List.length p -> ~ open_path es Z0 p) /\
    (forall z, In z Z0 -> exists p, simple_path es x y p /\ backdoor es p /\ open_path es [] p /\ inside p z).
  Proof.
    unfold get_minimal_confounders. destruct paths_ok as (is & Ei & Fi & Hi). rewrite Ei. cbn [rbind]. rewrite Forall_forall in Fi.
    set (fs := filter (fun p => pi_active p && pi_back p) is).
    assert (Hfs : forall i, In i fs <-> In i is /\ open_path es [] (pi_path i) /\ backdoor es (pi_path i)).
    { intros i. unfold fs. rewrite filter_In, andb_true_iff. split; intros (H1 & H2 & H3); (split; [auto|]); rewrite (po_active i), (po_back i) in *; auto. }
    rewrite (mapM_all _ (fun i => chosen (pi_z i))).
    2:{ intros i H. apply Hfs in H as (H1 & H2 & H3). apply find_minimal_ok; auto. apply Fi; auto. intros c Hc. apply (po_z i) in Hc; [tauto|apply Fi; auto]. }
    cbn [rbind]. set (S0 := sof (List.concat (map (fun i => chosen (pi_z i)) fs))). pose proof (proj1 Ho (-1)%Z S0) as P.
    assert (HS : forall z, In z (zord o (-1) S0) <-> exists i, In i fs /\ In z (chosen (pi_z i))).
    { intros z. split.
      - intros H. apply (Permutation_in _ P) in H. unfold S0 in H. rewrite sof_In in H. apply in_concat in H as (l & Hl & Hz). apply in_map_iff in Hl as (i & <- & H). eauto.
      - intros (i & H1 & H2). apply (Permutation_in _ (Permutation_sym P)). unfold S0. apply sof_In, in_concat. exists (chosen (pi_z i)). split; auto. apply in_map_iff. exists i; auto. }
    eexists. split; [reflexivity|]. split. { eapply Permutation_NoDup; [apply Permutation_sym, P|]. apply sof_NoDup. } split.
    - intros p H1 H2 H3 H4. destruct (Hi p H1) as (i & Hii & <-). destruct (long_inside _ H1 H3 H4) as (z & Z1 & Z2).
      assert (Hz : In z (pi_z i)) by (apply (po_z i); auto). destruct (pi_z i) as [|c t] eqn:Ez; [destruct Hz|].
      assert (Hc : inside (pi_path i) c). { apply (po_z i (Fi i Hii) c). rewrite Ez. simpl; auto. }
      apply (blocked _ _ c); auto. apply HS. exists i. rewrite Ez. split; [apply Hfs; auto|simpl; auto].
    - intros z Hz. apply HS in Hz as (i & H1 & H2). apply Hfs in H1 as (H1 & H3 & H4). exists (pi_path i). split; [apply Fi; auto|]. split; auto. split; auto.
      apply chosen_in in H2. apply (po_z i) in H2; [tauto|apply Fi; auto].
  Qed.

  Lemma all_ok : exists Z0, get_all_confounders o d x y = Ok Z0 /\ NoDup Z0 /\
    (forall z, In z Z0 <-> z <> x /\ z <> y /\ ~ path (arc es) x z /\
       (forall p, simple_path es x y p -> backdoor es p -> ~ open_path es [] p -> ~ collider_on es p z) /\
       exists p, simple_path es x y p /\ backdoor es p /\ open_path es [] p /\ In z p).
  Proof.
    unfold get_all_confounders. destruct paths_ok as (is & Ei & Fi & Hi). rewrite Ei. cbn [rbind]. rewrite Forall_forall in Fi.
    destruct (descendants_ok d x G Hx) as (ds & Ed & Hd). rewrite Ed. cbn [rbind]. eexists. split; [reflexivity|]. split; [apply sof_NoDup|].
    intros z. rewrite sof_In, in_flat_map. split.
    - intros (i & H1 & H2). apply filter_In in H1 as [H1 H3]. apply andb_true_iff in H3 as [H3 H4]. apply filter_In in H2 as [H2 H5]. apply negb_true_iff in H5.
      match type of H5 with mem z ?l = false => destruct (mem_spec z l) as [|H6]; [discriminate|] end. rewrite !in_app_iff in H6. simpl in H6.
      split; [intros ->; tauto|]. split; [intros ->; tauto|]. split. { intros C. apply H6. right; left. apply Hd. split; auto. intros ->. tauto. }
      split.
      + intros p P1 P2 P3 P4. apply H6. left. destruct (Hi p P1) as (j & Hj & <-). apply in_flat_map. exists j. split.
        * apply filter_In. split; auto. apply andb_true_iff. split; [|apply (po_back j (Fi j Hj)); auto]. apply negb_true_iff. destruct (pi_active j) eqn:Ea; auto. exfalso. apply P3, (po_active j (Fi j Hj)); auto.
        * apply (po_colliders j (Fi j Hj)); auto.
      + exists (pi_path i). split; [apply Fi; auto|]. split; [apply (po_back i (Fi i H1)); auto|]. split; auto. apply (po_active i (Fi i H1)); auto.
    - intros (H1 & H2 & H3 & H4 & p & P1 & P2 & P3 & P4). destruct (Hi p P1) as (i & Hii & <-). exists i. split.
      + apply filter_In. split; auto. apply andb_true_iff. split; [apply (po_active i (Fi i Hii)); auto|apply (po_back i (Fi i Hii)); auto].
      + apply filter_In. split; auto. apply negb_true_iff. match goal with |- mem z ?l = false => destruct (mem_spec z l) as [H6|]; auto end.
        exfalso. apply in_app_or in H6 as [H6|H6]; [|apply in_app_or in H6 as [H6|H6]].
        * apply in_flat_map in H6 as (j & Hj & Hz). apply filter_In in Hj as [Hj Hb]. apply andb_true_iff in Hb as [Hb1 Hb2].
          apply (H4 (pi_path j)); [apply Fi; auto|apply (po_back j (Fi j Hj)); auto| |apply (po_colliders j (Fi j Hj)); auto].
          intros C. apply (po_active j (Fi j Hj)) in C. rewrite C in Hb1. discriminate.
        * apply Hd in H6. tauto.
        * simpl in H6. destruct H6 as [H6|[H6|[]]]; congruence.
  Qed.

  Lemma mediators_ok : exists M, get_minimal_mediators o d x y = Ok M /\ NoDup M /\
    (forall p, simple_path es x y p -> frontdoor es p -> open_path es [] p -> 3 <= List.length p ->
       (forall z q, inside p z -> simple_path es x y q -> ~ collider_on es q z) -> ~ open_path es M p) /\
    (forall z, In z M -> (exists p, simple_path es x y p /\ frontdoor es p /\ open_path es [] p /\ inside p z) /\
       forall q, simple_path es x y q -> ~ collider_on es q z).
  Proof.
    unfold get_minimal_mediators. destruct paths_ok as (is & Ei & Fi & Hi). rewrite Ei. cbn [rbind]. rewrite Forall_forall in Fi.
    set (fs := filter (fun p => pi_active p && pi_front p) is).
    assert (Hfs : forall i, In i fs <-> In i is /\ open_path es [] (pi_path i) /\ frontdoor es (pi_path i)).
    { intros i. unfold fs. rewrite filter_In, andb_true_iff. split; intros (H1 & H2 & H3); (split; [auto|]); rewrite (po_active i), (po_front i) in *; auto. }
    assert (Hfm : forall k i, In i fs -> exists l, find_minimal_mediator o k d (pi_path i) x y = Ok l /\ (forall z, In z l -> inside (pi_path i) z) /\
                     (3 <= List.length (pi_path i) -> exists z, In z l)).
    { intros k i Hii. apply Hfs in Hii as (H1 & H2 & H3). pose proof (po_path i (Fi i H1)) as Hp. unfold find_minimal_mediator.
      destruct (colliders_ok d G A (pi_path i)) as (cs & Ec & Hcs); [apply Hp|]. rewrite Ec. cbn [rbind]. destruct (inner_ok k (pi_path i) cs Hp Hcs) as [I1 I2].
      rewrite find_minimal_ok; auto. 2:{ intros c Hc. apply I2 in Hc. tauto. } eexists. split; [reflexivity|]. split.
      - intros z Hz. apply chosen_in in Hz. apply I2 in Hz. tauto.
      - intros Hl. destruct (long_inside _ Hp H2 Hl) as (z & Hz). apply I2 in Hz. destruct (inner o k (pi_path i) x y cs) as [|c t]; [destruct Hz|]. exists c. simpl; auto. }
    assert (HM : forall s, exists ms, mapM (fun kp => find_minimal_mediator o (fst kp) d (pi_path (snd kp)) x y) (combine (seq s (List.length fs)) fs) = Ok ms /\
                 (forall z, In z (List.concat ms) -> exists i, In i fs /\ inside (pi_path i) z) /\
                 (forall i, In i fs -> 3 <= List.length (pi_path i) -> exists z, In z (List.concat ms) /\ inside (pi_path i) z)).
    { clearbody fs. clear Hfs. induction fs as [|i fs IH]; intros s. { exists []. repeat split; auto. intros z []. intros i []. }
      simpl. destruct (Hfm s i) as (l & El & L1 & L2); [simpl; auto|]. rewrite El. cbn [rbind].
      destruct (IH (fun k j Hj => Hfm k j (or_intror Hj)) (S s)) as (ms & Em & M1 & M2). rewrite Em. cbn [rbind]. exists (l :: ms). split; auto. split.
      - intros z Hz. simpl in Hz. apply in_app_or in Hz as [Hz|Hz]; [exists i; auto|]. destruct (M1 z Hz) as (j & ? & ?). exists j; auto.
      - intros j [<-|Hj] Hl.
        + destruct (L2 Hl) as (z & Hz). exists z. split; auto. simpl. apply in_or_app; auto.
        + destruct (M2 j Hj Hl) as (z & Hz & ?). exists z. split; auto. simpl. apply in_or_app; auto. }
    destruct (HM 0) as (ms & Em & M1 & M2). rewrite Em. cbn [rbind].
    set (S0 := filter (fun v => negb (mem v (flat_map pi_colliders is))) (sof (List.concat ms))). pose proof (proj1 Ho (-1)%Z S0) as P.
    assert (HS : forall z, In z (zord o (-1) S0) <-> In z (List.concat ms) /\ forall q, simple_path es x y q -> ~ collider_on es q z).
    { intros z. assert (K : In z (zord o (-1) S0) <-> In z S0) by (split; apply Permutation_in; [|apply Permutation_sym]; apply P). rewrite K. unfold S0. rewrite filter_In, sof_In, negb_true_iff.
      split; intros [H1 H2]; (split; [auto|]).
      - intros q Hq C. destruct (Hi q Hq) as (j & Hj & <-). destruct (mem_spec z (flat_map pi_colliders is)) as [|Hm]; [discriminate|]. apply Hm, in_flat_map. exists j. split; auto. apply (po_colliders j (Fi j Hj)); auto.
      - destruct (mem_spec z (flat_map pi_colliders is)) as [Hm|]; auto. exfalso. apply in_flat_map in Hm as (j & Hj & Hz). apply (H2 (pi_path j)); [apply Fi; auto|]. apply (po_colliders j (Fi j Hj)); auto. }
    eexists. split; [reflexivity|]. split. { eapply Permutation_NoDup; [apply Permutation_sym, P|]. apply NoDup_filter, sof_NoDup. } split.
    - intros p P1 P2 P3 P4 P5. destruct (Hi p P1) as (i & Hii & <-). destruct (M2 i) as (z & Z1 & Z2); auto. apply Hfs; auto.
      apply (blocked _ _ z); auto. apply HS. split; auto.
    - intros z Hz. apply HS in Hz as [Z1 Z2]. split; auto. destruct (M1 z Z1) as (i & H1 & H2). apply Hfs in H1 as (H1 & H3 & H4). exists (pi_path i). split; [apply Fi; auto|]. auto.
  Qed.

  (** open paths that leave x are directed *)
  Lemma open_directed p : simple_path es x y p -> (frontdoor es p /\ open_path es [] p <-> directed es p).
  Proof.
    intros Hp. destruct (simple_length _ _ _ _ Hxy Hp) as (a & r & ->). destruct Hp as (HN & Hc & _ & _). unfold directed. rewrite open_nil. split.
    - intros [Hf Hn]. simpl in Hf. clear HN. revert Hc Hf Hn. generalize x a. clear - G A. induction r as [|c r IH]; intros x0 a0 Hc Hf Hn; [simpl; auto|].
      split; auto. destruct Hc as [_ Hc]. apply IH; auto.
      + destruct Hc as [[Hc|Hc] _]; auto. exfalso. apply (Hn x0 a0 c); [exists [], r; auto|]. split; auto.
      + intros u v w T. apply Hn. apply triple_cons. auto.
    - intros Hd. split; [apply Hd|]. intros u z w T [C1 C2]. destruct (triple_chain _ _ _ _ _ Hd T) as [H1 H2]. apply (no_two d A z w); auto.
  Qed.
End Do.
