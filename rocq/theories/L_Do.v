(** Paths and their activity. *)
From Verif Require Import Py M_Graph M_Nx M_Gen M_Do Spec SpecNx SpecDo L_Base L_Sums L_Table L_PD L_UG L_Nx.
Open Scope nat_scope.

(** ** triplets *)
Fixpoint trip (p : list Z) : list (list Z) :=
  match p with x :: q => match q with z :: y :: _ => [x; z; y] :: trip q | _ => [] end | [] => [] end.
Lemma trip_eq p : map (fun i => firstn 3 (skipn i p)) (seq 0 (List.length p - 2)) = trip p.
Proof.
  induction p as [|x q IH]; [reflexivity|]. destruct q as [|z [|y r]]; try reflexivity.
  replace (List.length (x :: z :: y :: r) - 2) with (S (List.length (z :: y :: r) - 2)) by (simpl; lia).
  cbn [seq map]. rewrite <- seq_shift, map_map. change (trip (x :: z :: y :: r)) with ([x; z; y] :: trip (z :: y :: r)). f_equal. rewrite <- IH. apply map_ext. intros i. reflexivity.
Qed.
Lemma triplets_eq p : 3 <= List.length p -> get_path_triplets p = trip p.
Proof. intros H. unfold get_path_triplets. destruct (Nat.ltb_spec (List.length p) 3); [lia|]. apply trip_eq. Qed.
Lemma triple_cons a p x z y : triple (a :: p) x z y <-> (x = a /\ exists r, p = z :: y :: r) \/ triple p x z y.
Proof.
  split.
  - intros (l & r & E). destruct l as [|b l]; simpl in E; injection E as -> ->; [left; eauto|right; exists l, r; auto].
  - intros [[-> (r & ->)]|(l & r & ->)]. exists [], r; auto. exists (a :: l), r; auto.
Qed.
Lemma triple_nil x z y : ~ triple [] x z y.
Proof. intros (l & r & E). destruct l; discriminate. Qed.
Lemma triple_In p x z y : triple p x z y -> In x p /\ In z p /\ In y p.
Proof. intros (l & r & ->). rewrite !in_app_iff. simpl. tauto. Qed.
Lemma triple_chain R p x z y : chain R p -> triple p x z y -> R x z /\ R z y.
Proof.
  intros Hc (l & r & ->). induction l as [|a l IH]; simpl in Hc; [tauto|]. destruct l as [|b l]; simpl in *; tauto.
Qed.

Section Dag.
  Variable d : digraph.
  Hypothesis G : dgood d.
  Hypothesis A : acyclic (E d).
  Notation es := (dg_edges d).

  Lemma no_two a b : In (a, b) es -> ~ In (b, a) es.
  Proof. intros H1 H2. apply (A a b H1). apply path_one. auto. Qed.

  Lemma succ_ok a b : sym (arc es) a b -> successors d a = Ok (succs d a) /\ successors d b = Ok (succs d b).
  Proof.
    intros H. assert (In a (dg_nodes d) /\ In b (dg_nodes d)) as [Ha Hb] by (destruct H as [H|H]; apply (dg_in _ G) in H; tauto).
    unfold successors. rewrite (proj2 (mem_In _ _) Ha), (proj2 (mem_In _ _) Hb). auto.
  Qed.
  Lemma mem_succ a b : mem b (succs d a) = true <-> In (a, b) es.
  Proof. rewrite mem_In. apply succs_In. Qed.
  Lemma collides_dec x z y : {collides es x z y} + {~ collides es x z y}.
  Proof.
    destruct (mem z (succs d x)) eqn:E1, (mem z (succs d y)) eqn:E2; [left; split; apply mem_succ; auto| | |]; right; intros [H1 H2]; apply mem_succ in H1, H2; congruence.
  Qed.
  Lemma type_ok x z y : sym (arc es) x z -> sym (arc es) z y ->
    exists t, get_triplet_type d x z y = Ok t /\ (t = Converging <-> collides es x z y).
  Proof.
    intros H1 H2. unfold get_triplet_type. destruct (succ_ok x z H1) as [-> ->]. destruct (succ_ok z y H2) as [_ ->]. cbn [rbind]. unfold collides.
    destruct (mem z (succs d x)) eqn:Exz, (mem y (succs d z)) eqn:Ezy, (mem z (succs d y)) eqn:Eyz, (mem x (succs d z)) eqn:Ezx; simpl;
      repeat match goal with H : mem _ _ = true |- _ => apply mem_succ in H end;
      try (exfalso; eapply no_two; eassumption);
      try (eexists; split; [reflexivity|]; split; [discriminate || tauto|]; intros [K1 K2]; apply mem_succ in K1, K2; congruence);
      try (eexists; split; [reflexivity|]; tauto).
    all: exfalso; unfold sym, arc in *; rewrite <- !mem_succ in H1, H2; destruct H1, H2; congruence.
  Qed.

  Lemma active_set x z y ev : sym (arc es) x z -> sym (arc es) z y ->
    exists b, is_active_triplet d x z y (EvSet ev) = Ok b /\
      (b = true <-> (collides es x z y -> exists v, path (arc es) z v /\ In v ev) /\ (~ collides es x z y -> ~ In z ev)).
  Proof.
    intros H1 H2. destruct (type_ok x z y H1 H2) as (t & Et & Ht). unfold is_active_triplet. rewrite Et. cbn [rbind].
    assert (Hz : In z (dg_nodes d)) by (destruct H2 as [H|H]; apply (dg_in _ G) in H; tauto).
    destruct (collides_dec x z y) as [C|C].
    - apply Ht in C as C'. subst t. destruct (descendants_ok d z G Hz) as (ds & Ed & Hd). rewrite Ed. cbn [rbind]. eexists. split; [reflexivity|].
      rewrite Nat.ltb_lt. split.
      + intros Hl. split; [|tauto]. intros _. destruct (filter _ (sadd ds z)) as [|v l] eqn:Ef; [simpl in Hl; lia|].
        assert (Hv : In v (v :: l)) by (simpl; auto). rewrite <- Ef in Hv. apply filter_In in Hv as [Hv1 Hv2]. apply mem_In in Hv2. exists v. split; auto.
        apply sadd_In in Hv1 as [Hv1| ->]; [|apply path_refl]. apply Hd in Hv1. tauto.
      + intros [K _]. destruct (K C) as (v & Hp & Hv). assert (Hf : In v (filter (fun v => mem v ev) (sadd ds z))).
        { apply filter_In. split; [|apply mem_In; auto]. apply sadd_In. destruct (Z.eq_dec v z); auto. left. apply Hd. auto. }
        destruct (filter _ _); [destruct Hf|simpl; lia].
    - exists (negb (mem z ev)). split. { destruct t; auto. exfalso. apply C, Ht; auto. }
      rewrite negb_true_iff. destruct (mem_spec z ev) as [Hm|Hm]; split; try tauto; try discriminate.
  Qed.
  (** non-colliders do not care whether the evidence is a set *)
  Lemma active_list x z y ev : sym (arc es) x z -> sym (arc es) z y -> ~ collides es x z y -> is_active_triplet d x z y (EvList ev) = Ok (negb (mem z ev)).
  Proof.
    intros H1 H2 C. destruct (type_ok x z y H1 H2) as (t & Et & Ht). unfold is_active_triplet. rewrite Et. cbn [rbind].
    destruct t; auto. exfalso. apply C, Ht; auto.
  Qed.

  Definition open_at (ev : list Z) (x z y : Z) : Prop :=
    (collides es x z y -> exists v, path (arc es) z v /\ In v ev) /\ (~ collides es x z y -> ~ In z ev).
  Lemma all_active_set ev p : chain (sym (arc es)) p ->
    exists b, all_active d (trip p) (EvSet ev) = Ok b /\ (b = true <-> forall x z y, triple p x z y -> open_at ev x z y).
  Proof.
    induction p as [|x q IH]; intros Hc. { exists true. split; auto. split; auto. intros _ x z y H. destruct (triple_nil _ _ _ H). }
    destruct q as [|z q]. { exists true. split; auto. split; auto. intros _ a b c H. apply triple_cons in H as [[_ (r & H)]|H]; [discriminate|]. destruct (triple_nil _ _ _ H). }
    destruct q as [|y r].
    { exists true. split; auto. split; auto. intros _ a b c H. apply triple_cons in H as [[_ (r & H)]|H]; [discriminate|]. apply triple_cons in H as [[_ (r & H)]|H]; [discriminate|]. destruct (triple_nil _ _ _ H). }
    destruct Hc as [H1 Hc]. destruct (IH Hc) as (b & Eb & Hb). destruct Hc as [H2 Hc]. destruct (active_set x z y ev H1 H2) as (c & Ec & Hc').
    change (trip (x :: z :: y :: r)) with ([x; z; y] :: trip (z :: y :: r)). cbn [all_active unpack3 rbind]. rewrite Ec. cbn [rbind].
    assert (K : forall a b0 c0, triple (x :: z :: y :: r) a b0 c0 <-> (a = x /\ b0 = z /\ c0 = y) \/ triple (z :: y :: r) a b0 c0).
    { intros a b0 c0. rewrite triple_cons. split; intros [H|H]; auto. destruct H as [-> (r0 & E0)]. injection E0 as -> -> _. auto. destruct H as (-> & -> & ->). left. eauto. }
    destruct c.
    - exists b. split; auto. rewrite Hb. split; intros H a b0 c0 Ht; [|apply H, K; auto]. apply K in Ht as [(-> & -> & ->)|Ht]; auto. apply Hc'; auto.
    - exists false. split; auto. split; [discriminate|]. intros H. apply Hc'. apply H. apply K. auto.
  Qed.
  Lemma all_active_list ev p : chain (sym (arc es)) p -> (forall x z y, triple p x z y -> ~ collides es x z y) ->
    exists b, all_active d (trip p) (EvList ev) = Ok b /\ (b = true <-> forall z, inside p z -> ~ In z ev).
  Proof.
    induction p as [|x q IH]; intros Hc Hn. { exists true. split; auto. split; auto. intros _ z (x & y & H). destruct (triple_nil _ _ _ H). }
    destruct q as [|z q]. { exists true. split; auto. split; auto. intros _ b (a & c & H). apply triple_cons in H as [[_ (r & H)]|H]; [discriminate|]. destruct (triple_nil _ _ _ H). }
    destruct q as [|y r].
    { exists true. split; auto. split; auto. intros _ b (a & c & H). apply triple_cons in H as [[_ (r & H)]|H]; [discriminate|]. apply triple_cons in H as [[_ (r & H)]|H]; [discriminate|]. destruct (triple_nil _ _ _ H). }
    destruct Hc as [H1 Hc]. destruct (IH Hc) as (b & Eb & Hb). { intros a b c Ht. apply Hn. apply triple_cons. auto. } destruct Hc as [H2 Hc].
    assert (T0 : triple (x :: z :: y :: r) x z y) by (exists [], r; auto).
    pose proof (active_list x z y ev H1 H2 (Hn _ _ _ T0)) as Ec.
    change (trip (x :: z :: y :: r)) with ([x; z; y] :: trip (z :: y :: r)). cbn [all_active unpack3 rbind]. rewrite Ec. cbn [rbind].
    destruct (mem_spec z ev) as [Hm|Hm]; simpl negb; cbn iota.
    - exists false. split; auto. split; [discriminate|]. intros H. exfalso. apply (H z); auto. exists x, y; auto.
    - exists b. split; auto. rewrite Hb. split; intros H w Hw.
      + destruct Hw as (a & c & Ht). apply triple_cons in Ht as [[-> (r0 & E0)]|Ht]; [injection E0 as -> -> _; auto|]. apply H. exists a, c; auto.
      + apply H. destruct Hw as (a & c & Ht). exists a, c. apply triple_cons. auto.
  Qed.

  Lemma active_path_set ev p : 3 <= List.length p -> chain (sym (arc es)) p ->
    exists b, is_active_path d p (EvSet ev) = Ok b /\ (b = true <-> open_path es ev p).
  Proof.
    intros Hl Hc. unfold is_active_path. destruct (Nat.ltb_spec (List.length p) 3); [lia|]. rewrite triplets_eq by auto. apply all_active_set; auto.
  Qed.
  Lemma active_path_short ev p a b : List.length p < 3 -> hd_error p = Some a -> hd_error (rev p) = Some b ->
    is_active_path d p (EvSet ev) = Ok (negb (mem a ev || mem b ev)).
  Proof. intros Hl Ha Hb. unfold is_active_path. destruct (Nat.ltb_spec (List.length p) 3); [|lia]. rewrite Ha, Hb. auto. Qed.
  Lemma colliders_ok p : chain (sym (arc es)) p -> exists cs, get_colliders d p = Ok cs /\ (forall z, In z cs <-> collider_on es p z).
  Proof.
    intros Hc. assert (G0 : forall q, chain (sym (arc es)) q -> exists zs, mapM (fun t => u <- unpack3 t ;; let '(x, z, y) := u in
                         k <- get_triplet_type d x z y ;; Ok (match k with Converging => [z] | _ => [] end)) (trip q) = Ok zs /\
              forall z, In z (List.concat zs) <-> collider_on es q z).
    { clear p Hc. induction q as [|x q IH]; intros Hc. { exists []. split; auto. intros z; split; [intros []|]. intros (x & y & H & _). destruct (triple_nil _ _ _ H). }
      destruct q as [|z q]. { exists []. split; auto. intros w; split; [intros []|]. intros (a & c & H & _). apply triple_cons in H as [[_ (r & H)]|H]; [discriminate|]. destruct (triple_nil _ _ _ H). }
      destruct q as [|y r].
      { exists []. split; auto. intros w; split; [intros []|]. intros (a & c & H & _). apply triple_cons in H as [[_ (r & H)]|H]; [discriminate|]. apply triple_cons in H as [[_ (r & H)]|H]; [discriminate|]. destruct (triple_nil _ _ _ H). }
      destruct Hc as [H1 Hc]. destruct (IH Hc) as (zs & Ez & Hz). destruct Hc as [H2 Hc]. destruct (type_ok x z y H1 H2) as (t & Et & Ht).
      exists ((match t with Converging => [z] | _ => [] end) :: zs). split.
      { change (trip (x :: z :: y :: r)) with ([x; z; y] :: trip (z :: y :: r)). cbn [mapM unpack3 rbind]. rewrite Et. cbn [rbind]. rewrite Ez. cbn [rbind]. auto. }
      intros w. cbn [List.concat]. rewrite in_app_iff, Hz. unfold collider_on. split.
      - intros [Hw|(a & c & T & C)].
        + destruct t; [destruct Hw|destruct Hw|]. destruct Hw as [<-|[]]. exists x, y. split; [exists [], r; auto|apply Ht; auto].
        + exists a, c. split; auto. apply triple_cons; auto.
      - intros (a & c & T & C). apply triple_cons in T as [[-> (r0 & E0)]|T].
        + injection E0 as -> -> _. apply Ht in C. subst t. left; simpl; auto.
        + right. exists a, c; auto. }
    unfold get_colliders. destruct (Nat.ltb_spec (List.length p) 3) as [Hl|Hl].
    - exists []. split; auto. intros z; split; [intros []|]. intros (x & y & (l & r & ->) & _). rewrite app_length in Hl. simpl in Hl. lia.
    - rewrite triplets_eq by auto. destruct (G0 p Hc) as (zs & Ez & Hz). rewrite Ez. cbn [rbind]. eauto.
  Qed.
End Dag.

(** ** all simple paths *)
Definition nextto (adj : Z -> list Z) : Z -> Z -> Prop := fun a b => In b (adj a).
Lemma simple_paths_In adj t : forall f seen cur p, In p (simple_paths f adj t seen cur) <->
  exists q, p = seen ++ q ++ [t] /\ List.length q < f /\ chain (nextto adj) (cur :: q ++ [t]) /\ NoDup (q ++ [t]) /\ (forall v, In v (q ++ [t]) -> ~ In v seen).
Proof.
  induction f as [|f IH]; intros seen cur p; simpl. { split; [intros []|]. intros (q & _ & H & _). lia. }
  rewrite in_flat_map. split.
  - intros (j & Hj & Hp). destruct (mem_spec j seen) as [Hm|Hm]; [destruct Hp|]. change (eqb j t) with (Z.eqb j t) in Hp. destruct (Z.eqb_spec j t) as [->|Hne].
    + destruct Hp as [<-|[]]. exists []. simpl. split; auto. split; [lia|]. split; [split; auto|]. split; [repeat constructor; auto|]. intros v [<-|[]]; auto.
    + apply IH in Hp as (q & -> & Hl & Hc & HN & Hs). exists (j :: q). simpl. rewrite <- !app_assoc. split; auto. split; [lia|]. split; [split; auto|]. split.
      * constructor; auto. intros C. apply (Hs j C). apply in_or_app. simpl; auto.
      * intros v [<-|Hv]; auto. intros C. apply (Hs v Hv). apply in_or_app; auto.
  - intros (q & -> & Hl & Hc & HN & Hs). destruct q as [|j q].
    + exists t. simpl in *. split; [apply Hc|]. destruct (mem_spec t seen) as [Hm|Hm]; [exfalso; apply (Hs t); auto|]. change (eqb t t) with (Z.eqb t t). rewrite Z.eqb_refl. simpl; auto.
    + exists j. simpl in *. destruct Hc as [H1 Hc]. split; auto. destruct (mem_spec j seen) as [Hm|Hm]; [exfalso; apply (Hs j); auto|].
      inversion_clear HN as [|? ? Hj HN']. change (eqb j t) with (Z.eqb j t). destruct (Z.eqb_spec j t) as [->|Hne]. { exfalso. apply Hj. apply in_or_app; simpl; auto. }
      apply IH. exists q. rewrite <- !app_assoc. simpl. split; auto. split; [lia|]. split; auto. split; auto.
      intros v Hv C. apply in_app_or in C as [C|[C|[]]]; [apply (Hs v); auto|subst; auto].
Qed.

Section Paths.
  Variable d : digraph.
  Hypothesis G : dgood d.
  Notation es := (dg_edges d).
  Variables (x y : Z).
  Hypothesis Hx : In x (dg_nodes d).
  Hypothesis Hy : In y (dg_nodes d).
  Hypothesis Hxy : x <> y.

  Lemma chain_impl (R S : Z -> Z -> Prop) l : (forall a b, R a b -> S a b) -> chain R l -> chain S l.
  Proof. intros H. induction l as [|a l IH]; auto. destruct l as [|b l]; auto. intros [H1 H2]. split; auto. Qed.
  Lemma adj_sym a b : nextto (ug_adj (to_undirected d)) a b <-> sym (arc es) a b.
  Proof. unfold nextto, to_undirected. rewrite adj_In, !(edge_list_In d G). reflexivity. Qed.
  Lemma all_paths_ok : exists ps, get_all_paths d x y = Ok ps /\ (forall p, In p ps <-> simple_path es x y p).
  Proof.
    unfold get_all_paths, all_simple_paths, do_undirected. replace (ug_nodes (to_undirected d)) with (dg_nodes d) by reflexivity.
    rewrite (proj2 (mem_In _ _) Hx), (proj2 (mem_In _ _) Hy). cbn [andb]. eexists. split; [reflexivity|]. intros p. rewrite simple_paths_In. unfold simple_path. split.
    - intros (q & -> & Hl & Hc & HN & Hs). split; [|split; [|split]].
      + change (NoDup (x :: (q ++ [y]))). constructor; auto. intros C. apply (Hs x C). simpl; auto.
      + apply (chain_impl _ _ _ (fun a b => proj1 (adj_sym a b)) Hc).
      + reflexivity.
      + change ([x] ++ q ++ [y]) with ((x :: q) ++ [y]). rewrite rev_app_distr. reflexivity.
    - intros (HN & Hc & Hh & Ht). destruct p as [|x0 p]; [discriminate|]. injection Hh as ->.
      destruct p as [|a p0] using rev_ind; [simpl in Ht; congruence|]. clear IHp0.
      change (x :: p0 ++ [a]) with ((x :: p0) ++ [a]) in Ht. rewrite rev_app_distr in Ht. injection Ht as ->. exists p0.
      inversion_clear HN as [|? ? Hx1 HN1]. split; auto. split; [|split; [|split; auto]].
      + assert (Hin : incl (x :: p0 ++ [y]) (dg_nodes d)).
        { clear - G Hx Hc. revert x Hx Hc. generalize (p0 ++ [y]). induction l as [|b l IH]; intros a Ha Hc w Hw.
          - destruct Hw as [<-|[]]; auto.
          - destruct Hc as [H1 Hc]. destruct Hw as [<-|Hw]; auto. apply (IH b); auto. destruct H1 as [H1|H1]; apply (dg_in _ G) in H1; tauto. }
        assert (List.length (x :: p0 ++ [y]) <= List.length (dg_nodes d)). { apply NoDup_incl_length; auto. constructor; auto. }
        simpl in H. rewrite app_length in H. simpl in H. lia.
      + apply (chain_impl _ _ _ (fun a b => proj2 (adj_sym a b)) Hc).
      + intros v Hv [<-|[]]. auto.
  Qed.
End Paths.
