(** Triangulator.triangulate: the order of elimination, the chordal graph it makes, and no edges for a graph that is chordal already. *)
From Verif Require Import Py M_Graph M_Node M_Pptc Spec SpecNet SpecChord L_Base L_PD L_UG L_Ids L_Elim L_Trans L_Tri L_Moral L_Det L_Apply L_Net L_Shape L_Dirac.
Open Scope nat_scope.

(** ** pairs of an increasing list *)
Lemma pairs_incr_In l : incr l -> forall x y, In (x, y) (pairs l) <-> (x < y)%Z /\ In x l /\ In y l.
Proof.
  induction 1 as [|a l H IH F]; intros x y; [simpl; tauto|]. cbn [pairs]. rewrite in_app_iff, IH, in_map_iff. rewrite Forall_forall in F. cbn [In]. split.
  - intros [(z & Q & Hz)|(A & B & C)]; [|tauto]. injection Q as <- <-. split; [apply F; exact Hz|]. auto.
  - intros (A & [<-|B] & [<-|C]); try lia; [left; exists y; auto| |tauto]. exfalso. specialize (F x B). lia.
Qed.
Lemma pairs_incr_NoDup l : incr l -> NoDup (pairs l).
Proof.
  induction 1 as [|a l H IH F]; [constructor|]. cbn [pairs]. rewrite Forall_forall in F. apply L_Table.NoDup_app_intro.
  - apply FinFun.Injective_map_NoDup; [intros u v Q; injection Q; auto|]. clear -H. induction H as [|b l H IH F]; constructor; auto. intros Q. rewrite Forall_forall in F. specialize (F b Q). lia.
  - exact IH.
  - intros [u v] Q P. apply in_map_iff in Q. destruct Q as (z & Q & _). injection Q as <- <-. apply pairs_incr_In in P; [|exact H]. destruct P as (_ & P & _). specialize (F a P). lia.
Qed.

(** ** what generate_cliques computes *)
Section Rank.
  Context (o : Ord) (Ho : ord_ok o) (size : Z -> Z) (mm : graph bnode) (U : ug mm).
  Context (Hw : forall k n, In (k, n) (g_nodes mm) -> n_weight n = size k).
  Lemma node_weight i n : get_node mm i = Ok n -> n_weight n = size i.
  Proof using Hw. unfold get_node, dgetE. destruct (dget (g_nodes mm) i) as [n'|] eqn:Q; [|discriminate]. intros X. injection X as <-. apply dget_In in Q. eapply Hw; eauto. Qed.
  Lemma nodes_weight l : forall ns, mapM (get_node mm) l = Ok ns -> map n_weight ns = map size l.
  Proof using Hw.
    induction l as [|i l IH]; intros ns; cbn [mapM]; [intros X; injection X as <-; reflexivity|]. destruct (get_node mm i) as [n|] eqn:Q; cbn [rbind]; [|discriminate].
    destruct (mapM (get_node mm) l) as [r|]; cbn [rbind]; [|discriminate]. intros X. injection X as <-. cbn [map]. rewrite (node_weight _ _ Q), (IH r eq_refl). reflexivity.
  Qed.
  Lemma nc_rank l nc : generate_cliques o mm = Ok l -> In nc l ->
    unjoined (adj mm) (n_id (nc_node nc)) (List.length (nc_edges nc)) /\ combinations size (adj mm) (n_id (nc_node nc)) (nc_weight nc).
  Proof using Ho U Hw.
    unfold generate_cliques. intros G Hi. apply mapM_Ok in G.
    assert (Hn : exists n, In n (get_nodes mm) /\ (ns <- nbr_nodes o mm n ;; w <- tri_weight o n mm ;; es <- edges_to_add o n mm ;; Ok (mkNC n ns w es)) = Ok nc).
    { clear -G Hi. induction G as [|a b l r H F IH]; [destruct Hi|]. destruct Hi as [<-|Hi]; [exists a; split; [left; reflexivity|exact H]|]. destruct (IH Hi) as (n & A & B). exists n. split; [right; exact A|exact B]. }
    destruct Hn as (n & Hn & Q). destruct (nbr_nodes_ok o Ho mm n U) as (ns & N1 & N2). unfold tri_weight, edges_to_add in Q. rewrite N1 in Q. cbn [rbind] in Q. injection Q as <-. cbn [nc_node nc_edges nc_weight].
    set (v := n_id n) in *. set (NN := zord o v (get_neighbors mm v)) in *.
    assert (P : Permutation NN (get_neighbors mm v)) by apply Ho.
    assert (ND : NoDup NN) by (apply Permutation_NoDup with (get_neighbors mm v); [symmetry; exact P|apply (ug_nd _ _ U)]).
    assert (HNi : forall x, In x NN <-> adj mm v x). { intros x. unfold NN. rewrite zord_In by auto. reflexivity. }
    split.
    - set (p := fun q : Z * Z => negb (edge_exists mm (fst q) (snd q))). exists (filter p (pairs (isort Z.leb NN))).
      assert (I : incr (isort Z.leb NN)) by (apply isort_incr; exact ND).
      split; [apply NoDup_filter, pairs_incr_NoDup; exact I|]. split.
      + intros x y. rewrite filter_In, pairs_incr_In by exact I. rewrite !isort_In, !HNi. unfold p. cbn [fst snd]. rewrite negb_true_iff.
        pose proof (edge_exists_adj n_id mm x y U) as X. destruct (edge_exists mm x y); intuition congruence.
      + assert (Sy : forall x y, p (x, y) = p (y, x)) by (intros x y; unfold p, edge_exists; cbn [fst snd]; rewrite orb_comm; reflexivity).
        change (npairs p (isort Z.leb NN) = List.length (map (fun q : bnode * bnode => mkEdge (fst q) (snd q) UNDIRECTED) (filter (fun q => negb (edge_exists mm (n_id (fst q)) (n_id (snd q)))) (pairs ns)))).
        rewrite map_length, (npairs_perm p Sy _ NN) by apply isort_perm. rewrite <- N2. unfold npairs. rewrite pairs_map, filter_map_len. reflexivity.
    - exists (v :: NN). split; [constructor; [rewrite HNi; apply (ug_irr _ _ U)|exact ND]|]. split; [intros x; cbn [In]; rewrite HNi; intuition|].
      cbn [map fold_right]. f_equal.
      + unfold get_nodes, dvals in Hn. apply in_map_iff in Hn. destruct Hn as ([k n'] & <- & Hn). cbn [snd]. rewrite (Hw _ _ Hn). f_equal. symmetry. apply (ug_kid _ _ U _ _ Hn).
      + unfold nbr_nodes in N1. fold v NN in N1. rewrite (nodes_weight _ _ N1). reflexivity.
  Qed.
  Lemma select_cheapest nc : get_nodes mm <> [] -> select_node o mm = Ok nc -> forall u, In u (ids mm) -> u <> n_id (nc_node nc) -> cheaper size (adj mm) (n_id (nc_node nc)) u.
  Proof using Ho U Hw.
    intros Hne. unfold select_node. destruct (generate_ok o Ho mm U) as (l & G & E2 & _). rewrite G. cbn [rbind]. destruct (isort nc_leb l) as [|x t] eqn:Es; [discriminate|]. intros X. injection X as ->.
    intros u Hu Hn. rewrite <- (get_nodes_ids n_id mm U), <- E2, map_map in Hu. apply in_map_iff in Hu. destruct Hu as (nu & <- & Hu).
    assert (Hnc : In nc l) by (apply (isort_In nc_leb); rewrite Es; left; reflexivity).
    destruct (nc_rank l nc G Hnc) as [A1 A2]. destruct (nc_rank l nu G Hu) as [B1 B2]. exists (List.length (nc_edges nc)), (nc_weight nc), (List.length (nc_edges nu)), (nc_weight nu).
    split; [exact A1|]. split; [exact A2|]. split; [exact B1|]. split; [exact B2|].
    assert (L : nc_leb nc nu = true).
    { apply (isort_head nc_leb) with (t := t) (l := l); auto.
      - intros a b. unfold nc_leb. destruct (Nat.eqb_spec (List.length (nc_edges a)) (List.length (nc_edges b))) as [Q|Q].
        + rewrite Q, Nat.eqb_refl. destruct (Z.eqb_spec (nc_weight a) (nc_weight b)) as [R|R]; [rewrite R, Z.eqb_refl; rewrite !Z.leb_le; lia|]. rewrite (proj2 (Z.eqb_neq (nc_weight b) (nc_weight a))) by congruence. rewrite !Z.leb_le; lia.
        + rewrite (proj2 (Nat.eqb_neq (List.length (nc_edges b)) (List.length (nc_edges a)))) by congruence. rewrite !Nat.leb_le; lia.
      - intros a b c. unfold nc_leb. repeat match goal with |- context [Nat.eqb ?x ?y] => destruct (Nat.eqb_spec x y) | |- context [Z.eqb ?x ?y] => destruct (Z.eqb_spec x y) end; rewrite ?Z.leb_le, ?Nat.leb_le; intros; try lia; congruence. }
    unfold nc_leb in L. destruct (Nat.eqb_spec (List.length (nc_edges nc)) (List.length (nc_edges nu))) as [Q|Q].
    - right. split; [exact Q|]. destruct (Z.eqb_spec (nc_weight nc) (nc_weight nu)) as [R|R]; [right; split; [exact R|]; apply Z.leb_le in L; lia|]. left. apply Z.leb_le in L. lia.
    - left. apply Nat.leb_le in L. lia.
  Qed.
End Rank.

Lemma eliminates_ext size V E steps : eliminates size V E steps -> forall E', (forall x y, E x y <-> E' x y) -> eliminates size V E' steps.
Proof.
  induction 1 as [E|V V' v nbrs E steps HP HC HN HNs He IH]; intros E' Q; [constructor|]. apply one_more with V'; auto.
  - intros u Hu. destruct (HC u Hu) as (n & w & n' & w' & (l & L1 & L2 & L3) & (k & K1 & K2 & K3) & (l' & M1 & M2 & M3) & (k' & O1 & O2 & O3) & R).
    exists n, w, n', w'. split; [exists l; split; [exact L1|]; split; [intros x y; rewrite L2, !Q; reflexivity|exact L3]|]. split; [exists k; split; [exact K1|]; split; [intros x; rewrite K2, Q; reflexivity|exact K3]|].
    split; [exists l'; split; [exact M1|]; split; [intros x y; rewrite M2, !Q; reflexivity|exact M3]|]. split; [exists k'; split; [exact O1|]; split; [intros x; rewrite O2, Q; reflexivity|exact O3]|]. exact R.
  - intros x. rewrite HNs. apply Q.
  - apply IH. intros x y. unfold without. rewrite !Q. reflexivity.
Qed.

(** the sets an elimination makes *)
Definition sets (steps : list (Z * list Z)) : list (list Z) := map (fun s => snd s ++ [fst s]) steps.

Theorem tri_loop_steps o size : ord_ok o -> forall f m mm acc, ug m -> ug mm -> (forall x y, adj mm x y -> adj m x y) -> incl (ids mm) (ids m) ->
  (forall k n, In (k, n) (g_nodes mm) -> n_weight n = size k) -> List.length (ids mm) <= f ->
  exists m' steps, tri_loop o f m mm (map mk_clique acc) = Ok (m', map mk_clique (keep acc (sets steps))) /\ eliminates size (ids mm) (adj mm) steps /\
    g_nodes m' = g_nodes m /\ (forall x y, adj m' x y <-> adj m x y \/ exists K, In K (sets steps) /\ fill K x y).
Proof.
  intros Ho. induction f as [|f IH]; intros m mm acc Um U Hsub Hids Hw Hf.
  - destruct (g_nodes mm) as [|p l] eqn:E; [|unfold ids, dkeys in Hf; rewrite E in Hf; simpl in Hf; lia].
    exists m, []. assert (E' : get_nodes mm = []) by (unfold get_nodes, dvals; rewrite E; auto). split; [simpl; rewrite E'; auto|].
    split; [unfold ids, dkeys; rewrite E; constructor|]. split; auto. intros x y. split; auto. intros [H|[K [[] _]]]; auto.
  - destruct (list_eq_dec Z.eq_dec (ids mm) []) as [E|E].
    + assert (E' : get_nodes mm = []). { pose proof (get_nodes_ids n_id mm U) as E'. rewrite E in E'. apply map_eq_nil in E'. auto. }
      exists m, []. split; [simpl; rewrite E'; auto|]. rewrite E. split; [constructor|]. split; auto. intros x y. split; auto. intros [H|[K [[] _]]]; auto.
    + assert (Hne : get_nodes mm <> []). { pose proof (get_nodes_ids n_id mm U) as E'. intros E2. rewrite E2 in E'. simpl in E'. congruence. }
      destruct (select_ok o Ho mm U Hne) as [nc [Es [Hnc [En Ee]]]].
      destruct (next_ok o mm nc Ho U Hne Es) as (U2 & In1 & _ & Ha2). pose proof (select_cheapest o Ho size mm U Hw nc Hne Es) as Hch.
      assert (EL : tri_loop o (S f) m mm (map mk_clique acc) =
                   (let c := mk_clique (map n_id (nc_nbrs nc ++ [nc_node nc])) in
                    let cliques' := if is_subset (map mk_clique acc) c then map mk_clique acc else map mk_clique acc ++ [c] in
                    tri_loop o f (fold_left (add_edge n_id) (nc_edges nc) m) (next mm nc) cliques')).
      { cbn [tri_loop]. destruct (get_nodes mm) as [|p l] eqn:Eg; [congruence|]. rewrite Es. cbn [rbind]. reflexivity. }
      rewrite EL. clear EL. cbv zeta. set (v := n_id (nc_node nc)) in *.
      destruct (nbr_nodes_ok o Ho mm (nc_node nc) U) as [ns [E1 E2]]. rewrite E1 in En. inversion En; subst ns. clear En. fold v in E2.
      set (NN := zord o v (get_neighbors mm v)) in *.
      assert (HNN : NoDup NN). { apply Permutation_NoDup with (get_neighbors mm v). symmetry. apply Ho. apply (ug_nd _ _ U). }
      assert (HNi : forall x, In x NN <-> adj mm v x). { intros x. unfold NN. rewrite zord_In by auto. reflexivity. }
      assert (Hv : In v (ids mm)). { rewrite <- (get_nodes_ids n_id mm U). apply in_map; auto. }
      rewrite map_app, E2. simpl map. fold v.
      assert (Eac : (if is_subset (map mk_clique acc) (mk_clique (NN ++ [v])) then map mk_clique acc else map mk_clique acc ++ [mk_clique (NN ++ [v])]) =
                     map mk_clique (if existsb (fun A => subset (NN ++ [v]) A) acc then acc else acc ++ [NN ++ [v]])).
      { assert (Ei : is_subset (map mk_clique acc) (mk_clique (NN ++ [v])) = existsb (fun A => subset (NN ++ [v]) A) acc).
        { unfold is_subset. clear. induction acc as [|A acc IH]; simpl; auto. rewrite IH. reflexivity. }
        rewrite Ei. destruct (existsb _ acc); auto. rewrite map_app. reflexivity. }
      rewrite Eac. clear Eac.
      assert (Hes : nc_edges nc = map (fun p => mkEdge (fst p) (snd p) UNDIRECTED) (filter (fun p => negb (edge_exists mm (n_id (fst p)) (n_id (snd p)))) (pairs (nc_nbrs nc)))).
      { unfold edges_to_add in Ee. rewrite E1 in Ee. cbn [rbind] in Ee. injection Ee as <-. reflexivity. }
      assert (Hund : forall e, In e (nc_edges nc) -> e_t e = UNDIRECTED). { intros e He. rewrite Hes in He. apply in_map_iff in He. destruct He as [p [<- _]]. reflexivity. }
      assert (Hends : forall e, In e (nc_edges nc) -> In (n_id (e_i e)) NN /\ In (n_id (e_j e)) NN).
      { intros e He. rewrite Hes in He. apply in_map_iff in He. destruct He as [[a b] [<- He]]. apply filter_In in He. destruct He as [He _]. apply pairs_In in He.
        destruct He as [Ha Hb]. simpl. rewrite <- E2. split; apply in_map; auto. }
      assert (HNids : forall x, In x NN -> In x (ids m)). { intros x Hx. apply Hids. apply HNi in Hx. eapply ug_in2; eauto. }
      destruct (fold_add_edges n_id (nc_edges nc) m Um Hund) as [Um2 [Am2 Im2]].
      assert (Inm : g_nodes (fold_left (add_edge n_id) (nc_edges nc) m) = g_nodes m). { apply Im2. intros e He. destruct (Hends e He) as [Ha Hb]. split; apply HNids; assumption. }
      set (mm2 := next mm nc) in *. set (m2 := fold_left (add_edge n_id) (nc_edges nc) m) in *.
      assert (Lk : forall x y, adj mm x y \/ (exists e, In e (nc_edges nc) /\ link e x y) <-> adj mm x y \/ (In x NN /\ In y NN /\ x <> y)).
      { intros x y. rewrite Hes. rewrite link_pairs; auto; rewrite E2; auto. reflexivity. }
      assert (Lk1 : forall x y, (exists e, In e (nc_edges nc) /\ link e x y) -> In x NN /\ In y NN /\ x <> y).
      { intros x y [e [He [Hn Hl]]]. destruct (Hends e He). destruct Hl as [[-> ->]|[-> ->]]; auto. }
      assert (Ham : forall x y, adj m2 x y <-> adj m x y \/ fill (NN ++ [v]) x y).
      { intros x y. rewrite Am2. split.
        - intros [H|H]; auto. right. apply Lk1 in H. unfold fill. rewrite !in_app_iff. tauto.
        - intros [H|[H1 [H2 H3]]]; auto. apply in_app_or in H1. apply in_app_or in H2. destruct H1 as [H1|[<-|[]]], H2 as [H2|[<-|[]]]; try congruence.
          + destruct (proj2 (Lk x y)) as [H'|H']; auto.
          + left. apply Hsub. apply (ug_sym _ _ U). apply HNi; auto.
          + left. apply Hsub. apply HNi; auto. }
      assert (Hsub2 : forall x y, adj mm2 x y -> adj m2 x y).
      { intros x y. rewrite Ha2, Ham, <- !HNi. intros [[H _]|H]; auto. right. unfold fill. rewrite !in_app_iff. tauto. }
      assert (Eid : ids mm2 = ids (remove_node mm v)) by (unfold ids; rewrite In1; auto).
      assert (Hperm : Permutation (ids mm) (v :: ids mm2)).
      { rewrite Eid. apply NoDup_Permutation. apply (ug_keys _ _ U). constructor. rewrite remove_ids. tauto. apply (ug_keys _ _ (ug_remove n_id mm v U)).
        intros x. simpl. rewrite remove_ids. destruct (Z.eq_dec x v) as [->|Hn]. tauto. intuition congruence. }
      destruct (IH m2 mm2 (if existsb (fun A => subset (NN ++ [v]) A) acc then acc else acc ++ [NN ++ [v]])) as [m' [steps [F1 [F2 [F4 F5]]]]]; auto.
      { rewrite Eid. unfold ids at 2. rewrite Inm. intros x Hx. apply Hids. apply remove_ids in Hx. tauto. }
      { rewrite In1. intros k n Hk. apply Hw. unfold remove_node, dpop in Hk. cbn [g_nodes] in Hk. apply filter_In in Hk. apply Hk. }
      { pose proof (Permutation_length Hperm) as El. simpl in El. lia. }
      rewrite F1. exists m', ((v, NN) :: steps). split; [reflexivity|]. split.
      * apply one_more with (V' := ids mm2); auto.
        -- intros u Hu. rewrite Eid in Hu. apply remove_ids in Hu. apply Hch; tauto.
        -- eapply eliminates_ext; [exact F2|]. intros x y. rewrite Ha2. unfold without. split.
           ++ intros [[H1 [H2 H3]]|[H1 [H2 H3]]]; [tauto|]. split; [intros ->; apply (ug_irr _ _ U v H1)|]. split; [intros ->; apply (ug_irr _ _ U v H2)|]. auto.
           ++ intros (H1 & H2 & [H3|H3]); tauto.
      * split; [congruence|]. intros x y. rewrite F5, Ham. cbn [sets map In fst snd]. fold (sets steps). split.
        -- intros [[H|H]|[K [H1 H2]]]; auto. right. exists (NN ++ [v]). split; auto. right. exists K. split; auto.
        -- intros [H|[K [[<-|H1] H2]]]; auto. right. exists K. auto.
Qed.

(** ** graphs on a list of vertices *)
Record on (V : list Z) (E : Z -> Z -> Prop) : Prop := {
  on_in : forall x y, E x y -> In x V /\ In y V /\ x <> y;
  on_sym : forall x y, E x y -> E y x;
  on_nd : NoDup V }.
Lemma on_without V V' v E : Permutation V (v :: V') -> on V E -> on V' (without v E).
Proof.
  intros P H. assert (HV : NoDup (v :: V')) by (eapply Permutation_NoDup; [exact P|apply H]). inversion HV as [|? ? N1 N2]; subst.
  assert (Hin : forall x, In x V -> x <> v -> In x V'). { intros x Hx Hn. destruct (Permutation_in _ P Hx) as [<-|]; [congruence|auto]. }
  constructor; [| |exact N2].
  - intros x y (A & B & [C|(C & D & F)]).
    + destruct (on_in _ _ H _ _ C) as (I & J & K). auto.
    + destruct (on_in _ _ H _ _ D) as (_ & I & _). destruct (on_in _ _ H _ _ F) as (_ & J & _). auto.
  - intros x y (A & B & [C|(C & D & F)]); (split; [exact B|]); (split; [exact A|]); [left; apply (on_sym _ _ H); exact C|right; auto].
Qed.
Definition final (E : Z -> Z -> Prop) (steps : list (Z * list Z)) (x y : Z) : Prop := E x y \/ exists K, In K (sets steps) /\ fill K x y.

Section Steps.
  Context (size : Z -> Z).
  Lemma sets_in V E steps : eliminates size V E steps -> on V E -> forall K, In K (sets steps) -> incl K V.
  Proof.
    induction 1 as [E|V V' v nbrs E steps HP HC HN HNs He IH]; intros H K HK; [destruct HK|]. destruct HK as [<-|HK]; cbn [fst snd].
    - intros x Hx. apply in_app_iff in Hx. destruct Hx as [Hx|[<-|[]]]; [apply HNs in Hx; apply (on_in _ _ H _ _ Hx)|apply (Permutation_in _ (Permutation_sym HP)); left; reflexivity].
    - intros x Hx. apply (Permutation_in _ (Permutation_sym HP)). right. apply (IH (on_without _ _ _ _ HP H) K HK x Hx).
  Qed.
  Lemma final_v V V' v nbrs E steps : Permutation V (v :: V') -> on V E -> (forall x, In x nbrs <-> E v x) -> eliminates size V' (without v E) steps ->
    forall x, final E ((v, nbrs) :: steps) v x -> In x nbrs.
  Proof.
    intros HP H HNs He x [Q|(K & HK & F1 & F2 & F3)]; [apply HNs; exact Q|]. destruct HK as [<-|HK].
    - cbn [fst snd] in F2. apply in_app_iff in F2. destruct F2 as [F2|[F2|[]]]; [exact F2|congruence].
    - exfalso. pose proof (on_without _ _ _ _ HP H) as H'. pose proof (sets_in _ _ _ He H' K HK v F1) as I. 
      assert (HV : NoDup (v :: V')) by (eapply Permutation_NoDup; [exact HP|apply H]). inversion HV; tauto.
  Qed.
  Lemma final_rest V V' v nbrs E steps : Permutation V (v :: V') -> on V E -> (forall x, In x nbrs <-> E v x) ->
    forall x y, x <> v -> y <> v -> (final E ((v, nbrs) :: steps) x y <-> final (without v E) steps x y).
  Proof.
    intros HP H HNs x y Hx Hy. unfold final. cbn [sets map In fst snd]. fold (sets steps). unfold without. split.
    - intros [Q|(K & [<-|HK] & F)]; [tauto| |right; exists K; auto]. destruct F as (F1 & F2 & F3). apply in_app_iff in F1, F2.
      destruct F1 as [F1|[F1|[]]]; [|congruence]. destruct F2 as [F2|[F2|[]]]; [|congruence]. left. rewrite <- !HNs. tauto.
    - intros [(_ & _ & [Q|(A & B & C)])|(K & HK & F)]; [auto| |right; exists K; auto]. right. exists (nbrs ++ [v]). split; [auto|]. unfold fill. rewrite !in_app_iff, !HNs. auto.
  Qed.
  Lemma final_nbrs v nbrs E steps x y : In x nbrs -> In y nbrs -> x <> y -> final E ((v, nbrs) :: steps) x y.
  Proof. intros A B C. right. exists (nbrs ++ [v]). split; [left; reflexivity|]. unfold fill. rewrite !in_app_iff. auto. Qed.
  Lemma final_sym V E steps : on V E -> forall x y, final E steps x y -> final E steps y x.
  Proof. intros H x y [Q|(K & A & B & C & D)]; [left; apply (on_sym _ _ H); exact Q|right; exists K; split; [exact A|]; split; auto]. Qed.

  Lemma final_chordal V E steps : eliminates size V E steps -> on V E -> chordal V (final E steps).
  Proof.
    induction 1 as [E|V V' v nbrs E steps HP HC HN HNs He IH]; intros H c (C1 & C2 & C3 & C4) Hl.
    - destruct c as [|x c]; [simpl in Hl; lia|]. destruct (C2 x); left; reflexivity.
    - specialize (IH (on_without _ _ _ _ HP H)). destruct (in_dec Z.eq_dec v c) as [Hv|Hv].
      + pose proof (final_v _ _ _ _ _ _ HP H HNs He) as Fv. pose proof (final_sym _ _ ((v, nbrs) :: steps) H) as Fs.
        assert (Ch : forall i j, i <> j -> i < List.length c -> j < List.length c -> In (nth i c 0%Z) nbrs -> In (nth j c 0%Z) nbrs -> final E ((v, nbrs) :: steps) (nth i c 0%Z) (nth j c 0%Z)).
        { intros i j Hij Hi Hj Ai Aj. apply final_nbrs; auto. intros Q. apply (proj1 (NoDup_nth c 0%Z) C1) in Q; auto. }
        assert (Eh : hd 0%Z c = nth 0 c 0%Z) by (destruct c; reflexivity).
        assert (Et : last c 0%Z = nth (List.length c - 1) c 0%Z).
        { assert (Hne : c <> []) by (destruct c; [simpl in Hl; lia|discriminate]). destruct (exists_last Hne) as (l' & w & ->). rewrite last_last, app_length, app_nth2 by (simpl; lia). simpl. replace (List.length l' + 1 - 1 - List.length l') with 0 by lia. reflexivity. }
        rewrite Eh, Et in C4.
        destruct (In_nth c v 0%Z Hv) as (i & Hi & Ei). destruct (Nat.eq_dec i 0) as [->|Hi0]; [|destruct (Nat.eq_dec i (List.length c - 1)) as [->|Hi1]].
        * exists 1, (List.length c - 1). split; [lia|]. split; [lia|]. split; [lia|]. apply Ch; try lia; apply Fv.
          -- specialize (C3 0). rewrite Ei in C3. apply C3. lia.
          -- apply Fs. rewrite Ei in C4. exact C4.
        * exists 0, (List.length c - 2). split; [lia|]. split; [lia|]. split; [lia|]. apply Ch; try lia; apply Fv.
          -- rewrite Ei in C4. exact C4.
          -- apply Fs. specialize (C3 (List.length c - 2)). replace (List.length c - 2 + 1) with (List.length c - 1) in C3 by lia. rewrite Ei in C3. apply C3. lia.
        * exists (i - 1), (i + 1). split; [lia|]. split; [lia|]. split; [lia|]. apply Ch; try lia; apply Fv.
          -- apply Fs. specialize (C3 (i - 1)). replace (i - 1 + 1) with i in C3 by lia. rewrite Ei in C3. apply C3. lia.
          -- specialize (C3 i). rewrite Ei in C3. apply C3. lia.
      + pose proof (final_rest _ _ _ _ _ steps HP H HNs) as Fr.
        assert (Nv : forall x, In x c -> x <> v) by (intros x Hx ->; auto).
        assert (Nn : forall k, k < List.length c -> nth k c 0%Z <> v) by (intros k Hk; apply Nv, nth_In, Hk).
        destruct (IH c) as (i & j & I1 & I2 & I3 & I4).
        * split; [exact C1|]. split; [intros x Hx; destruct (Permutation_in _ HP (C2 x Hx)) as [Q|Q]; [subst; tauto|exact Q]|]. split.
          -- intros k Hk. apply Fr; [apply Nn; lia|apply Nn; lia|]. apply C3, Hk.
          -- apply Fr; [| |exact C4].
             ++ apply Nv. destruct (exists_last (l := c)) as (l' & w & ->); [destruct c; [simpl in Hl; lia|discriminate]|]. rewrite last_last. apply in_app_iff. right. left. reflexivity.
             ++ apply Nv. destruct c; [simpl in Hl; lia|left; reflexivity].
        * exact Hl.
        * exists i, j. split; [exact I1|]. split; [exact I2|]. split; [exact I3|]. apply Fr; [apply Nn; lia|apply Nn; lia|exact I4].
  Qed.
  Lemma final_cover V E steps : eliminates size V E steps -> on V E -> forall C, C <> [] -> incl C V -> all_joined (final E steps) C -> exists K, In K (sets steps) /\ incl C K.
  Proof.
    induction 1 as [E|V V' v nbrs E steps HP HC HN HNs He IH]; intros H C Hne HI HJ.
    - destruct C as [|x C]; [congruence|]. destruct (HI x). left; reflexivity.
    - destruct (in_dec Z.eq_dec v C) as [Hv|Hv].
      + exists (nbrs ++ [v]). split; [left; reflexivity|]. intros x Hx. apply in_app_iff. destruct (Z.eq_dec x v) as [->|Hn]; [right; left; reflexivity|left].
        apply (final_v _ _ _ _ _ _ HP H HNs He). apply HJ; auto.
      + destruct (IH (on_without _ _ _ _ HP H) C Hne) as (K & HK & I).
        * intros x Hx. destruct (Permutation_in _ HP (HI x Hx)) as [Q|Q]; [subst; tauto|exact Q].
        * intros x y Hx Hy Hn. apply (final_rest _ _ _ _ _ steps HP H HNs); [intros ->; auto|intros ->; auto|]. apply HJ; auto.
        * exists K. split; [right; exact HK|exact I].
  Qed.

  Lemma no_fill V E steps : eliminates size V E steps -> on V E -> (exists e : Z -> Z -> bool, forall x y, E x y <-> e x y = true) -> chordal V E ->
    forall K, In K (sets steps) -> all_joined E K.
  Proof.
    induction 1 as [E|V V' v nbrs E steps HP HC HN HNs He IH]; intros H (e & Hedec) Hch K HK; [destruct HK|].
    assert (Hv : In v V) by (apply (Permutation_in _ (Permutation_sym HP)); left; reflexivity).
    assert (Hsym : forall x y, e x y = e y x). { intros x y. pose proof (Hedec x y). pose proof (Hedec y x). pose proof (on_sym _ _ H x y). pose proof (on_sym _ _ H y x). destruct (e x y), (e y x); intuition congruence. }
    assert (Hirr : forall x, e x x = false). { intros x. destruct (e x x) eqn:Q; [|reflexivity]. apply Hedec in Q. destruct (on_in _ _ H _ _ Q) as (_ & _ & Q'). congruence. }
    assert (Hch' : chordal V (fun x y => e x y = true)).
    { intros c (C1 & C2 & C3 & C4) Hl. destruct (Hch c) as (i & j & I); [|exact Hl|].
      - split; [exact C1|]. split; [exact C2|]. split; [intros k Hk; apply Hedec, C3, Hk|apply Hedec; exact C4].
      - exists i, j. rewrite <- Hedec. exact I. }
    destruct (has_simplicial e Hsym Hirr V) as (z & Hz & Hs); [destruct V; [destruct Hv|discriminate]|apply H|exact Hch'|].
    assert (Hz0 : forall n, unjoined E z n -> n = 0).
    { intros n (l & L1 & L2 & <-). destruct l as [|[x y] l]; [reflexivity|]. exfalso. destruct (proj1 (L2 x y) (or_introl eq_refl)) as (A & B & C & D). apply D, Hedec. apply Hs; try (apply Hedec; assumption); try lia.
      - apply (on_in _ _ H _ _ B). - apply (on_in _ _ H _ _ C). }
    assert (Hjoin : forall a b, E v a -> E v b -> a <> b -> E a b).
    { destruct (Z.eq_dec z v) as [->|Hzv].
      - intros a b Ha Hb Hn. apply Hedec. apply Hs; try (apply Hedec; assumption); auto; [apply (on_in _ _ H _ _ Ha)|apply (on_in _ _ H _ _ Hb)].
      - assert (Hzv' : In z V') by (destruct (Permutation_in _ HP Hz) as [Q|Q]; [congruence|exact Q]).
        destruct (HC z Hzv') as (n & w & n' & w' & (l & L1 & L2 & L3) & _ & B & _ & D). apply Hz0 in B. subst n'. assert (L0 : n = 0) by lia. rewrite L0 in L3. apply length_zero_iff_nil in L3. subst l.
        assert (Hlt : forall a b, (a < b)%Z -> E v a -> E v b -> E a b). { intros a b Hab Ha Hb. apply Hedec. destruct (e a b) eqn:Q; [reflexivity|]. exfalso. apply (proj2 (L2 a b)). split; [exact Hab|]. split; [exact Ha|]. split; [exact Hb|]. rewrite Hedec. congruence. }
        intros a b Ha Hb Hn. destruct (Z.lt_trichotomy a b) as [Q|[Q|Q]]; [apply Hlt; auto|congruence|apply (on_sym _ _ H), Hlt; auto]. }
    destruct HK as [<-|HK]; cbn [fst snd].
    - intros a b Ha Hb Hn. apply in_app_iff in Ha, Hb. destruct Ha as [Ha|[<-|[]]], Hb as [Hb|[<-|[]]]; try congruence; [apply Hjoin; auto; apply HNs; auto|apply (on_sym _ _ H), HNs, Ha|apply HNs, Hb].
    - assert (Ew : forall x y, without v E x y <-> x <> v /\ y <> v /\ E x y). { intros x y. unfold without. split; [intros (A & B & [C|(C & D & F)]); auto|tauto]. }
      assert (Q : all_joined (without v E) K).
      { apply IH; [apply (on_without _ _ _ _ HP H)| | |exact HK].
        - exists (fun x y => negb (Z.eqb x v) && negb (Z.eqb y v) && e x y). intros x y. rewrite Ew, Hedec, !andb_true_iff, !negb_true_iff, !Z.eqb_neq. tauto.
        - intros c (C1 & C2 & C3 & C4) Hl.
          assert (NV : forall x, In x c -> x <> v). { intros x Hx ->. assert (HV : NoDup (v :: V')) by (eapply Permutation_NoDup; [exact HP|apply H]). inversion HV. apply C2 in Hx. tauto. }
          destruct (Hch c) as (i & j & I1 & I2 & I3 & I4); [|exact Hl|].
          + split; [exact C1|]. split; [intros x Hx; apply (Permutation_in _ (Permutation_sym HP)); right; apply C2, Hx|]. split; [intros k Hk; apply (C3 k) in Hk; apply Ew in Hk; tauto|]. apply Ew in C4. tauto.
          + exists i, j. split; [exact I1|]. split; [exact I2|]. split; [exact I3|]. apply Ew. split; [apply NV, nth_In; lia|]. split; [apply NV, nth_In; lia|exact I4]. }
      intros a b Ha Hb Hn. specialize (Q a b Ha Hb Hn). apply Ew in Q. tauto.
  Qed.
End Steps.
