(** Initializer.initialize: what the potentials are before propagation. *)
From Verif Require Import Py M_Graph M_Node M_Pptc Spec L_Base L_PD L_Sums L_Table L_Tree L_Walk L_Forest L_Root L_Good L_Prop.

Open Scope Qc_scope.

(** ** heap updates *)
Lemma hupd_dget h i f k : dget (hupd h i f) k = if Z.eqb i k then option_map f (dget h k) else dget h k.
Proof.
  unfold hupd. induction h as [|[k' n] h IH]; simpl. destruct (Z.eqb i k); auto.
  destruct (Z.eqb_spec i k'); simpl; destruct (Z.eqb_spec k k'); subst; rewrite ?Z.eqb_refl; auto.
  destruct (Z.eqb_spec i k'); auto; congruence.
Qed.
Lemma hupd_keys h i f : dkeys (hupd h i f) = dkeys h.
Proof. unfold dkeys, hupd. rewrite map_map. apply map_ext. intros [k n]; simpl. destruct (Z.eqb i k); auto. Qed.

(** the network data a join tree carries *)
Record hgood (j : jtree) (dm : Z -> list string) (pr : Z -> list Z) (g : Z -> asg -> Qc) : Prop := {
  hg_node : forall i, In i (jt_bbn_ids j) -> exists n, dget (jt_heap j) i = Some n /\ n_id n = i /\ n_values n = dm i /\
     n_pot n = Some (tab dm (pr i ++ [i]) (g i)) /\
     (forall p, In p (jt_parent_ids j i) <-> In p (pr i)) /\
     (forall k, n_mclq n = Some k -> exists c, In c (jt_cliques j) /\ k = cl_id c /\ incl (pr i ++ [i]) (cl_nodes c));
  hg_dm : forall i, In i (jt_bbn_ids j) -> NoDup (dm i) /\ dm i <> [];
  hg_nd : forall i, In i (jt_bbn_ids j) -> NoDup (pr i ++ [i]);
  hg_dep : forall i, In i (jt_bbn_ids j) -> dep (pr i ++ [i]) (g i);
  hg_nn : forall i a, In i (jt_bbn_ids j) -> okon dm (pr i ++ [i]) a -> 0 <= g i a;
  hg_fam : forall i, In i (jt_bbn_ids j) -> exists c, In c (jt_cliques j) /\ incl (pr i ++ [i]) (cl_nodes c) }.

Definition evmap (i : Z) (vs : list string) (L : Z -> string -> Qc) : list (string * potential) :=
  map (fun v => (v, [mkPE [(i, v)] (L i v)])) vs.
(** the stored evidence is [L] *)
Definition egood (j : jtree) (dm : Z -> list string) (L : likelihood) : Prop :=
  forall i, In i (jt_bbn_ids j) ->
    (dget (jt_evid j) i = None /\ forall v, In v (dm i) -> L i v = 1) \/ dget (jt_evid j) i = Some (evmap i (dm i) L).
Definition efull (j : jtree) (dm : Z -> list string) (L : likelihood) : Prop :=
  forall i, In i (jt_bbn_ids j) -> dget (jt_evid j) i = Some (evmap i (dm i) L).

(** the clique a node is assigned to *)
Definition assigned (j : jtree) (i : Z) : string :=
  match dget (jt_heap j) i with
  | Some n => match n_mclq n with
              | Some c => c
              | None => match isort cl_leb (find_cliques j i) with c :: _ => cl_id c | [] => EmptyString end
              end
  | None => EmptyString
  end.
Definition filled (h : heap) (asn : Z -> string) (ids : list Z) (h' : heap) : Prop :=
  dkeys h' = dkeys h /\
  forall i, dget h' i = if mem i ids then option_map (fun n => set_mclq n (asn i)) (dget h i) else dget h i.

Record same (j j' : jtree) : Prop := {
  sm_n : jt_nodes j' = jt_nodes j; sm_e : jt_edges j' = jt_edges j; sm_nb : jt_nbrs j' = jt_nbrs j;
  sm_l : jt_listener j' = jt_listener j; sm_p : jt_pinfo j' = jt_pinfo j }.
Lemma same_refl j : same j j. Proof. constructor; auto. Qed.
Lemma same_trans j j1 j2 : same j j1 -> same j1 j2 -> same j j2.
Proof. intros [A1 A2 A3 A4 A5] [B1 B2 B3 B4 B5]. constructor; congruence. Qed.
Lemma same_cl j j' : same j j' -> jt_cliques j' = jt_cliques j.
Proof. intros H. unfold jt_cliques. rewrite (sm_n _ _ H). auto. Qed.
Lemma same_ss j j' : same j j' -> jt_sepsets j' = jt_sepsets j.
Proof. intros H. unfold jt_sepsets. rewrite (sm_n _ _ H). auto. Qed.
Lemma same_ids j j' : same j j' -> jt_bbn_ids j' = jt_bbn_ids j.
Proof. intros H. unfold jt_bbn_ids. rewrite (same_cl _ _ H). auto. Qed.
Lemma same_nbr j j' i : same j j' -> jt_neighbors j' i = jt_neighbors j i.
Proof. intros H. unfold jt_neighbors. rewrite (sm_nb _ _ H). auto. Qed.
Lemma same_JG j j' : same j j' -> JG j -> JG j'.
Proof.
  intros H [A1 A2 A3 A4 A5 A6 A7 A8].
  constructor; rewrite ?(same_cl _ _ H), ?(same_ss _ _ H), ?(sm_n _ _ H); auto.
  - intros s Hs. rewrite (same_nbr _ _ _ H). auto.
  - intros c Hc. rewrite (same_nbr _ _ _ H). auto.
Qed.
Lemma same_jcount j j' : same j j' -> jcount j -> jcount j'.
Proof. intros H. unfold jcount. rewrite (same_cl _ _ H), (same_ss _ _ H), (same_ids _ _ H). auto. Qed.

Section Init.
  Context (dm : Z -> list string) (pr : Z -> list Z) (g : Z -> asg -> Qc) (L : likelihood) (j0 : jtree).
  Context (HJ : JG j0) (HG : hgood j0 dm pr g) (HE : egood j0 dm L).
  Notation ids := (jt_bbn_ids j0).
  Notation cliques := (jt_cliques j0).
  Notation asn := (assigned j0).

  Lemma cl_ids c v : In c cliques -> In v (cl_nodes c) -> In v ids.
  Proof using. intros Hc Hv. apply bbn_ids_In. eauto. Qed.
  Lemma hv i : In i ids -> h_values (jt_heap j0) i = dm i.
  Proof using HG. intros Hi. destruct (hg_node _ _ _ _ HG i Hi) as [n [E [E1 [E2 _]]]]. unfold h_values. rewrite E. auto. Qed.

  Lemma asn_ok i : In i ids -> exists c, In c cliques /\ asn i = cl_id c /\ incl (pr i ++ [i]) (cl_nodes c).
  Proof using HG.
    intros Hi. destruct (hg_node _ _ _ _ HG i Hi) as [n [E [E1 [E2 [E3 [E4 E5]]]]]]. unfold assigned. rewrite E.
    destruct (n_mclq n) as [k|] eqn:Ek.
    - destruct (E5 k eq_refl) as [c [Hc [-> Hinc]]]. eauto.
    - assert (Hf : forall c, In c (find_cliques j0 i) <-> In c cliques /\ incl (pr i ++ [i]) (cl_nodes c)).
      { intros c. unfold find_cliques. rewrite filter_In, subset_spec. split; intros [H1 H2]; split; auto.
        - intros p Hp. apply H2. apply in_app_or in Hp. apply in_or_app. destruct Hp; auto. left. apply E4; auto.
        - intros p Hp. apply H2. apply in_app_or in Hp. apply in_or_app. destruct Hp; auto. left. apply E4; auto. }
      destruct (isort cl_leb (find_cliques j0 i)) as [|c l] eqn:Es.
      + exfalso. destruct (hg_fam _ _ _ _ HG i Hi) as [c [Hc Hinc]].
        assert (H : In c (find_cliques j0 i)) by (apply Hf; auto).
        apply (Permutation_in _ (Permutation_sym (isort_perm cl_leb _))) in H. rewrite Es in H. destruct H.
      + exists c. assert (H : In c (find_cliques j0 i)). { apply (Permutation_in _ (isort_perm cl_leb _)). rewrite Es; left; auto. }
        apply Hf in H. destruct H; auto.
  Qed.

  (** potentials: [F] on the cliques, 1 on the separation sets *)
  Definition pstat (F : clique -> asg -> Qc) (ps : pots) : Prop :=
    (forall c, In c cliques -> dget ps (cl_id c) = Some (tab dm (cl_nodes c) (F c))) /\
    (forall s, In s (jt_sepsets j0) -> dget ps (ss_id s) = Some (tab dm (ss_nodes s) (fun _ => 1))).

  Lemma pot_ones l : (forall v, In v l -> In v ids) -> NoDup l ->
    potential_from_nodes (h_nv (jt_heap j0) l) = tab dm l (fun _ => 1).
  Proof using HG.
    intros Hl HN. unfold h_nv. rewrite <- potential_from_nodes_tab by auto. f_equal. apply map_ext_in. intros i Hi. rewrite hv; auto.
  Qed.

  Lemma fold_pots {X} (key : X -> string) (sc : X -> list Z) l : forall j1, jt_heap j1 = jt_heap j0 -> same j0 j1 -> jt_evid j1 = jt_evid j0 ->
    (forall x, In x l -> potential_from_nodes (h_nv (jt_heap j0) (sc x)) = tab dm (sc x) (fun _ => 1)) -> NoDup (map key l) ->
    let j2 := fold_left (fun j x => add_potential j (key x) (potential_from_nodes (h_nv (jt_heap j) (sc x)))) l j1 in
    jt_heap j2 = jt_heap j0 /\ same j0 j2 /\ jt_evid j2 = jt_evid j0 /\
    (forall x, In x l -> dget (jt_pots j2) (key x) = Some (tab dm (sc x) (fun _ => 1))) /\
    (forall k, ~ In k (map key l) -> dget (jt_pots j2) k = dget (jt_pots j1) k).
  Proof using.
    induction l as [|x l IH]; intros j1 Hh Hs He Hp HN; simpl.
    - split; [|split; [|split; [|split]]]; auto. intros ? [].
    - inversion HN as [|? ? N1 N2]; subst.
      destruct (IH (add_potential j1 (key x) (potential_from_nodes (h_nv (jt_heap j1) (sc x))))) as [A1 [A2 [A3 [A4 A5]]]]; auto.
      { destruct Hs. constructor; auto. }
      { intros; apply Hp; right; auto. }
      split; [|split; [|split; [|split]]]; auto.
      + intros y [<-|Hy]; auto. rewrite A5 by auto. simpl. rewrite dget_dset_eq, Hh. f_equal. apply Hp; left; auto.
      + intros k Hk. rewrite A5 by tauto. simpl. apply dget_dset_neq. intros E; apply Hk; auto.
  Qed.

  Lemma init_pots_ok : let j1 := init_pots j0 in
    jt_heap j1 = jt_heap j0 /\ same j0 j1 /\ jt_evid j1 = jt_evid j0 /\ pstat (fun _ _ => 1) (jt_pots j1).
  Proof using HJ HG.
    unfold init_pots. pose proof (jg_ids_NoDup j0 HJ) as HN. apply NoDup_app_iff in HN. destruct HN as [N1 [N2 N3]].
    destruct (fold_pots cl_id cl_nodes cliques j0) as [A1 [A2 [A3 [A4 A5]]]]; auto using same_refl.
    { intros c Hc. apply pot_ones; [intros; eapply cl_ids; eauto|apply (jg_cl _ HJ); auto]. }
    cbv zeta in *. set (j1 := fold_left _ cliques j0) in *.
    destruct (fold_pots ss_id ss_nodes (jt_sepsets j1) j1) as [B1 [B2 [B3 [B4 B5]]]]; auto.
    { rewrite (same_ss _ _ A2). intros s Hs. destruct (jg_ss _ HJ s Hs) as [C1 [C2 C3]]. destruct (jg_ends _ HJ s Hs) as [C4 _].
      apply pot_ones; auto. intros v Hv. apply (cl_ids (ss_left s)); auto. }
    { rewrite (same_ss _ _ A2). auto. }
    cbv zeta in *. split; auto. split; auto. split; auto. split.
    - intros c Hc. rewrite B5; auto. rewrite (same_ss _ _ A2). apply N3. apply in_map; auto.
    - intros s Hs. apply B4. rewrite (same_ss _ _ A2). auto.
  Qed.

  (** ** CPTs *)
  Definition prodI (f : Z -> asg -> Qc) (l : list Z) (c : clique) (a : asg) : Qc :=
    qprod (map (fun i => f i a) (filter (fun i => eqb (asn i) (cl_id c)) l)).

  Lemma prodI_snoc f l i c a : prodI f (l ++ [i]) c a = prodI f l c a * (if eqb (asn i) (cl_id c) then f i a else 1).
  Proof using.
    unfold prodI. rewrite filter_app, map_app, qprod_app. f_equal. simpl. destruct (String.eqb (asn i) (cl_id c)); simpl; auto.
    rewrite qprod_cons, qprod_nil. ring.
  Qed.

  Lemma filled_snoc h l i h1 : filled h asn l h1 -> ~ In i l ->
    filled h asn (l ++ [i]) (hupd h1 i (fun n => set_mclq n (asn i))).
  Proof using.
    intros [A1 A2] Hn. split. rewrite hupd_keys; auto.
    intros k. rewrite hupd_dget, A2. destruct (mem_spec k (l ++ [i])) as [Hk|Hk]; rewrite in_app_iff in Hk; simpl in Hk.
    - destruct (Z.eqb_spec i k); subst.
      + destruct (mem_spec k l); [tauto|]. auto.
      + destruct (mem_spec k l); auto. exfalso. destruct Hk as [Hk|[Hk|[]]]; auto.
    - destruct (Z.eqb_spec i k); subst; [exfalso; auto|]. destruct (mem_spec k l); auto. exfalso; auto.
  Qed.
  Lemma filled_same h l i h1 : filled h asn l h1 -> ~ In i l -> option_map n_mclq (dget h i) = Some (Some (asn i)) -> filled h asn (l ++ [i]) h1.
  Proof using.
    intros [A1 A2] Hn Hm. split; auto. intros k. rewrite A2. destruct (mem_spec k (l ++ [i])) as [Hk|Hk]; rewrite in_app_iff in Hk; simpl in Hk.
    - destruct (mem_spec k l); auto. assert (k = i) by (destruct Hk as [?|[?|[]]]; auto; tauto). subst.
      destruct (dget h i) as [m|]; simpl in *; [|discriminate]. f_equal. inversion Hm as [Hm']. destruct m; simpl in *. rewrite Hm'. reflexivity.
    - destruct (mem_spec k l); auto. exfalso; auto.
  Qed.

  Definition st1 (l : list Z) (j1 : jtree) : Prop :=
    same j0 j1 /\ jt_evid j1 = jt_evid j0 /\ filled (jt_heap j0) asn l (jt_heap j1) /\ pstat (prodI g l) (jt_pots j1).

  Lemma find_cliques_same j1 l i : same j0 j1 -> filled (jt_heap j0) asn l (jt_heap j1) -> find_cliques j1 i = find_cliques j0 i.
  Proof using.
    intros Hs [_ Hf]. unfold find_cliques. rewrite (same_cl _ _ Hs). f_equal. 
    assert (E : jt_parent_ids j1 i = jt_parent_ids j0 i); [|rewrite E; auto].
    unfold jt_parent_ids. rewrite Hf. destruct (mem i l); auto. destruct (dget (jt_heap j0) i) as [n|]; auto.
  Qed.

  Lemma pstat_mult F ps c B f : pstat F ps -> In c cliques -> NoDup B -> incl B (cl_nodes c) -> dep B f ->
    pstat (fun d a => F d a * (if eqb (cl_id c) (cl_id d) then f a else 1)) (dset ps (cl_id c) (multiply (tab dm (cl_nodes c) (F c)) (tab dm B f))).
  Proof using HJ HG.
    intros [H1 H2] Hc NB IB Hf. split.
    - intros d Hd. destruct (eqb_spec (cl_id c) (cl_id d)) as [E|E].
      + assert (d = c). { apply (jg_c_inj j0 HJ); auto. } subst d. rewrite dget_dset_eq. f_equal. rewrite multiply_tab; auto.
        * apply (jg_cl _ HJ); auto.
        * intros v Hv. apply (hg_dm _ _ _ _ HG). apply (cl_ids c); auto.
      + rewrite dget_dset_neq by auto. rewrite H1 by auto. f_equal. apply tab_ext. intros a _. ring.
    - intros s Hs. rewrite dget_dset_neq; auto. intros E. symmetry in E. revert E. apply (jg_cs j0 HJ); auto.
  Qed.

  Lemma init_node_ok l i j1 : In i ids -> ~ In i l -> st1 l j1 -> exists j2, init_node j1 i = Ok j2 /\ st1 (l ++ [i]) j2.
  Proof using HJ HG.
    intros Hi Hn [S1 [S2 [S3 S4]]]. destruct (asn_ok i Hi) as [c [Hc [Ha Hinc]]].
    destruct (hg_node _ _ _ _ HG i Hi) as [n [E [E1 [E2 [E3 [E4 E5]]]]]].
    assert (Eh : dget (jt_heap j1) i = Some n). { destruct S3 as [_ S3]. rewrite S3. destruct (mem_spec i l); [tauto|auto]. }
    assert (Hg : exists j2, get_clique j1 i = Ok (cl_id c, j2) /\ same j0 j2 /\ jt_evid j2 = jt_evid j0 /\
        filled (jt_heap j0) asn (l ++ [i]) (jt_heap j2) /\ jt_pots j2 = jt_pots j1).
    { unfold get_clique, dgetE. rewrite Eh. cbn [rbind]. destruct (n_mclq n) as [k|] eqn:Ek.
      - exists j1. assert (Q : asn i = k) by (unfold assigned; rewrite E, Ek; auto). split; [congruence|]. split; auto. split; auto. split; auto.
        apply filled_same; auto. rewrite E. simpl. congruence.
      - rewrite (find_cliques_same j1 l i S1 S3). assert (Q : asn i = match isort cl_leb (find_cliques j0 i) with c :: _ => cl_id c | [] => EmptyString end) by (unfold assigned; rewrite E, Ek; auto).
        destruct (isort cl_leb (find_cliques j0 i)) as [|d ds] eqn:Es.
        + exfalso. destruct (hg_fam _ _ _ _ HG i Hi) as [d [Hd Hdi]]. assert (H : In d (find_cliques j0 i)).
          { unfold find_cliques. apply filter_In. split; auto. apply subset_spec. intros p Hp. apply Hdi. apply in_app_or in Hp. apply in_or_app. destruct Hp; auto. left; apply E4; auto. }
          apply (Permutation_in _ (Permutation_sym (isort_perm cl_leb _))) in H. rewrite Es in H. destruct H.
        + eexists. split; [rewrite <- Ha, Q; reflexivity|]. rewrite <- Q. destruct S1. split; [constructor; auto|]. split; auto. split; auto. simpl.
          apply filled_snoc; auto. }
    destruct Hg as [j2 [G1 [G2 [G3 [G4 G5]]]]]. unfold init_node. rewrite G1. cbn [rbind]. unfold dgetE. rewrite G5.
    destruct S4 as [S4 S5]. rewrite (S4 c Hc). cbn [rbind].
    assert (Eh2 : dget (jt_heap j2) i = Some (set_mclq n (asn i))).
    { destruct G4 as [_ G4]. rewrite G4. destruct (mem_spec i (l ++ [i])) as [Hm|Hm]; [|exfalso; apply Hm, in_or_app; simpl; auto]. rewrite E; auto. }
    rewrite Eh2. cbn [rbind]. simpl n_pot. rewrite E3. eexists. split; [reflexivity|]. split; [|split; [|split]]; simpl; auto.
    - destruct G2; constructor; auto.
    - rewrite G5. assert (P : pstat (fun d a => prodI g l d a * (if eqb (cl_id c) (cl_id d) then g i a else 1))
         (dset (jt_pots j1) (cl_id c) (multiply (tab dm (cl_nodes c) (prodI g l c)) (tab dm (pr i ++ [i]) (g i))))).
      { apply pstat_mult; auto. split; auto. apply (hg_nd _ _ _ _ HG); auto. apply (hg_dep _ _ _ _ HG); auto. }
      destruct P as [P1 P2]. split; auto. intros d Hd. rewrite P1 by auto. f_equal. apply tab_ext. intros a _. rewrite prodI_snoc, Ha. auto.
  Qed.

  Lemma init_nodes_ok l2 : forall l1 j1, NoDup (l1 ++ l2) -> incl l2 ids -> st1 l1 j1 ->
    exists j2, foldM init_node l2 j1 = Ok j2 /\ st1 (l1 ++ l2) j2.
  Proof using HJ HG.
    induction l2 as [|i l2 IH]; intros l1 j1 HN Hi HS.
    - exists j1. rewrite app_nil_r. auto.
    - destruct (init_node_ok l1 i j1) as [j2 [E1 E2]]; auto.
      { apply Hi; left; auto. }
      { apply NoDup_remove_2 in HN. intros H; apply HN, in_or_app; auto. }
      destruct (IH (l1 ++ [i]) j2) as [j3 [E3 E4]].
      { rewrite <- app_assoc. auto. }
      { intros k Hk; apply Hi; right; auto. }
      { auto. }
      exists j3. simpl. rewrite E1. cbn [rbind]. split; auto. rewrite <- app_assoc in E4. auto.
  Qed.

  (** ** evidence *)
  Definition Lf (i : Z) (a : asg) : Qc := L i (a i).
  Definition Lpart (i : Z) (vs : list string) (a : asg) : Qc := qprod (map (fun v => if string_dec (a i) v then L i v else 1) vs).
  Lemma Lpart_full i a : NoDup (dm i) -> In (a i) (dm i) -> Lpart i (dm i) a = L i (a i).
  Proof using.
    unfold Lpart. generalize (dm i) as l. induction l as [|v l IH]; simpl; [tauto|]. intros HN Hi. inversion HN as [|? ? N1 N2]; subst.
    rewrite qprod_cons. destruct (string_dec (a i) v) as [E|E].
    - subst v. rewrite qprod_map_one; [ring|]. intros x Hx. destruct (string_dec (a i) x); subst; tauto.
    - rewrite IH; auto; [ring|]. destruct Hi; congruence.
  Qed.

  Definition est (l : list Z) (i : Z) (vs : list string) (e : list (Z * list (string * potential))) : Prop :=
    (forall k, In k l -> dget e k = Some (evmap k (dm k) L)) /\
    (forall k, In k ids -> ~ In k l -> k <> i -> dget e k = dget (jt_evid j0) k) /\
    (forall k, ~ In k ids -> dget e k = dget (jt_evid j0) k) /\
    (dget e i = Some (evmap i (dm i) L) \/
     (dget e i = (match vs with [] => None | _ => Some (evmap i vs L) end) /\ forall v, In v (dm i) -> L i v = 1)).

  Lemma evmap_get i vs v : In v vs -> dget (evmap i vs L) v = Some [mkPE [(i, v)] (L i v)].
  Proof using.
    unfold evmap. induction vs as [|w vs IH]; simpl; [tauto|]. intros Hi. destruct (String.eqb_spec v w); subst; auto. destruct Hi; [congruence|auto].
  Qed.
  Lemma evmap_none i vs v : ~ In v vs -> dget (evmap i vs L) v = None.
  Proof using.
    unfold evmap. induction vs as [|w vs IH]; simpl; auto. intros Hn. destruct (String.eqb_spec v w); subst; tauto.
  Qed.
  Lemma dset_new {K V} `{EqB K} (d : list (K * V)) k v : dget d k = None -> dset d k v = d ++ [(k, v)].
  Proof using.
    induction d as [|[k' v'] d IH]; simpl; auto. destruct (eqb k k'); [discriminate|]. intros E. rewrite IH; auto.
  Qed.

  Definition st2 (l : list Z) (i : Z) (vs : list string) (j1 : jtree) : Prop :=
    same j0 j1 /\ filled (jt_heap j0) asn ids (jt_heap j1) /\ est l i vs (jt_evid j1) /\
    pstat (fun c a => prodI g ids c a * prodI Lf l c a * (if eqb (asn i) (cl_id c) then Lpart i vs a else 1)) (jt_pots j1).

  Lemma init_evid_step l i vs v j1 n : In i ids -> ~ In i l -> dget (jt_heap j0) i = Some n -> In v (dm i) -> ~ In v vs ->
    st2 l i vs j1 ->
    exists j2, (match n_mclq (set_mclq n (asn i)) with
                | None => Err KeyError
                | Some c => cp <- dgetE (jt_pots j1) c ;; let (j, p) := get_evidence j1 i v in Ok (add_potential j c (multiply cp p))
                end) = Ok j2 /\ st2 l i (vs ++ [v]) j2.
  Proof using HJ HG.
    intros Hi Hl E Hv Hvs [S1 [S2 [S3 [S4 S5]]]]. destruct (asn_ok i Hi) as [c [Hc [Ha Hinc]]]. simpl n_mclq. rewrite Ha.
    unfold dgetE. rewrite (S4 c Hc). cbn [rbind]. destruct S3 as [T1 [T2 [T3 T4]]].
    assert (HE' : exists j2, get_evidence j1 i v = (j2, [mkPE [(i, v)] (L i v)]) /\ same j0 j2 /\ jt_heap j2 = jt_heap j1 /\ jt_pots j2 = jt_pots j1 /\
        est l i (vs ++ [v]) (jt_evid j2)).
    { unfold get_evidence, dgets. destruct T4 as [T4|[T4 T5]].
      - rewrite T4, evmap_get by auto. eexists. split; [reflexivity|]. split; [destruct S1; constructor; auto|]. split; auto. split; auto.
        simpl. rewrite dset_same by auto. split; [|split; [|split]]; auto.
      - rewrite T4.
        assert (G : dget (match match vs with [] => None | _ => Some (evmap i vs L) end with Some s => s | None => [] end) v = None).
        { destruct vs; auto. apply evmap_none; auto. }
        assert (G2 : dset (match match vs with [] => None | _ => Some (evmap i vs L) end with Some s => s | None => [] end) v [mkPE [(i, v)] 1] = evmap i (vs ++ [v]) L).
        { rewrite dset_new by auto. unfold evmap. rewrite map_app. simpl. rewrite (T5 v Hv). f_equal. destruct vs; auto. }
        rewrite G, G2. rewrite (T5 v Hv). eexists. split; [reflexivity|]. split; [destruct S1; constructor; auto|]. split; auto. split; auto. simpl.
        split; [|split; [|split]].
        + intros k Hk. rewrite dget_dset_neq by congruence. auto.
        + intros k H1 H2 H3. rewrite dget_dset_neq by auto. auto.
        + intros k H1. rewrite dget_dset_neq by congruence. auto.
        + right. split; auto. rewrite dget_dset_eq. destruct vs; auto. }
    destruct HE' as [j2 [G1 [G2 [G3 [G4 G5]]]]]. rewrite G1. eexists. split; [reflexivity|].
    split; [|split; [|split]]; cbn [add_potential set_jpots jt_heap jt_evid jt_pots]; auto.
    - destruct G2; constructor; auto.
    - rewrite G3; auto.
    - rewrite G4. rewrite multiply_entry; [| apply (jg_cl _ HJ); auto | apply Hinc, in_or_app; simpl; auto].
      split.
      + intros d Hd. destruct (eqb_spec (asn i) (cl_id d)) as [Ed|Ed].
        * assert (d = c). { apply (jg_c_inj j0 HJ); auto. congruence. } subst d. rewrite dget_dset_eq. f_equal. apply tab_ext. intros a _.
          destruct (eqb_spec (asn i) (cl_id c)) as [Ed'|Ed']; [|congruence]. unfold Lpart. rewrite map_app, qprod_app. simpl. rewrite qprod_cons, qprod_nil. ring.
        * rewrite dget_dset_neq by congruence. rewrite S4 by auto. f_equal. apply tab_ext. intros a _.
          destruct (eqb_spec (asn i) (cl_id d)); [congruence|]. ring.
      + intros s Hs. rewrite dget_dset_neq; auto. intros Es. symmetry in Es. revert Es. apply (jg_cs j0 HJ); auto.
  Qed.

  Lemma init_evid_ok l i j1 : In i ids -> ~ In i l -> st2 l i [] j1 -> exists j2, init_evid j1 i = Ok j2 /\
     (forall i', ~ In i' (l ++ [i]) -> In i' ids -> st2 (l ++ [i]) i' [] j2) /\
     same j0 j2 /\ filled (jt_heap j0) asn ids (jt_heap j2) /\ (forall k, In k (l ++ [i]) -> dget (jt_evid j2) k = Some (evmap k (dm k) L)) /\
     (forall k, ~ In k ids -> dget (jt_evid j2) k = dget (jt_evid j0) k) /\
     pstat (fun c a => prodI g ids c a * prodI Lf (l ++ [i]) c a) (jt_pots j2).
  Proof using HJ HG HE.
    intros Hi Hl HS. destruct (hg_node _ _ _ _ HG i Hi) as [n [E [E1 [E2 [E3 [E4 E5]]]]]].
    destruct (hg_dm _ _ _ _ HG i Hi) as [Nd Ne].
    unfold init_evid. assert (Eh : dget (jt_heap j1) i = Some (set_mclq n (asn i))).
    { destruct HS as [_ [[_ HS] _]]. rewrite HS. destruct (mem_spec i ids); [rewrite E; auto|tauto]. }
    unfold dgetE at 1. rewrite Eh. cbn [rbind]. change (n_values (set_mclq n (asn i))) with (n_values n). rewrite E2.
    assert (G : forall vs2 vs1 j1, dm i = vs1 ++ vs2 -> st2 l i vs1 j1 -> exists j2,
       foldM (fun j v => match n_mclq (set_mclq n (asn i)) with
                | None => Err KeyError
                | Some c => cp <- dgetE (jt_pots j) c ;; let (j, p) := get_evidence j i v in Ok (add_potential j c (multiply cp p))
                end) vs2 j1 = Ok j2 /\ st2 l i (dm i) j2).
    { clear HS Eh. induction vs2 as [|v vs2 IH]; intros vs1 j' Ed HS'.
      - rewrite app_nil_r in Ed. exists j'. rewrite Ed. auto.
      - destruct (init_evid_step l i vs1 v j' n) as [j2 [G1 G2]]; auto.
        { rewrite Ed. apply in_or_app; simpl; auto. }
        { rewrite Ed in Nd. apply NoDup_remove_2 in Nd. intros H; apply Nd, in_or_app; auto. }
        destruct (IH (vs1 ++ [v]) j2) as [j3 [G3 G4]]; auto. { rewrite <- app_assoc; auto. }
        exists j3. simpl foldM. simpl in G1. rewrite G1. cbn [rbind]. auto. }
    destruct (G (dm i) [] j1 eq_refl HS) as [j2 [G1 [S1 [S2 [S3 S4]]]]]. exists j2. split; [exact G1|].
    assert (P : pstat (fun c a => prodI g ids c a * prodI Lf (l ++ [i]) c a) (jt_pots j2)).
    { destruct S4 as [P1 P2]. split; auto. intros c Hc. rewrite P1 by auto. f_equal. apply tab_ext. intros a Ha. rewrite prodI_snoc.
      destruct (eqb_spec (asn i) (cl_id c)) as [Ed|Ed]; [|ring]. rewrite Lpart_full; auto.
      - unfold Lf. ring.
      - apply Ha. destruct (asn_ok i Hi) as [d [Hd [Ed' Hinc]]]. replace c with d. apply Hinc, in_or_app; simpl; auto. apply (jg_c_inj j0 HJ); auto. congruence. }
    destruct S3 as [T1 [T2 [T3 T4]]].
    assert (T : forall k, In k (l ++ [i]) -> dget (jt_evid j2) k = Some (evmap k (dm k) L)).
    { intros k Hk. apply in_app_or in Hk. destruct Hk as [Hk|[<-|[]]]; auto. destruct T4 as [T4|[T4 _]]; auto. rewrite T4. destruct (dm i); [congruence|auto]. }
    split; [|split; [|split; [|split; [|split]]]]; auto.
    intros i' Hn' Hi'. split; auto. split; auto. split.
    - split; auto. split.
      + intros k H1 H2 H3. apply T2; auto; intros Hx; apply H2; apply in_or_app; simpl; auto.
      + split; auto. assert (Q : dget (jt_evid j2) i' = dget (jt_evid j0) i').
        { apply T2; auto; intros Hx; apply Hn'; apply in_or_app; simpl; auto. }
        rewrite Q. destruct (HE i' Hi') as [[H1 H2]|H1]; auto.
    - destruct P as [P1 P2]. split; auto. intros c Hc. rewrite P1 by auto. f_equal. apply tab_ext. intros a _.
      unfold Lpart. cbn [map]. rewrite qprod_nil. destruct (eqb (asn i') (cl_id c)); ring.
  Qed.

  Lemma init_evids_ok l2 : forall l1 j1, NoDup (l1 ++ l2) -> incl l2 ids ->
     (forall i', ~ In i' l1 -> In i' ids -> st2 l1 i' [] j1) ->
     same j0 j1 -> filled (jt_heap j0) asn ids (jt_heap j1) -> (forall k, In k l1 -> dget (jt_evid j1) k = Some (evmap k (dm k) L)) ->
     (forall k, ~ In k ids -> dget (jt_evid j1) k = dget (jt_evid j0) k) ->
     pstat (fun c a => prodI g ids c a * prodI Lf l1 c a) (jt_pots j1) ->
    exists j2, foldM init_evid l2 j1 = Ok j2 /\ same j0 j2 /\ filled (jt_heap j0) asn ids (jt_heap j2) /\
     (forall k, In k (l1 ++ l2) -> dget (jt_evid j2) k = Some (evmap k (dm k) L)) /\
     (forall k, ~ In k ids -> dget (jt_evid j2) k = dget (jt_evid j0) k) /\
     pstat (fun c a => prodI g ids c a * prodI Lf (l1 ++ l2) c a) (jt_pots j2).
  Proof using HJ HG HE.
    induction l2 as [|i l2 IH]; intros l1 j1 HN Hi H1 H2 H3 H4 H5 H6.
    - exists j1. rewrite app_nil_r. repeat split; auto; try apply H2; try apply H3; apply H6.
    - assert (Hn : ~ In i l1). { apply NoDup_remove_2 in HN. intros H; apply HN, in_or_app; auto. }
      destruct (init_evid_ok l1 i j1) as [j2 [E1 [A1 [A2 [A3 [A4 [A5 A6]]]]]]]; auto.
      { apply Hi; left; auto. }
      { apply H1; auto. apply Hi; left; auto. }
      destruct (IH (l1 ++ [i]) j2) as [j3 [E3 E4]]; auto.
      { rewrite <- app_assoc. auto. }
      { intros k Hk; apply Hi; right; auto. }
      rewrite <- app_assoc in E4. exists j3. simpl. rewrite E1. cbn [rbind]. split; auto.
  Qed.

  Theorem initialize_ok : exists j1, initialize j0 = Ok j1 /\ same j0 j1 /\ filled (jt_heap j0) asn ids (jt_heap j1) /\
    efull j1 dm L /\ (forall k, ~ In k ids -> dget (jt_evid j1) k = dget (jt_evid j0) k) /\
    pstat (prodI (fun i a => g i a * L i (a i)) ids) (jt_pots j1).
  Proof using HJ HG HE.
    destruct init_pots_ok as [A1 [A2 [A3 A4]]]. unfold initialize. rewrite (same_ids _ _ A2).
    destruct (init_nodes_ok ids [] (init_pots j0)) as [j1 [B1 [B2 [B3 [B4 B5]]]]].
    { simpl. apply bbn_ids_NoDup. }
    { apply incl_refl. }
    { split; auto. split; auto. split; [|exact A4]. rewrite A1. split; auto. }
    simpl app in *. rewrite B1. cbn [rbind].
    assert (P0 : pstat (fun c a => prodI g ids c a * prodI Lf [] c a) (jt_pots j1)).
    { destruct B5 as [P1 P2]. split; auto. intros c Hc. rewrite P1 by auto. f_equal. apply tab_ext. intros a _. unfold prodI at 3. simpl. rewrite qprod_nil. ring. }
    destruct (init_evids_ok ids [] j1) as [j2 [C1 [C2 [C3 [C4 [C5 C6]]]]]]; auto.
    { simpl. apply bbn_ids_NoDup. }
    { apply incl_refl. }
    { intros i _ Hi. split; auto. split; auto. split.
      - rewrite B3. split; [intros k []|]. split; auto. split; auto. destruct (HE i Hi) as [[H1 H2]|H1]; auto.
      - destruct P0 as [P1 P2]. split; auto. intros c Hc. rewrite P1 by auto. f_equal. apply tab_ext. intros a _.
        unfold Lpart. cbn [map]. rewrite qprod_nil. destruct (eqb (asn i) (cl_id c)); ring. }
    { intros k []. }
    { intros k Hk. rewrite B3; auto. }
    exists j2. split; auto. split; auto. split; auto. split.
    - intros i. rewrite (same_ids _ _ C2). simpl in C4. auto.
    - split; auto. destruct C6 as [P1 P2]. split; auto. intros c Hc. rewrite P1 by auto. f_equal. apply tab_ext. intros a _.
      simpl app. unfold prodI. rewrite qprod_map_mult. reflexivity.
  Qed.

  (** ** the product of the clique potentials is the joint *)
  Lemma prodI_all f a : qprod (map (fun c => prodI f ids c a) cliques) = qprod (map (fun i => f i a) ids).
  Proof using HJ HG.
    pose proof (jg_ids_NoDup j0 HJ) as HN. apply NoDup_app_iff in HN. destruct HN as [HN _].
    assert (Hin : forall i, In i ids -> In (asn i) (map cl_id cliques)). { intros i Hi. destruct (asn_ok i Hi) as [c [Hc [-> _]]]. apply in_map; auto. }
    revert HN Hin. unfold prodI. generalize cliques as cs. intros cs HN. generalize ids as l. induction l as [|i l IH]; intros Hin.
    - simpl. rewrite qprod_map_one; auto.
    - change (map (fun i => f i a) (i :: l)) with (f i a :: map (fun i => f i a) l). rewrite qprod_cons, <- IH by (intros; apply Hin; right; auto).
      specialize (Hin i (or_introl eq_refl)). clear IH.
      transitivity (qprod (map (fun c => (if eqb (asn i) (cl_id c) then f i a else 1) *
         qprod (map (fun i => f i a) (filter (fun i => eqb (asn i) (cl_id c)) l))) cs)).
      + apply qprod_map_ext. intros c _. cbn [filter]. destruct (eqb (asn i) (cl_id c)); [|ring]. cbn [map]. rewrite qprod_cons. auto.
      + rewrite qprod_map_mult. f_equal. clear - HN Hin. induction cs as [|c cs IH]; [destruct Hin|]. inversion HN as [|? ? N1 N2]; subst.
        cbn [map]. rewrite qprod_cons. destruct (eqb_spec (asn i) (cl_id c)) as [E|E].
        * rewrite qprod_map_one; [ring|]. intros d Hd. destruct (eqb_spec (asn i) (cl_id d)) as [E2|E2]; auto. exfalso. apply N1. rewrite <- E, E2. apply in_map; auto.
        * rewrite IH; auto; [ring|]. destruct Hin; [congruence|auto].
  Qed.

  Lemma prodI_sub f a cs : NoDup (map cl_id cs) ->
    qprod (map (fun c => prodI f ids c a) cs) = qprod (map (fun i => f i a) (filter (fun i => mem (asn i) (map cl_id cs)) ids)).
  Proof using.
    intros HN. unfold prodI. generalize ids as l. induction l as [|i l IH].
    - simpl. rewrite qprod_map_one; auto.
    - transitivity (qprod (map (fun c => (if eqb (asn i) (cl_id c) then f i a else 1) *
         qprod (map (fun i => f i a) (filter (fun i => eqb (asn i) (cl_id c)) l))) cs)).
      + apply qprod_map_ext. intros c _. cbn [filter]. destruct (eqb (asn i) (cl_id c)); [|ring]. cbn [map]. rewrite qprod_cons. auto.
      + rewrite qprod_map_mult, IH. cbn [filter].
        assert (Q : qprod (map (fun c => if eqb (asn i) (cl_id c) then f i a else 1) cs) = if mem (asn i) (map cl_id cs) then f i a else 1).
        { clear IH. induction cs as [|c cs IHc]; auto. inversion HN as [|? ? N1 N2]; subst. cbn [map]. rewrite qprod_cons, IHc by auto.
          destruct (mem_spec (asn i) (cl_id c :: map cl_id cs)) as [H1|H1]; destruct (mem_spec (asn i) (map cl_id cs)) as [H2|H2];
            destruct (eqb_spec (asn i) (cl_id c)) as [H3|H3]; try ring; exfalso; simpl in H1.
          - apply N1. rewrite <- H3; auto.
          - destruct H1; congruence.
          - tauto.
          - tauto.
          - apply H1. auto. }
        rewrite Q. destruct (mem (asn i) (map cl_id cs)); [|ring]. cbn [map]. rewrite qprod_cons. auto.
  Qed.
End Init.
