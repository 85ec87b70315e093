(** Cliques stay within one part of the network; what is reported after a session. *)
From Verif Require Import Py M_Graph M_Node M_Pptc Spec SpecNet SpecEv SpecPart L_Base L_PD L_Sums L_Table L_Tree L_Walk L_Forest L_Root L_Good L_Prop L_Init L_Post L_Read
  L_Ids L_Trans L_Elim L_UG L_Tri L_Moral L_Build L_Exact L_Apply L_Net L_Evid L_Hist L_Claims L_Shape L_Shown L_P1 L_Reapply L_Det L_Again L_Part.
Open Scope nat_scope.

Lemma elim_within (R : Z -> Z -> Prop) : (forall x, R x x) -> (forall x y, R x y -> R y x) -> (forall x y z, R x y -> R y z -> R x z) ->
  forall V adj Ks, elim V adj Ks -> (forall x y, adj x y -> R x y) -> forall K, In K Ks -> forall u v, In u K -> In v K -> R u v.
Proof.
  intros R1 R2 R3. induction 1 as [adj|V V' v N adj Ks HP HN HNs He IH]; intros Ha K; [intros []|].
  assert (Q : forall u, In u (N ++ [v]) -> R v u). { intros u Hu. apply in_app_or in Hu. destruct Hu as [Hu|[<-|[]]]; auto. apply Ha, HNs; auto. }
  intros [<-|HK].
  - intros a b Ha' Hb. apply R3 with v; auto.
  - apply IH; auto. intros x y [H|[H1 [H2 _]]]; auto. apply R3 with v; [apply R2|]; apply Q, in_or_app; auto.
Qed.

Lemma psym {A} (R : A -> A -> Prop) x y : path (sym R) x y -> path (sym R) y x.
Proof. intros H. apply path_sym; auto. intros a b [K|K]; [right|left]; auto. Qed.

Lemma compile_tight N nm b o j : nshape N -> bgood N nm b -> ord_ok o -> compile o b = Ok j -> tight N j.
Proof.
  intros HN HB Ho E. destruct (compile_full N nm b HN HB o Ho) as [u [Ks [j0 [F [C1 [C2 [C3 [C4 [C5 [C6 _]]]]]]]]]].
  rewrite C1 in E. injection E as <-. split; [|split; [|split]].
  - intros c x y Hc Hx Hy. rewrite C4 in Hc. apply in_map_iff in Hc. destruct Hc as [K [<- HK]]. apply kept_sub in HK. simpl in Hx, Hy.
    refine (elim_within (path (sym (is_parent N))) _ _ _ _ _ _ C2 _ K HK x y Hx Hy).
    + intros z. constructor.
    + intros a d. apply psym.
    + intros a d e. apply path_trans.
    + assert (Q : forall i v, In i (vars N) -> In v (par N i ++ [i]) -> path (sym (is_parent N)) v i).
      { intros i v Hi Hv. apply in_app_or in Hv. destruct Hv as [Hv|[<-|[]]]; [|constructor]. apply path_one. left. split; auto. }
      intros a d [_ [i [Hi [H1 H2]]]]. apply path_trans with i; [|apply psym]; apply Q; auto.
  - intros s Hs. rewrite C5 in Hs. apply in_rev in Hs. apply (first_of_greedy [] _ F s C6) in Hs. destruct Hs as [[]|Hs].
    apply sep_sets_In in Hs. destruct Hs as [a [c [_ [Hne ->]]]]. rewrite mk_sepset_nodes. auto.
  - intros c Hc. rewrite C4 in Hc. apply in_map_iff in Hc. destruct Hc as [K [<- HK]]. apply kept_sub in HK. apply (elim_sub _ _ _ C2 K HK).
  - rewrite C4. intros c d Hc Hd Hin. apply in_map_iff in Hc. apply in_map_iff in Hd. destruct Hc as [B1 [<- HB1]], Hd as [B2 [<- HB2]]. f_equal.
    apply (proj2 (kept_antichain _ _ _ C2 (ns_nd _ HN))); auto.
Qed.
Lemma tight_ext N j j' : jt_nodes j' = jt_nodes j -> tight N j -> tight N j'.
Proof. unfold tight, jt_cliques, jt_sepsets. intros ->; auto. Qed.

(** every table is in the first clique, by id, that can hold it *)
Definition placed (N : net) (j : jtree) : Prop := forall i, In i (vars N) -> exists c, first_holding N (jt_cliques j) i c /\ homed j c i = true.

Lemma homed_id j c k : homed j c k = true <-> option_map n_mclq (dget (jt_heap j) k) = Some (Some (cl_id c)).
Proof.
  unfold homed. destruct (dget (jt_heap j) k) as [n|]; simpl; [|split; discriminate]. destruct (n_mclq n) as [s|]; [|split; discriminate].
  rewrite String.eqb_eq. split; congruence.
Qed.
Lemma placed_keeps N j j' : keeps j j' -> placed N j -> placed N j'.
Proof.
  intros K H i Hi. destruct (H i Hi) as [c [H1 H2]]. exists c. split. { unfold jt_cliques. rewrite (kp_n _ _ K). exact H1. }
  apply homed_id. apply (kp_m _ _ K). apply homed_id; auto.
Qed.
Lemma keeps_calls h : forall j j', do_calls j h = (j', None) -> keeps j j'.
Proof.
  induction h as [|[o c] h IH]; intros j j' E; simpl in E. { inversion E; subst; apply keeps_refl. }
  destruct (do_call o j c) as [j1 [x|]] eqn:E1; [discriminate|]. eapply keeps_trans; [eapply keeps_call; eauto|eapply IH; eauto].
Qed.

Section Placed.
  Context (N : net) (nm : Z -> string) (HN : nshape N) (Hnm : NoDup (map nm (vars N))).

  Lemma compile_mclq b o j : bgood N nm b -> ord_ok o -> (forall i n, In (i, n) (g_nodes (b_g b)) -> n_mclq n = None) -> compile o b = Ok j ->
    forall i n, dget (jt_heap j) i = Some n -> n_mclq n = None.
  Proof using HN.
    intros HB Ho Hf E i n Hn. destruct (compile_full N nm b HN HB o Ho) as [u [Ks [j0 [F [C1 [C2 [C3 [C4 [C5 [C6 [C7 _]]]]]]]]]]].
    rewrite C1 in E. injection E as <-. rewrite C7 in Hn. apply dget_In in Hn. unfold hm, moralize_meta, hp in Hn. rewrite map_map in Hn.
    apply in_map_iff in Hn. destruct Hn as [[k m] [Em Hm]]. simpl in Em. pose proof (f_equal (fun p => n_mclq (snd p)) Em) as Q. simpl in Q. rewrite <- Q.
    unfold with_pot. simpl. eapply Hf; eauto.
  Qed.

  Lemma assigned_first j i : jnet N nm j -> In i (vars N) -> (forall n, dget (jt_heap j) i = Some n -> n_mclq n = None) ->
    exists c, first_holding N (jt_cliques j) i c /\ assigned j i = cl_id c.
  Proof using.
    intros H Hi Hf. pose proof (jn_hg _ _ _ H) as HG. apply (jn_ids _ _ _ H) in Hi. destruct (hg_node _ _ _ _ HG i Hi) as [n [E [E1 [E2 [E3 [E4 E5]]]]]]. unfold assigned. rewrite E, (Hf n E).
    assert (Hc : forall c, In c (find_cliques j i) <-> In c (jt_cliques j) /\ incl (par N i ++ [i]) (cl_nodes c)).
    { intros c. unfold find_cliques. rewrite filter_In, subset_spec. split; intros [H1 H2]; split; auto.
      - intros p Hp. apply H2. apply in_app_or in Hp. apply in_or_app. destruct Hp; auto. left. apply E4; auto.
      - intros p Hp. apply H2. apply in_app_or in Hp. apply in_or_app. destruct Hp; auto. left. apply E4; auto. }
    destruct (isort cl_leb (find_cliques j i)) as [|c l] eqn:Es.
    - exfalso. destruct (hg_fam _ _ _ _ HG i Hi) as [c [Hcc Hinc]]. assert (Q : In c (find_cliques j i)) by (apply Hc; auto).
      apply (Permutation_in _ (Permutation_sym (isort_perm cl_leb _))) in Q. rewrite Es in Q. destruct Q.
    - exists c. split; auto. assert (Q : In c (find_cliques j i)). { apply (Permutation_in _ (isort_perm cl_leb _)). rewrite Es; left; auto. }
      apply Hc in Q. destruct Q as [Q1 Q2]. split; auto. split; auto. intros d Hd1 Hd2. change (cl_leb c d = true). eapply isort_head; [| |exact Es|apply Hc; auto].
      + intros a b. apply str_leb_total.
      + intros a b e. apply str_leb_trans.
  Qed.

  Lemma apply_placed b o : bgood N nm b -> ord_ok o -> (forall i n, In (i, n) (g_nodes (b_g b)) -> n_mclq n = None) ->
    exists j0 b' j, compile o b = Ok j0 /\ apply o b = Ok (b', j) /\ jt_nodes j = jt_nodes j0 /\ live N nm no_evidence j /\ tight N j /\ placed N j.
  Proof using HN Hnm.
    intros HB Ho Hf. destruct (apply_net N nm b o HN HB Hnm Ho Hf) as [j0 [j [A1 [A2 [A3 [A4 [A5 [A6 [A7 A8]]]]]]]]].
    exists j0. eexists. exists (set_jlistener j true). split; auto. split; [exact A6|].
    assert (En : jt_nodes (set_jlistener j true) = jt_nodes j0) by apply (sm_n _ _ A5). split; auto. split; auto.
    split. { apply tight_ext with j0; auto. eapply compile_tight; eauto. }
    destruct (infer_net N nm (ns_nd _ HN) Hnm o j0 no_evidence Ho A2) as [j2 [x [t [ts [E [O _]]]]]].
    { intros i Hi. left. rewrite A3. auto. } { intros i v _ _. unfold no_evidence. discriminate. }
    rewrite A4 in E. injection E as <-. destruct (oc_fill _ _ _ _ _ _ _ _ _ O) as [_ Fi].
    intros i Hi. destruct (assigned_first j0 i A2 Hi) as [c [H1 H2]]. { intros n. eapply compile_mclq; eauto. }
    exists c. split. { unfold jt_cliques. rewrite En. exact H1. }
    apply (jn_ids _ _ _ A2) in Hi. unfold homed. change (jt_heap (set_jlistener j true)) with (jt_heap j). rewrite Fi, (proj2 (mem_In _ _) Hi).
    destruct (hg_node _ _ _ _ (jn_hg _ _ _ A2) i Hi) as [n [En' _]]. rewrite En'. simpl. rewrite H2. apply String.eqb_refl.
  Qed.

  (** ** states that show the likelihoods [L] *)
  Record situ (L : likelihood) (j : jtree) : Prop := {
    si_live : exists ev, live N nm L (set_jevid j ev);
    si_tight : tight N j;
    si_placed : placed N j }.

  Lemma situ_jnet L j : situ L j -> jnet N nm j.
  Proof. clear. intros [[ev H] _ _]. eapply jnet_ext; [| | |apply (lv_net _ _ _ _ H)]; auto. Qed.

  Lemma homed_first L j c k : situ L j -> In k (vars N) -> In c (jt_cliques j) -> (homed j c k = true <-> first_holding N (jt_cliques j) k c).
  Proof using.
    intros H Hk Hc. destruct (si_placed _ _ H k Hk) as [d [D1 D2]]. pose proof (jn_JG _ _ _ (situ_jnet L j H)) as HJ. split.
    - intros Hh. apply homed_id in Hh. apply homed_id in D2. assert (E : cl_id d = cl_id c) by congruence. rewrite <- (jg_c_inj j HJ d c); auto. apply D1.
    - intros F. assert (E : cl_id c = cl_id d). { destruct F as [_ [F1 F2]]. destruct D1 as [D0 [D1 D3]]. apply str_leb_anti; auto. }
      rewrite (jg_c_inj j HJ c d); auto. apply D1.
  Qed.

  Theorem situ_reads L j : situ L j -> exists x V f home,
    In x (jt_cliques j) /\ (forall c, In c (jt_cliques j) -> str_leb (cl_id x) (cl_id c) = true) /\
    NoDup V /\ (forall v, In v V <-> joined N (cl_nodes x) v) /\ incl V (vars N) /\
    (forall i, In i (vars N) -> first_holding N (jt_cliques j) i (home i)) /\
    get_posteriors j = Ok (map (fun i => (nm i, map (fun y => (y, f i y)) (dom N i))) (jt_bbn_ids j)) /\
    (forall i y, In i V -> In y (dom N i) -> f i y = posterior_from N L V V i y) /\
    (forall i y, In i (vars N) -> ~ In i V -> In y (dom N i) ->
       f i y = posterior_from N L (cl_nodes (home i)) (filter (fun k => String.eqb (cl_id (home k)) (cl_id (home i))) (vars N)) i y).
  Proof using HN Hnm.
    intros H. destruct (si_live _ _ H) as [ev Hl]. destruct (live_reads N nm HN Hnm L _ Hl) as [x [V [f [R1 [R2 [R3 [R4 [R5 [R6 [R7 [R8 R9]]]]]]]]]]].
    change (jt_cliques (set_jevid j ev)) with (jt_cliques j) in *. change (jt_bbn_ids (set_jevid j ev)) with (jt_bbn_ids j) in *.
    change (get_posteriors (set_jevid j ev)) with (get_posteriors j) in R7.
    destruct (first_clique_min _ _ R1) as [Hx Hmin]. change (jt_cliques (set_jevid j ev)) with (jt_cliques j) in *.
    set (home := fun i => match find (fun c => homed j c i) (jt_cliques j) with Some c => c | None => x end).
    assert (Hhome : forall i, In i (vars N) -> In (home i) (jt_cliques j) /\ homed j (home i) i = true).
    { intros i Hi. unfold home. destruct (find (fun c => homed j c i) (jt_cliques j)) as [c|] eqn:E. { apply find_some in E. exact E. }
      destruct (si_placed _ _ H i Hi) as [c [[C1 _] C2]]. pose proof (find_none _ _ E c C1) as Q. simpl in Q. congruence. }
    exists x, V, f, home. split; auto. split; auto. split; auto.
    assert (Hne : exists u, In u (cl_nodes x)).
    { destruct (cl_nodes x) as [|u l] eqn:Ex; [|exists u; left; auto]. exfalso. destruct (si_tight _ _ H) as [_ [_ [T _]]]. apply (T x); auto. }
    split.
    { intros v. split; [|intros [u [Hu Hp]]; eauto]. intros Hv. destruct Hne as [u Hu]. exists u. split; auto. apply R6; auto. apply tight_ext with j; auto. apply (si_tight _ _ H). }
    split; auto. split. { intros i Hi. destruct (Hhome i Hi) as [H1 H2]. apply (homed_first L j); auto. }
    split; auto. split; auto. intros i y Hi Hv Hy. destruct (Hhome i Hi) as [H1 H2]. rewrite (R9 i y (home i) Hi Hv Hy H1 H2).
    apply from_perm; auto. apply NoDup_Permutation.
    - apply NoDup_filter, bbn_ids_NoDup.
    - apply NoDup_filter, (ns_nd _ HN).
    - intros k. rewrite !filter_In, (jn_ids _ _ _ (situ_jnet L j H)). split; intros [Hk Q]; split; auto.
      + destruct (Hhome k Hk) as [K1 K2]. apply homed_id in Q. apply homed_id in K2. apply String.eqb_eq. change (jt_heap (set_jevid j ev)) with (jt_heap j) in Q. congruence.
      + apply String.eqb_eq in Q. destruct (Hhome k Hk) as [K1 K2]. apply homed_id. apply homed_id in K2. change (jt_heap (set_jevid j ev)) with (jt_heap j). congruence.
  Qed.
End Placed.
