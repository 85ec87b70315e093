(** Any journey of a network in any number of parts. *)
From Verif Require Import Py M_Graph M_Node M_Pptc M_Serde Spec SpecNet SpecEv SpecRe SpecSer SpecChord SpecPart SpecLost L_Base L_PD L_Sums L_Table L_Tree L_Walk L_Forest L_Root L_Good L_Prop L_Init L_Post L_Read
  L_Ids L_Trans L_Elim L_UG L_Tri L_Moral L_Build L_Exact L_Apply L_Net L_Evid L_Hist L_Claims L_Shape L_Shown L_P1 L_Reapply L_Rebuild L_Serde L_P8 L_Det L_Again L_Part L_Part2 L_Part3 L_Part4 L_Part5 L_Chord L_Chord2 L_Lost L_Lost2 L_Lost3.
Open Scope nat_scope.

Lemma solid_net N N' i : vars N' = vars N -> par N' = par N -> solid N' i <-> solid N i.
Proof. intros E1 E2. unfold solid, moral_edge, is_parent. rewrite E1, E2. tauto. Qed.
Lemma faithful_ext N j j' : jt_nodes j' = jt_nodes j -> faithful N j -> faithful N j'.
Proof. intros E H. unfold faithful, lone, jt_cliques, jt_sepsets in *. rewrite E. exact H. Qed.
Lemma faithful_net N N' j : vars N' = vars N -> par N' = par N -> faithful N j -> faithful N' j.
Proof. intros E1 E2 H c i Hc Hi. rewrite (solid_net N N' i E1 E2). apply H; auto. Qed.

Section Travel.
  Context (nm : Z -> string) (b : bbn) (Hbk : NoDup (dkeys (b_parents b))).
  Record travel (s : situation) (j : jtree) : Prop := {
    tr_shape : nshape (fst s);
    tr_nm : NoDup (map nm (vars (fst s)));
    tr_bp : forall i, In i (vars (fst s)) -> dgets (b_parents b) i = par (fst s) i;
    tr_shows : shows (fst s) nm (fst (snd s)) (snd (snd s)) j;
    tr_carries : carries (fst s) j;
    tr_save : saveable j;
    tr_tight : tight (fst s) j;
    tr_placed : placed (fst s) j;
    tr_faith : faithful (fst s) j }.

  Lemma travel_deed s j d : travel s j -> deed_ok (fst s) d -> exists j', do_deed j d = Ok j' /\ travel (after s d) j'.
  Proof using.
    intros [S1 S2 S3 S4 S5 S6 S7 S8 S9] Hd. destruct s as [N [L S]]. simpl in *. destruct d as [o c|o cpts]; simpl in *; destruct Hd as [Ho Hd].
    - destruct (call_shows N nm (ns_nd _ S1) S2 (ns_dom _ S1) o L S j c Ho S4 Hd) as [j' [J1 [J2 J3]]]. rewrite J1. pose proof (keeps_call _ _ _ _ _ J1) as K. exists j'. split; auto.
      constructor; simpl; auto.
      + eapply carries_keeps; [exact K|auto].
      + apply saveable_ext with j; auto. apply (kp_e _ _ K).
      + apply tight_ext with j; auto.
      + apply placed_keeps with j; auto.
      + apply faithful_ext with j; auto.
    - destruct (reapply_live N nm o j cpts S1 S2 Ho (st_net _ _ _ _ (sw_st _ _ _ _ _ S4)) S5 Hd) as [j' [J1 [J2 [J3 [J4 J5]]]]]. exists j'. split; auto.
      constructor; simpl; auto.
      + apply replaced_shape; auto.
      + apply live_shows; auto. apply unit_none.
      + apply saveable_ext with j; auto.
      + apply (tight_net N); auto. apply tight_ext with j; auto.
      + apply (placed_net N); auto. eapply placed_stays; [eapply reapply_stays; eauto|auto].
      + apply (faithful_net N); auto. apply faithful_ext with j; auto.
  Qed.

  Lemma travel_reload s j o o' w N' : travel s j -> ord_ok o -> ord_ok o' -> left_of (fst s) N' -> exists j', reload o o' w b j = Ok j' /\ travel (N', (no_evidence, no_evidence)) j'.
  Proof using Hbk.
    intros [S1 S2 S3 S4 S5 S6 S7 S8 S9] Ho Ho' [f [Hf ->]]. destruct s as [N [L S]]. simpl in *. set (N' := mkNet _ _ _ _).
    pose proof (jnet_ready _ _ _ (st_net _ _ _ _ (sw_st _ _ _ _ _ S4)) S5) as R.
    destruct (reload_restored N nm j R S6 b Hbk o o' Ho Ho' w) as [j1 [E1 Q]]. rewrite E1.
    destruct (back_ready N nm S1 j R S6 S7 S9 b S3 o Ho f Hf j1 Q) as [R1 [V1 [T1 F1]]]. fold N' in R1, T1, F1.
    pose proof (less_nshape N S1 j (rd_JG _ _ _ R) (rd_ids _ _ _ R) S7 S9 (rd_fam _ _ _ R) f Hf) as HN'. fold N' in HN'.
    assert (Hnm' : NoDup (map nm (vars N'))). { unfold N'. simpl. clear -S2. induction (vars N) as [|v vs IH]; simpl in *; auto. inversion S2 as [|? ? H1 H2]; subst. destruct (f v); simpl; auto. constructor; auto. intros Q. apply H1. apply in_map_iff in Q. destruct Q as [z [Ez Hz]]. apply filter_In in Hz. apply in_map_iff. exists z; tauto. }
    destruct (serde_live N' nm HN' Hnm' o' _ Ho' R1) as [j2 [A1 [A2 [A3 [A4 A5]]]]]. exists j2. split; auto.
    assert (En : jt_nodes j2 = jt_nodes j1) by (rewrite A4; reflexivity). assert (Ee : jt_edges j2 = jt_edges j1) by (rewrite A5; reflexivity).
    constructor; cbn [fst snd]; auto.
    - intros i Hi. pose proof (rd_par _ _ _ R1 i Hi) as X. exact X.
    - apply live_shows; auto. apply unit_none.
    - apply saveable_ext with j1; auto.
    - apply tight_ext with j1; auto.
    - apply (serde_placed N' nm o' _ j2 HN' Hnm' Ho' R1); auto. intros i n Hn. destruct Q as [_ [_ [_ [_ Eh]]]]. cbn [jt_heap set_jpinfo] in Hn. rewrite Eh in Hn. apply dget_In in Hn. apply in_map_iff in Hn. destruct Hn as [k [Ek _]]. injection Ek as _ <-. reflexivity.
    - apply faithful_ext with j1; auto.
  Qed.

  Lemma travel_all s l s' : went s l s' -> forall j, travel s j -> exists j', foldM (do_act b) l j = Ok j' /\ travel s' j'.
  Proof using Hbk.
    induction 1 as [s|s d l s' Hd W IH|s o o' w N' l s' Ho Ho' HL W IH]; intros j T.
    - exists j; auto.
    - destruct (travel_deed s j d T Hd) as [j1 [E1 T1]]. cbn [foldM do_act]. rewrite E1. cbn [rbind]. apply IH; auto.
    - destruct (travel_reload s j o o' w N' T Ho Ho' HL) as [j1 [E1 T1]]. cbn [foldM do_act]. rewrite E1. cbn [rbind]. apply IH; auto.
  Qed.

  Lemma travel_left s j : travel s j -> exists N', left_of (fst s) N'.
  Proof using.
    intros T. set (N := fst s). set (f := fun i => existsb (fun c => mem i (cl_nodes c)) (kept j)). exists (mkNet (filter f (vars N)) (dom N) (fun i => if f i then par N i else []) (cpt N)). exists f. split; auto.
    destruct T as [S1 S2 S3 S4 S5 S6 S7 S8 S9]. fold N in S1, S2, S3, S4, S5, S7, S8, S9. pose proof (jnet_ready _ _ _ (st_net _ _ _ _ (sw_st _ _ _ _ _ S4)) S5) as R. clear S4.
    pose proof (rd_ids _ _ _ R) as Hids. pose proof (rd_JG _ _ _ R) as HJ.
    intros i Hi. pose proof (proj1 (bbn_ids_In _ _) (proj2 (Hids i) Hi)) as [c [Hc Hic]]. pose proof (S9 c i Hc Hic) as HF. assert (Ek : f i = true <-> In c (kept j)).
    { unfold f. rewrite existsb_exists. split.
      - intros [d [Hd Hm]]. apply mem_In in Hm. destruct (kept_yes j d) as [Q _]. destruct (Q Hd) as [Hd' _]. destruct (existsb (touch c) (jt_sepsets j)) eqn:El.
        + apply kept_yes. split; auto. right. unfold lone. congruence.
        + rewrite <- (lone_apart j c d i HJ (rd_cnt _ _ _ R) Hc El Hd' Hic Hm). exact Hd.
      - intros H. exists c. split; auto. apply mem_In; auto. }
    rewrite Ek, kept_yes. destruct (jt_sepsets j) as [|s0 l] eqn:E.
    - split; auto. intros _. left. intros k Hk. apply Hids, bbn_ids_In in Hk. destruct Hk as [d [Hd Hkd]]. apply (S9 d k Hd Hkd). unfold lone. rewrite E. reflexivity.
    - split; [intros [_ [H|H]]; [discriminate|tauto]|]. intros [H|H]; split; auto; right; [|tauto]. intros _. assert (Hs : In s0 (jt_sepsets j)) by (rewrite E; left; auto).
      destruct (jg_ends _ HJ s0 Hs) as [Ha _]. destruct S7 as [_ [_ [T3 _]]].
      destruct (cl_nodes (ss_left s0)) as [|w ws] eqn:Ew; [destruct (T3 _ Ha Ew)|]. assert (Hw : In w (cl_nodes (ss_left s0))) by (rewrite Ew; left; auto).
      assert (Hwv : In w (vars N)) by (apply Hids, bbn_ids_In; exists (ss_left s0); auto).
      pose proof (proj2 (S9 _ w Ha Hw) (H w Hwv)) as X. unfold lone in X. rewrite E in X. simpl in X. unfold touch in X. rewrite eqb_refl in X. discriminate.
  Qed.
End Travel.

Lemma apply_travel ops o : well_shaped ops -> ord_ok o -> exists b j, apply o (build ops) = Ok (b, j) /\ NoDup (dkeys (b_parents b)) /\ travel (net_name ops) b (start ops) j.
Proof.
  intros HW Ho. destruct (apply_situated ops o HW Ho) as [b [j [A1 [A2 _]]]]. destruct (apply_saves ops o b j HW Ho A1) as [B1 [B2 _]]. exists b, j. split; auto. split. { rewrite B1. apply parents_keys. }
  destruct (apply_placed (net_of ops) (net_name ops) (net_shape ops HW) (ws_names _ HW) (build ops) o (build_good ops) Ho (build_fresh ops HW)) as [j0 [b' [j1 [C1 [C2 [C3 [C4 [C5 C6]]]]]]]].
  rewrite A1 in C2. injection C2 as <- <-. destruct A2 as [S1 S2 S3 S4 S5]. cbn [fst snd start] in *. constructor; cbn [fst snd start]; auto.
  - apply (ws_names _ HW).
  - intros i _. rewrite B1. apply (bi_par _ _ (build_inv ops)).
  - destruct (session_result ops o [] HW Ho) as (j' & steps & E & (R1 & R2 & R3) & _). { split; constructor. }
    unfold session in E. rewrite A1 in E. cbn [rbind] in E. simpl in E. injection E as <-.
    apply (fresh_faithful (net_of ops) (net_name ops) j (st_net _ _ _ _ (sw_st _ _ _ _ _ S4)) C5 _ steps R1); auto. apply moral_on; auto. apply moral_dec; auto.
Qed.

Theorem c19_any ops o l s : well_shaped ops -> ord_ok o -> went (start ops) l s ->
  exists j t, journey o ops l = Ok j /\ get_posteriors j = Ok t /\ described (fst s) (net_name ops) (snd (snd s)) (jt_cliques j) t.
Proof.
  intros HW Ho W. destruct (apply_travel ops o HW Ho) as [b [j0 [A1 [A2 A3]]]]. destruct (travel_all _ b A2 _ _ _ W j0 A3) as [j [E T]].
  destruct T as [S1 S2 S3 S4 S5 S6 S7 S8 S9]. destruct (situ_described (fst s) (net_name ops) (snd (snd s)) j S1 S2) as [t [T1 T2]]. { constructor; auto. apply (sw_live _ _ _ _ _ S4). }
  exists j, t. split; auto. unfold journey. rewrite A1. cbn [rbind fst snd]. exact E.
Qed.
Theorem c19_goes_on ops l s : well_shaped ops -> went (start ops) l s -> exists N', left_of (fst s) N'.
Proof.
  intros HW W. destruct (apply_travel ops ord_id HW ord_id_ok) as [b [j0 [A1 [A2 A3]]]]. destruct (travel_all _ b A2 _ _ _ W j0 A3) as [j [E T]]. eapply travel_left; eauto.
Qed.
