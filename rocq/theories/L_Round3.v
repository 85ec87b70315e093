(** Rounded initialization and evidence. *)
From Verif Require Import Py M_Graph M_Node M_Pptc M_Round SpecEv SpecRound L_Base L_Init L_Round L_Round2.
Open Scope nat_scope.
Open Scope Qc_scope.

Lemma get_clique_pots j ps i : get_clique (set_jpots j ps) i = (cj <- get_clique j i ;; Ok (fst cj, set_jpots (snd cj) ps)).
Proof.
  unfold get_clique. cbn [set_jpots jt_heap]. destruct (dgetE (jt_heap j) i) as [n|]; cbn [rbind]; auto. destruct (n_mclq n) as [c|]; cbn [rbind fst snd]; auto.
  change (find_cliques (set_jpots j ps) i) with (find_cliques j i). destruct (isort cl_leb (find_cliques j i)) as [|c l]; auto.
Qed.
(** what of a node [tpos] is about *)
Definition nview (n : bnode) : option potential * list string := (n_pot n, n_values n).
Lemma get_clique_keeps j i c j1 : get_clique j i = Ok (c, j1) -> jt_pots j1 = jt_pots j /\ jt_evid j1 = jt_evid j /\ jt_nodes j1 = jt_nodes j /\ jt_nbrs j1 = jt_nbrs j /\
  forall k, option_map nview (dget (jt_heap j1) k) = option_map nview (dget (jt_heap j) k).
Proof.
  unfold get_clique. destruct (dgetE (jt_heap j) i) as [n|]; cbn [rbind]; [|discriminate]. destruct (n_mclq n) as [c'|]. { intros E; inversion E; subst; auto 6. }
  destruct (isort cl_leb (find_cliques j i)) as [|d l]; [discriminate|]. intros E; inversion E; subst. cbn [set_jheap jt_pots jt_evid jt_heap]. repeat split; auto.
  intros k. rewrite hupd_dget. destruct (Z.eqb i k); auto. destruct (dget (jt_heap j) k); auto.
Qed.
Lemma ids_nodes j j1 : jt_nodes j1 = jt_nodes j -> jt_bbn_ids j1 = jt_bbn_ids j.
Proof. intros E. unfold jt_bbn_ids, jt_cliques. rewrite E. auto. Qed.
Lemma jkeys_nodes j j1 : jt_nodes j1 = jt_nodes j -> jkeys j1 = jkeys j.
Proof. intros E. unfold jkeys, jt_cliques, jt_sepsets. rewrite E. auto. Qed.
Lemma view_values h h1 ns : (forall k, option_map nview (dget h1 k) = option_map nview (dget h k)) -> h_nv h1 ns = h_nv h ns.
Proof.
  intros E. unfold h_nv. apply map_ext. intros i. f_equal. unfold h_values. specialize (E i). destruct (dget h1 i), (dget h i); cbn [option_map] in E; try discriminate; auto. inversion E; auto.
Qed.

Section B.
  Context (B : nat).
  Lemma tpos_keeps j j1 : jt_nodes j1 = jt_nodes j -> jt_nbrs j1 = jt_nbrs j -> jt_evid j1 = jt_evid j -> (forall k, option_map nview (dget (jt_heap j1) k) = option_map nview (dget (jt_heap j) k)) ->
    small B (jkeys j) (jt_pots j1) -> tpos B j -> tpos B j1.
  Proof using.
    intros E0 En E1 E2 HS [H1 H2 H3 H4 H5 H6 H7 H8 H9 H10]. pose proof (ids_nodes _ _ E0) as Ei.
    assert (G : forall i n, dget (jt_heap j1) i = Some n -> exists m, dget (jt_heap j) i = Some m /\ n_pot m = n_pot n /\ n_values m = n_values n).
    { intros i n Hn. specialize (E2 i). rewrite Hn in E2. destruct (dget (jt_heap j) i) as [m|]; [|discriminate]. cbn [option_map] in E2. injection E2 as E3 E4. exists m. repeat split; congruence. }
    constructor; auto.
    - intros i n p Hi Hn Hp. rewrite Ei in Hi. destruct (G i n Hn) as [m [M1 [M2 M3]]]. apply (H2 i m); auto. congruence.
    - intros i n Hi Hn. rewrite Ei in Hi. destruct (G i n Hn) as [m [M1 [M2 M3]]]. rewrite <- M3. eauto.
    - rewrite E1; auto.
    - rewrite (jkeys_nodes _ _ E0). auto.
    - intros ns. unfold jt_cliques, jt_sepsets. rewrite E0. rewrite (view_values _ _ ns E2). apply H6.
    - rewrite Ei; auto.
    - rewrite E0. intros x. unfold jt_neighbors. rewrite En. apply H8.
    - unfold walk_fuel. rewrite E0. exact H9.
    - rewrite E0. exact H10.
  Qed.
  Lemma tpos_pots j ps : small B (jkeys j) ps -> tpos B j -> tpos B (set_jpots j ps).
  Proof using. intros HS HP. apply tpos_keeps with j; auto. Qed.

  Definition gplus (k : nat) : nat := (k + B)%nat.
  Lemma gplus_rises : rises gplus. Proof using. unfold gplus. constructor; intros; lia. Qed.
  Lemma init_node_follows i j : In i (jt_bbn_ids j) -> tpos B j -> follows gplus jsim jsim (fun j => init_node j i) (fun a j => init_node_r a j i) j /\ (forall j1, init_node j i = Ok j1 -> tpos B j1 /\ jt_bbn_ids j1 = jt_bbn_ids j).
  Proof using.
    intros Hi HP. unfold init_node. split.
    - intros j1 E k. destruct (get_clique j i) as [[c j2]|] eqn:E1; cbn [rbind] in E; [|discriminate]. destruct (get_clique_keeps _ _ _ _ E1) as [P1 [P2 [P3 [P4 P5]]]].
      destruct (dgetE (jt_pots j2) c) as [p1|] eqn:E2; cbn [rbind] in E; [|discriminate]. destruct (dgetE (jt_heap j2) i) as [n|] eqn:E3; cbn [rbind] in E; [|discriminate].
      destruct (n_pot n) as [p2|] eqn:E4; [|discriminate]. inversion E; subst j1.
      assert (Hp2 : ppos p2 /\ (List.length p2 <= B)%nat). { unfold dgetE in E3. destruct (dget (jt_heap j2) i) as [n0|] eqn:D3; [|discriminate]. inversion E3; subst n0.
        assert (HP2 : tpos B j2) by (apply tpos_keeps with j; auto; rewrite P1; apply HP). eapply (tp_heap _ _ HP2); eauto. rewrite (ids_nodes _ _ P3); auto. }
      destruct Hp2 as [Hp2 Hl2]. eapply near_1; [exact (multiply_within 0 p2 k p1)|]. intros r a Ha N1 j' [S1 S2]. unfold init_node_r. set (ps' := jt_pots j') in *. rewrite S1.
      rewrite get_clique_pots, E1. cbn [rbind fst snd]. change (jt_pots (set_jpots j2 ps')) with ps'. change (jt_heap (set_jpots j2 ps')) with (jt_heap j2).
      unfold dgetE in E2. destruct (dget (jt_pots j2) c) as [q|] eqn:D2; [|discriminate]. inversion E2; subst q. rewrite P1 in D2. destruct (psim_get _ _ _ _ _ _ S2 D2) as [p1' [A1 A2]].
      unfold dgetE at 1. rewrite A1. cbn [rbind]. rewrite E3. cbn [rbind]. rewrite E4. eexists. split; [reflexivity|]. split; auto. cbn [add_potential set_jpots jt_pots]. unfold gplus.
      apply psim_set. { rewrite P1. eapply psim_le; [exact Ha| |exact S2]. lia. } eapply pwithin_le; [exact Ha| |apply N1; auto; apply ppos_within; auto]. lia.
    - intros j1 E. destruct (get_clique j i) as [[c j2]|] eqn:E1; cbn [rbind] in E; [|discriminate]. destruct (get_clique_keeps _ _ _ _ E1) as [P1 [P2 [P3 [P4 P5]]]].
      destruct (dgetE (jt_pots j2) c) as [p1|] eqn:E2; cbn [rbind] in E; [|discriminate]. destruct (dgetE (jt_heap j2) i) as [n|] eqn:E3; cbn [rbind] in E; [|discriminate].
      destruct (n_pot n) as [p2|] eqn:E4; [|discriminate]. inversion E; subst j1. split; [|exact (ids_nodes _ _ P3)].
      assert (HP2 : tpos B j2) by (apply tpos_keeps with j; auto; rewrite P1; apply HP). unfold dgetE in E2. destruct (dget (jt_pots j2) c) as [q|] eqn:D2; [|discriminate]. inversion E2; subst q.
      apply tpos_pots; auto. apply small_set. { apply (tp_pots _ _ HP2). } { rewrite multiply_len. eapply sm_len; [apply (tp_pots _ _ HP2)|exact D2]. } eapply small_in; [apply (tp_pots _ _ HP2)|exact D2].
  Qed.

  Lemma get_evidence_pots j ps i v : get_evidence (set_jpots j ps) i v = (set_jpots (fst (get_evidence j i v)) ps, snd (get_evidence j i v)).
  Proof using. unfold get_evidence. cbn [set_jpots jt_evid]. destruct (dget (dgets (jt_evid j) i) v); reflexivity. Qed.
  Lemma tpos_evid j e : (forall i m v p, dget e i = Some m -> dget m v = Some p -> ppos p /\ (List.length p <= B)%nat) -> tpos B j -> tpos B (set_jevid j e).
  Proof using. intros He [H1 H2 H3 H4 H5 H6 H7 H8 H9 H10]. constructor; auto. Qed.
  Lemma get_evidence_keeps j i v j1 p : tpos B j -> get_evidence j i v = (j1, p) -> jt_pots j1 = jt_pots j /\ jt_heap j1 = jt_heap j /\ tpos B j1 /\ ppos p /\ (List.length p <= B)%nat.
  Proof using.
    intros HP E. unfold get_evidence in E. pose proof (tp_evid _ _ HP) as H2.
    assert (G : forall w q, dget (dgets (jt_evid j) i) w = Some q -> ppos q /\ (List.length q <= B)%nat). { intros w q Hq. unfold dgets in Hq. destruct (dget (jt_evid j) i) as [m|] eqn:Em; [eauto|discriminate]. }
    assert (P1 : ppos [mkPE [(i, v)] 1]) by (constructor; [discriminate|constructor]). pose proof (tp_one _ _ HP) as H1.
    destruct (dget (dgets (jt_evid j) i) v) as [q|] eqn:Eq; inversion E; subst; clear E; cbn [set_jevid jt_pots jt_heap]; (split; [auto|split; [auto|split; [|eauto]]]).
    - apply tpos_evid; auto. intros k m w q. rewrite dget_dset. destruct (eqb_spec k i); eauto. intros Em Hq. inversion Em; subst. eauto.
    - apply tpos_evid; auto. intros k m w q. rewrite dget_dset. destruct (eqb_spec k i); eauto. intros Em. inversion Em; subst. rewrite dget_dset. destruct (eqb_spec w v); eauto. intros Eq'. inversion Eq'; subst; auto.
  Qed.
  Lemma get_evidence_nodes j i v : jt_nodes (fst (get_evidence j i v)) = jt_nodes j.
  Proof using. unfold get_evidence. destruct (dget (dgets (jt_evid j) i) v); reflexivity. Qed.

  Definition gevid (k : nat) : nat := times B gplus k.
  Lemma init_evid_follows i j : In i (jt_bbn_ids j) -> tpos B j -> follows gevid jsim jsim (fun j => init_evid j i) (fun a j => init_evid_r a j i) j /\ (forall j1, init_evid j i = Ok j1 -> tpos B j1 /\ jt_bbn_ids j1 = jt_bbn_ids j).
  Proof using.
    intros Hi HP. unfold init_evid. set (I := jt_bbn_ids j) in *. set (P := fun s => tpos B s /\ jt_bbn_ids s = I).
    assert (G : forall n, let f := fun j v => match n_mclq n with None => Err KeyError | Some c => cp <- dgetE (jt_pots j) c ;; let (j, p) := get_evidence j i v in Ok (add_potential j c (multiply cp p)) end in
      let fr := fun a j v => match n_mclq n with None => Err KeyError | Some c => cp <- dgetE (jt_pots j) c ;; let (j, p) := get_evidence j i v in Ok (add_potential j c (multiply_r a cp p)) end in
      forall j v, P j -> follows gplus jsim jsim (fun j => f j v) (fun a j => fr a j v) j /\ (forall j1, f j v = Ok j1 -> P j1)).
    { intros n f fr j0 v [H0 HI]. unfold f, fr. destruct (n_mclq n) as [c|]; [|split; [intros ? ?; discriminate|discriminate]]. split.
      - intros j1 E k. destruct (dgetE (jt_pots j0) c) as [cp|] eqn:E1; cbn [rbind] in E; [|discriminate]. destruct (get_evidence j0 i v) as [j2 p] eqn:E2. inversion E; subst j1.
        destruct (get_evidence_keeps _ _ _ _ _ H0 E2) as [P1 [P2 [P3 [P4 P5]]]]. eapply near_1; [exact (multiply_within 0 p k cp)|]. intros r a Ha N1 j' [S1 S2]. set (ps' := jt_pots j') in *. rewrite S1.
        change (jt_pots (set_jpots j0 ps')) with ps'. unfold dgetE in E1. destruct (dget (jt_pots j0) c) as [q|] eqn:D1; [|discriminate]. inversion E1; subst q. destruct (psim_get _ _ _ _ _ _ S2 D1) as [cp' [A1 A2]].
        unfold dgetE. rewrite A1. cbn [rbind]. rewrite get_evidence_pots, E2. cbn [fst snd]. eexists. split; [reflexivity|]. split; auto. cbn [add_potential set_jpots jt_pots]. unfold gplus. apply psim_set.
        + rewrite P1. eapply psim_le; [exact Ha| |exact S2]. lia.
        + eapply pwithin_le; [exact Ha| |apply N1; auto; apply ppos_within; auto]. lia.
      - intros j1 E. destruct (dgetE (jt_pots j0) c) as [cp|] eqn:E1; cbn [rbind] in E; [|discriminate]. destruct (get_evidence j0 i v) as [j2 p] eqn:E2. inversion E; subst j1.
        destruct (get_evidence_keeps _ _ _ _ _ H0 E2) as [P1 [P2 [P3 [P4 P5]]]]. unfold dgetE in E1. rewrite <- P1 in E1. destruct (dget (jt_pots j2) c) as [q|] eqn:D1; [|discriminate]. inversion E1; subst q. split.
        + apply tpos_pots; auto. apply small_set. { apply (tp_pots _ _ P3). } { rewrite multiply_len. eapply sm_len; [apply (tp_pots _ _ P3)|exact D1]. } eapply small_in; [apply (tp_pots _ _ P3)|exact D1].
        + rewrite <- HI. apply ids_nodes. pose proof (get_evidence_nodes j0 i v) as X. rewrite E2 in X. exact X. }
    destruct (dgetE (jt_heap j) i) as [n|] eqn:En. 2:{ split; [|cbn [rbind]; discriminate]. intros j1 E. rewrite En in E. discriminate. }
    assert (Hv : (List.length (n_values n) <= B)%nat). { unfold dgetE in En. destruct (dget (jt_heap j) i) as [n0|] eqn:D; [|discriminate]. inversion En; subst. eapply (tp_vals _ _ HP); eauto. }
    destruct (follows_steps gplus B jsim P _ (fun a j v => match n_mclq n with None => Err KeyError | Some c => cp <- dgetE (jt_pots j) c ;; let (j, p) := get_evidence j i v in Ok (add_potential j c (multiply_r a cp p)) end) (n_values n)
       jsim_climbs gplus_rises Hv (fun s x Hs _ => G n s x Hs) j (conj HP eq_refl)) as [F1 F2].
    split.
    - intros j1 E k. rewrite En in E. cbn [rbind] in E.
      eapply near_1; [exact (F1 j1 E k)|]. intros r a _ N1 j' S. unfold init_evid_r. replace (jt_heap j') with (jt_heap j) by (rewrite (proj1 S); auto). rewrite En. cbn [rbind]. apply N1; auto.
    - cbn [rbind]. intros j1 E. exact (F2 j1 E).
  Qed.
  (** the exponent of a tree just initialized: whatever it was before *)
  Definition ginit : nat := times B gevid (times B gplus 0).
  Lemma gevid_rises : rises gevid. Proof using. apply rises_times, gplus_rises. Qed.
  Lemma initialize_follows j : tpos B j -> follows (fun _ => ginit) jsim jsim initialize initialize_r j /\ (forall j1, initialize j = Ok j1 -> tpos B j1).
  Proof using.
    intros HP. destruct (init_pots_keeps j) as [K1 [K2 [K3 K4]]]. assert (HP0 : tpos B (init_pots j)). { apply tpos_keeps with j; auto. { intros; rewrite K1; auto. } apply init_pots_small; auto. }
    set (L := jt_bbn_ids (init_pots j)). set (I := fun s => tpos B s /\ jt_bbn_ids s = L). pose proof (tp_ids _ _ HP0) as HL. fold L in HL.
    assert (H1 : forall s x, I s -> In x L -> follows gplus jsim jsim (fun s => init_node s x) (fun a s => init_node_r a s x) s /\ (forall s1, init_node s x = Ok s1 -> I s1)).
    { intros s x [Hs Es] Hx. destruct (init_node_follows x s) as [G1 G2]; auto. { rewrite Es; auto. }
      split; auto. intros s1 E1. destruct (G2 s1 E1) as [Q1 Q2]. split; auto. congruence. }
    assert (H2 : forall s x, I s -> In x L -> follows gevid jsim jsim (fun s => init_evid s x) (fun a s => init_evid_r a s x) s /\ (forall s1, init_evid s x = Ok s1 -> I s1)).
    { intros s x [Hs Es] Hx. destruct (init_evid_follows x s) as [G1 G2]; auto. { rewrite Es; auto. }
      split; auto. intros s1 E1. destruct (G2 s1 E1) as [Q1 Q2]. split; auto. congruence. }
    pose proof (follows_steps gplus B jsim I init_node init_node_r L jsim_climbs gplus_rises HL H1) as HN.
    pose proof (follows_steps gevid B jsim I init_evid init_evid_r L jsim_climbs gevid_rises HL H2) as HE.
    unfold initialize. cbv zeta. fold L. split.
    - intros j1 E k. fold L in E. destruct (foldM init_node L (init_pots j)) as [j2|] eqn:E1; cbn [rbind] in E; [|discriminate].
      destruct (HN (init_pots j) (conj HP0 eq_refl)) as [F1 F2]. destruct (HE j2 (F2 j2 E1)) as [F3 _].
      eapply near_2; [exact (F1 j2 E1 0%nat)|exact (F3 j1 E (times B gplus 0))|]. intros r a Ha N1 N2 j' S. unfold initialize_r. cbv zeta.
      pose proof (init_pots_sim B j r k j' HP Ha S) as S0. replace (jt_bbn_ids (init_pots j')) with L by (unfold L; rewrite (proj1 S0); auto).
      destruct (N1 (init_pots j') S0) as [j2' [A1 A2]]. rewrite A1. cbn [rbind]. apply N2; auto.
    - intros j1 E. destruct (foldM init_node L (init_pots j)) as [j2|] eqn:E1; cbn [rbind] in E; [|discriminate].
      destruct (HN (init_pots j) (conj HP0 eq_refl)) as [_ F2]. destruct (HE j2 (F2 j2 E1)) as [_ F4]. apply F4; auto.
  Qed.
End B.
