(** Posteriors after any valid evidence history, virtual evidence included: the likelihoods shown. *)
From Verif Require Import Py M_Graph M_Node M_Pptc Spec SpecNet SpecEv L_Base L_PD L_Sums L_Table L_Tree L_Walk L_Forest L_Root L_Good L_Prop L_Init L_Post L_Read
  L_Ids L_Trans L_Elim L_UG L_Tri L_Moral L_Build L_Exact L_Apply L_Net L_Evid L_Hist L_Claims.
Open Scope Qc_scope.

Definition soleD (f : string -> Qc) (d : list string) : option string := match ones f d with [y] => Some y | _ => None end.
Definition quietD (d : list string) (f g : string -> Qc) : bool :=
  forallb (fun v => qeqb 1 (f v) && qeqb 1 (g v)) d || match soleD f d, soleD g d with Some y, Some z => String.eqb y z | _, _ => false end.

Lemma all_ones (d : list string) (f g : string -> Qc) : forallb (fun v => qeqb 1 (f v) && qeqb 1 (g v)) d = true <-> (forall v, In v d -> f v = 1) /\ (forall v, In v d -> g v = 1).
Proof.
  rewrite forallb_forall. split.
  - intros H. split; intros v Hv; specialize (H v Hv); apply andb_true_iff in H; rewrite !qeqb_true in H; intuition.
  - intros [H1 H2] v Hv. rewrite andb_true_iff, !qeqb_true. rewrite H1, H2 by auto. auto.
Qed.

Lemma compare_exact (e : evidence) i d (L : likelihood) g : NoDup d -> (forall v, In v d -> L i v <= 1) -> (forall v, In v d -> g v <= 1) ->
  holds d g (ev_values e) -> compare_ev e (evmap i d L) = Ok (if quietD d (L i) g then CNone else CRetraction).
Proof.
  intros Hd HL Hg Hh. unfold compare_ev. rewrite convert_evmap. cbn [rbind].
  pose proof (holds_map d (L i) Hd) as Ht. unfold quietD.
  destruct (is_unobserved (map (fun v => (v, L i v)) d) && is_unobserved (ev_values e)) eqn:E1.
  - apply andb_true_iff in E1. destruct E1 as [A B]. rewrite (unobserved_holds d (L i)) in A by auto. rewrite (unobserved_holds d g) in B by auto.
    rewrite (proj2 (all_ones d (L i) g)) by auto. reflexivity.
  - assert (E1' : forallb (fun v => qeqb 1 (L i v) && qeqb 1 (g v)) d = false).
    { destruct (forallb (fun v => qeqb 1 (L i v) && qeqb 1 (g v)) d) eqn:E; auto. apply all_ones in E. destruct E as [A B].
      apply (unobserved_holds d (L i) _ Hd HL Ht) in A. apply (unobserved_holds d g _ Hd Hg Hh) in B. rewrite A, B in E1. discriminate. }
    rewrite E1'. cbn [orb]. destruct (observed_holds d (L i) _ Hd Ht) as [A1 A2]. destruct (observed_holds d g _ Hd Hh) as [B1 B2].
    destruct (is_observed (map (fun v => (v, L i v)) d) && is_observed (ev_values e)) eqn:E2.
    + apply andb_true_iff in E2. destruct E2 as [A B].
      apply A1 in A. apply B1 in B. destruct A as [y Ey]. destruct B as [z Ez]. rewrite (A2 y Ey), (B2 z Ez). cbn [rbind]. unfold soleD. rewrite Ey, Ez.
      change (@eqb string EqB_string y z) with (String.eqb y z). destruct (String.eqb y z); auto.
    + assert (Es : match soleD (L i) d, soleD g d with Some y, Some z => String.eqb y z | _, _ => false end = false).
      { unfold soleD. destruct (ones (L i) d) as [|y [|]] eqn:Ey; auto. destruct (ones g d) as [|z [|]] eqn:Ez; auto.
        rewrite (proj2 A1), (proj2 B1) in E2 by eauto. discriminate. }
      rewrite Es. auto.
Qed.

Lemma quiet_eq N L e : quiet N L e = quietD (dom N (ev_node e)) (L (ev_node e)) (like_of e).
Proof. reflexivity. Qed.
Lemma quietD_ext d f f' g g' : (forall v, In v d -> f v = f' v) -> (forall v, In v d -> g v = g' v) -> quietD d f g = quietD d f' g'.
Proof.
  intros H1 H2. unfold quietD. assert (Es : forall f f', (forall v, In v d -> f v = f' v) -> soleD f d = soleD f' d).
  { intros h h' H. unfold soleD, ones. rewrite (filter_ext_in _ (fun v => qeqb 1 (h' v))); auto. intros v Hv. rewrite H; auto. }
  rewrite (Es f f'), (Es g g') by auto. f_equal. clear Es. induction d as [|x d IH]; simpl; auto. rewrite (H1 x), (H2 x) by (left; auto). rewrite IH; auto; intros; [apply H1|apply H2]; right; auto.
Qed.

Section Shown.
  Context (N : net) (nm : Z -> string) (HV : NoDup (vars N)) (Hnm : NoDup (map nm (vars N))).
  Context (HD : forall i, In i (vars N) -> NoDup (dom N i) /\ dom N i <> []).
  Notation stored := (stored N nm).

  (** stored likelihoods [L]; potentials computed from [S] *)
  Record shows (L S : likelihood) (j : jtree) : Prop := {
    sw_st : stored L j;
    sw_live : exists ev, live N nm S (set_jevid j ev);
    sw_unit : unitL N S }.

  Lemma set_jevid_id j : set_jevid j (jt_evid j) = j. Proof. destruct j; auto. Qed.
  Lemma live_shows L j : live N nm L j -> unitL N L -> shows L L j.
  Proof. clear. intros H HU. constructor; auto. apply live_stored; auto. exists (jt_evid j). rewrite set_jevid_id. auto. Qed.

  Lemma change_exact L j es es' : stored L j -> Forall (known N) es -> Forall2 (valid N) es es' ->
    get_change_type j es' = Ok (if forallb (quiet N L) es then CNone else CRetraction).
  Proof using HD.
    clear Hnm HV. intros HS HK HF. unfold get_change_type.
    assert (H : mapM (fun e => pot <- dgetE (jt_evid j) (ev_node e) ;; compare_ev e pot) es' = Ok (map (fun e => if quiet N L e then CNone else CRetraction) es)).
    { revert HK. induction HF as [|e e' es es' [V1 V2] F IH]; intros HK; auto. inversion HK as [|? ? K1 K2]; subst. destruct K1 as [Ki _]. destruct (HD _ Ki) as [D1 _].
      cbn [mapM]. unfold dgetE at 1. rewrite V1, (stored_get N nm L j) by auto. cbn [rbind].
      rewrite (compare_exact e' (ev_node e) (dom N (ev_node e)) L (like_of e)); auto.
      - cbn [rbind]. rewrite IH by auto. reflexivity.
      - intros v Hv. apply (st_unit _ _ _ _ HS); auto.
      - intros v Hv. apply like_range. }
    rewrite H. cbn [rbind]. clear. induction es as [|e es IH]; auto. cbn [map existsb forallb]. destruct (quiet N L e); cbn [orb andb]; auto.
  Qed.

  Lemma store_only_evid es' : forall j j', store_evidences j es' = (j', None) -> exists ev, j' = set_jevid j ev.
  Proof.
    clear. induction es' as [|e es' IH]; intros j j' H; simpl in H. { inversion H; subst. exists (jt_evid j'). destruct j'; auto. }
    destruct (dget (jt_evid j) (ev_node e)); [|inversion H]. destruct (store_values l (ev_values e)) as [m' [x|]]; [inversion H|].
    apply IH in H. destruct H as [ev ->]. exists ev. auto.
  Qed.

  Lemma assims_other es : forall L i, (forall e, In e es -> ev_node e <> i) -> forall v, fold_left assimilate es L i v = L i v.
  Proof.
    clear. induction es as [|e es IH]; intros L i H v; simpl; auto. rewrite IH by (intros; apply H; right; auto). unfold assimilate.
    destruct (Z.eqb_spec i (ev_node e)) as [->|]; auto. exfalso. apply (H e); auto. left; auto.
  Qed.
  Lemma assims_cases es : forall L i, (forall e, In e es -> ev_node e <> i) \/ exists e, In e es /\ ev_node e = i /\ forall v, fold_left assimilate es L i v = like_of e v.
  Proof.
    clear. induction es as [|e es IH]; intros L i; simpl. { left. intros e []. }
    destruct (IH (assimilate L e) i) as [H|[e' [H1 [H2 H3]]]]; [|right; exists e'; auto].
    destruct (Z.eq_dec (ev_node e) i) as [<-|Hn].
    - right. exists e. split; auto. split; auto. intros v. rewrite assims_other by auto. unfold assimilate. rewrite Z.eqb_refl. auto.
    - left. intros e' [<-|He]; auto.
  Qed.

  Lemma quiet_ones L e : quiet N L e = true -> (forall v, In v (dom N (ev_node e)) -> like_of e v = 1) -> forall v, In v (dom N (ev_node e)) -> L (ev_node e) v = 1.
  Proof.
    clear. rewrite quiet_eq. unfold quietD. intros H H1 v Hv. apply orb_true_iff in H. destruct H as [H|H].
    - apply all_ones in H. apply H; auto.
    - unfold soleD in H. destruct (ones (L (ev_node e)) (dom N (ev_node e))) as [|y [|]] eqn:Ey; try discriminate.
      destruct (ones (like_of e) (dom N (ev_node e))) as [|z [|]] eqn:Ez; try discriminate. apply String.eqb_eq in H. subst z.
      assert (Hy : In v (ones (like_of e) (dom N (ev_node e)))) by (apply ones_In; auto). rewrite Ez in Hy. destruct Hy as [<-|[]].
      assert (Hy : In y (ones (L (ev_node e)) (dom N (ev_node e)))) by (rewrite Ey; left; auto). apply ones_In in Hy. tauto.
  Qed.

  Theorem update_shows0 o L S j es : ord_ok o -> shows L S j -> Forall (known N) es ->
    exists j', update_evidences o j es = (j', None) /\
      shows (fold_left assimilate es L) (if forallb (quiet N L) es then S else fold_left assimilate es L) j' /\ jt_nodes j' = jt_nodes j.
  Proof using HV HD.
    intros Ho HW HK. pose proof (sw_st _ _ _ HW) as HS. destruct (validate_all N HD es HK) as [es' [E1 E2]].
    destruct (store_all N nm HD es es' E2 L j HS HK) as [j' [J1 [J2 J3]]].
    unfold update_evidences. rewrite E1, (change_exact L j es es' HS HK E2), J1. unfold notify. rewrite (st_lis _ _ _ _ J2). destruct (forallb (quiet N L) es) eqn:Eq.
    - exists j'. split; auto. split; auto. destruct (store_only_evid _ _ _ J1) as [ev ->]. constructor; auto.
      + destruct (sw_live _ _ _ HW) as [ev' Hl]. exists ev'. exact Hl.
      + apply (sw_unit _ _ _ HW).
    - destruct (infer_live0 N nm HV o j' (fold_left assimilate es L) Ho (st_net _ _ _ _ J2)) as [j2 [I1 [I2 I3]]].
      + apply efull_egood. apply J2.
      + intros i v Hi Hv. apply (st_unit _ _ _ _ J2); auto.
      + change (j0 <- initialize j' ;; propagate o j0) with (infer o j'). rewrite I1.
        assert (El : jt_listener j2 = true) by (rewrite (sm_l _ _ I3); apply J2). rewrite set_listener_id in I2 by auto.
        exists j2. split; auto. split; [|rewrite (sm_n _ _ I3); auto]. apply live_shows; auto. apply J2.
  Qed.

  Lemma shows_agree L L' S S' j : shows L S j -> agree N L' L -> agree N S' S -> shows L' S' j.
  Proof.
    clear. intros H A B. destruct (sw_st _ _ _ H) as [S1 S2 S3 S4]. constructor.
    - constructor; auto.
      + intros i Hi. rewrite (S2 i Hi). f_equal. apply evmap_ext. intros v Hv. symmetry. apply A; auto. apply (jn_ids _ _ _ S1); auto.
      + intros i v Hi Hv. rewrite A by auto. auto.
    - destruct (sw_live _ _ _ H) as [ev Hl]. exists ev. eapply live_agree; eauto.
    - intros i v Hi Hv. rewrite B by auto. apply (sw_unit _ _ _ H); auto.
  Qed.

  Lemma forallb_same {A B} (f : A -> bool) (g : B -> bool) l l' : (forall x, In x l -> exists y, In y l' /\ f x = g y) -> (forall y, In y l' -> exists x, In x l /\ f x = g y) ->
    forallb f l = forallb g l'.
  Proof.
    clear. intros H1 H2. destruct (forallb f l) eqn:E1, (forallb g l') eqn:E2; auto; exfalso.
    - rewrite forallb_forall in E1. assert (E : forallb g l' = true); [|congruence]. apply forallb_forall. intros y Hy. destruct (H2 y Hy) as [x [Hx <-]]. auto.
    - rewrite forallb_forall in E2. assert (E : forallb f l = true); [|congruence]. apply forallb_forall. intros y Hy. destruct (H1 y Hy) as [x [Hx ->]]. auto.
  Qed.

  Lemma unobserve_shows0 o L S j ns : ord_ok o -> shows L S j -> Forall (node_in N) ns ->
    exists j', unobserve o j ns = (j', None) /\
      shows (withdraw L (map n_id ns)) (if forallb (quiet N L) (map (fun n => nothing N (n_id n)) ns) then S else withdraw L (map n_id ns)) j' /\ jt_nodes j' = jt_nodes j.
  Proof using HV HD.
    intros Ho HW HF. pose proof HF as HF'. unfold unobserve. rewrite Forall_forall in HF.
    destruct (update_shows0 o L S j (map unobserved_evidence ns) Ho HW) as [j' [J1 [J2 J3]]].
    - apply Forall_forall. intros e He. apply in_map_iff in He. destruct He as [n [<- Hn]]. destruct (HF n Hn) as [H1 H2]. unfold unobserved_evidence. rewrite H2. apply (unobs_known N HD (n_id n) H1).
    - exists j'. split; auto. split; auto. eapply shows_agree; [exact J2|apply agree_sym, unobs_assims; auto|].
      assert (Eq : forallb (quiet N L) (map (fun n => nothing N (n_id n)) ns) = forallb (quiet N L) (map unobserved_evidence ns)).
      { clear. induction ns as [|n ns IH]; auto. cbn [map forallb]. rewrite IH. reflexivity. }
      rewrite Eq. destruct (forallb (quiet N L) (map unobserved_evidence ns)); [apply agree_refl|apply agree_sym, unobs_assims; auto].
  Qed.

  Theorem call_shows0 o L S j c : ord_ok o -> shows L S j -> valid_call N c ->
    exists j', do_call o j c = (j', None) /\ shows (fst (step N (L, S) c)) (snd (step N (L, S) c)) j' /\ jt_nodes j' = jt_nodes j.
  Proof using HV HD.
    intros Ho HW Hv. pose proof (sw_st _ _ _ HW) as HS. destruct c as [es|ns| |e]; unfold step; cbn [fst snd effect about do_call valid_call] in *.
    - apply update_shows0; auto.
    - apply unobserve_shows0; auto.
    - unfold unobserve_all. destruct (nodes_jnet N nm j (st_net _ _ _ _ HS) (jt_bbn_ids j)) as [ns [E1 [E2 E3]]]. { intros i Hi. apply (jn_ids _ _ _ (st_net _ _ _ _ HS)); auto. }
      rewrite E1. destruct (unobserve_shows0 o L S j ns Ho HW E2) as [j' [J1 [J2 J3]]]. exists j'. split; auto. split; auto.
      assert (A : agree N no_evidence (withdraw L (map n_id ns))).
      { intros i v Hi _. unfold withdraw. rewrite E3. rewrite (proj2 (mem_In _ _)); auto. apply (jn_ids _ _ _ (st_net _ _ _ _ HS)); auto. }
      eapply shows_agree; [exact J2|exact A|].
      rewrite (forallb_same (quiet N L) (quiet N L) (map (nothing N) (vars N)) (map (fun n => nothing N (n_id n)) ns)).
      + destruct (forallb (quiet N L) (map (fun n => nothing N (n_id n)) ns)); [apply agree_refl|exact A].
      + intros x Hx. exists x. split; auto. apply in_map_iff in Hx. destruct Hx as [i [<- Hi]]. rewrite <- map_map. rewrite E3. apply in_map. apply (jn_ids _ _ _ (st_net _ _ _ _ HS)); auto.
      + intros x Hx. exists x. split; auto. rewrite <- map_map in Hx. rewrite E3 in Hx. apply in_map_iff in Hx. destruct Hx as [i [<- Hi]]. apply in_map. apply (jn_ids _ _ _ (st_net _ _ _ _ HS)); auto.
    - destruct Hv as [Hk Ho1]. pose proof Hk as Hk'. destruct Hk' as [Ki [Kd _]]. destruct (HD _ Ki) as [D1 D2].
      unfold set_observation. rewrite (stored_get N nm L j) by auto. rewrite convert_evmap. cbv zeta.
      assert (Ep : map fst (filter (fun p : string * Qc => qeqb 1 (snd p)) (map (fun v => (v, L (ev_node e) v)) (dom N (ev_node e)))) = ones (L (ev_node e)) (dom N (ev_node e))).
      { unfold ones. clear. induction (dom N (ev_node e)) as [|x l IH]; simpl; auto. destruct (qeqb 1 (L (ev_node e) x)); simpl; congruence. }
      rewrite Ep.
      assert (Hup : toggles N L e = false -> exists j', update_evidences o j [e] = (j', None) /\ shows (if toggles N L e then withdraw L [ev_node e] else assimilate L e)
         (if forallb (quiet N L) (if toggles N L e then [nothing N (ev_node e)] else [e]) then S else if toggles N L e then withdraw L [ev_node e] else assimilate L e) j' /\ jt_nodes j' = jt_nodes j).
      { intros Et. rewrite Et. apply (update_shows0 o L S j [e] Ho HW). constructor; auto. }
      assert (Hun : toggles N L e = true -> exists j', update_evidences o j [mkEv (ev_node e) (ev_dom e) UNOBSERVE (fold_left (fun m v => dset m v 1) (ev_dom e) [])] = (j', None) /\
         shows (if toggles N L e then withdraw L [ev_node e] else assimilate L e)
         (if forallb (quiet N L) (if toggles N L e then [nothing N (ev_node e)] else [e]) then S else if toggles N L e then withdraw L [ev_node e] else assimilate L e) j' /\ jt_nodes j' = jt_nodes j).
      { intros Et. rewrite Et, Kd. destruct (update_shows0 o L S j [unobs (ev_node e) (dom N (ev_node e))] Ho HW) as [j' [J1 [J2 J3]]].
        - constructor; auto. apply unobs_known; auto.
        - exists j'. split; auto. split; auto.
          assert (A : agree N (withdraw L [ev_node e]) (fold_left assimilate [unobs (ev_node e) (dom N (ev_node e))] L)).
          { intros i v _ _. simpl. unfold assimilate, withdraw, mem. simpl. rewrite orb_false_r. auto. }
          eapply shows_agree; [exact J2|exact A|].
          change (forallb (quiet N L) [nothing N (ev_node e)]) with (forallb (quiet N L) [unobs (ev_node e) (dom N (ev_node e))]).
          destruct (forallb (quiet N L) [unobs (ev_node e) (dom N (ev_node e))]); [apply agree_refl|exact A]. }
      unfold toggles in Hup at 1. unfold toggles in Hun at 1. fold (ones (L (ev_node e)) (dom N (ev_node e))) in *. unfold first_one in *.
      destruct (ones (L (ev_node e)) (dom N (ev_node e))) as [|y [|z l]]; try (apply Hup; reflexivity).
      destruct (filter (fun p : string * Qc => qeqb 1 (snd p)) (ev_values e)) as [|[k q] r]; [congruence|]. cbn [map fst].
      change (@eqb string EqB_string y k) with (String.eqb y k). destruct (String.eqb y k); auto.
  Qed.

  Theorem calls_shows0 h : Forall (fun p => ord_ok (fst p)) h -> forall s j, shows (fst s) (snd s) j -> Forall (valid_call N) (map snd h) ->
    exists j', do_calls j h = (j', None) /\ shows (fst (fold_left (step N) (map snd h) s)) (snd (fold_left (step N) (map snd h) s)) j' /\ jt_nodes j' = jt_nodes j.
  Proof using HV HD.
    induction 1 as [|[o c] h Ho Hh IH]; intros [L S] j HW Hv; simpl in *. { exists j; auto. }
    inversion Hv as [|? ? V1 V2]; subst. destruct (call_shows0 o L S j c Ho HW V1) as [j1 [J1 [J2 J3]]]. rewrite J1.
    destruct (IH (step N (L, S) c) j1 J2 V2) as [j' [K1 [K2 K3]]]. exists j'. split; auto. split; auto. congruence.
  Qed.
  Theorem update_shows o L S j es : ord_ok o -> shows L S j -> Forall (known N) es ->
    exists j', update_evidences o j es = (j', None) /\
      shows (fold_left assimilate es L) (if forallb (quiet N L) es then S else fold_left assimilate es L) j' /\ jt_nodes j' = jt_nodes j.
  Proof using HV Hnm HD. exact (update_shows0 o L S j es). Qed.
  Lemma unobserve_shows o L S j ns : ord_ok o -> shows L S j -> Forall (node_in N) ns ->
    exists j', unobserve o j ns = (j', None) /\
      shows (withdraw L (map n_id ns)) (if forallb (quiet N L) (map (fun n => nothing N (n_id n)) ns) then S else withdraw L (map n_id ns)) j' /\ jt_nodes j' = jt_nodes j.
  Proof using HV Hnm HD. exact (unobserve_shows0 o L S j ns). Qed.
  Theorem call_shows o L S j c : ord_ok o -> shows L S j -> valid_call N c ->
    exists j', do_call o j c = (j', None) /\ shows (fst (step N (L, S) c)) (snd (step N (L, S) c)) j' /\ jt_nodes j' = jt_nodes j.
  Proof using HV Hnm HD. exact (call_shows0 o L S j c). Qed.
  Theorem calls_shows h : Forall (fun p => ord_ok (fst p)) h -> forall s j, shows (fst s) (snd s) j -> Forall (valid_call N) (map snd h) ->
    exists j', do_calls j h = (j', None) /\ shows (fst (fold_left (step N) (map snd h) s)) (snd (fold_left (step N) (map snd h) s)) j' /\ jt_nodes j' = jt_nodes j.
  Proof using HV Hnm HD. exact (calls_shows0 h). Qed.
End Shown.

Lemma step_fst N h : forall s, fst (fold_left (step N) h s) = fold_left (effect N) h (fst s).
Proof. induction h as [|c h IH]; intros s; simpl; auto. rewrite IH. reflexivity. Qed.

(** as long as all likelihoods stored for a variable are 1 that is shown *)
Lemma effect_cases N L c i : (forall v, effect N L c i v = L i v) \/ (exists e, In e (about N L c) /\ ev_node e = i /\ forall v, effect N L c i v = like_of e v) \/ ~ In i (vars N).
Proof.
  destruct c as [es|ns| |e]; cbn [effect about].
  - destruct (assims_cases es L i) as [H|H]; [left|right; left; auto]. intros v. apply assims_other; auto.
  - unfold withdraw. destruct (mem i (map n_id ns)) eqn:E; [|left; auto]. apply mem_In, in_map_iff in E. destruct E as [n [<- Hn]]. right; left. exists (nothing N (n_id n)). split; auto.
    apply in_map_iff. exists n; auto.
  - destruct (in_dec Z.eq_dec i (vars N)) as [Hi|Hi]; [|auto]. right; left. exists (nothing N i). split; auto. apply in_map; auto.
  - destruct (toggles N L e).
    + unfold withdraw, mem. simpl. destruct (Z.eqb_spec i (ev_node e)) as [->|]; simpl; [|left; auto]. right; left. exists (nothing N (ev_node e)). split; [left|]; auto.
    + unfold assimilate. destruct (Z.eqb_spec i (ev_node e)) as [->|]; [|left; auto]. right; left. exists e. split; [left|]; auto.
Qed.
Lemma step_ones N h : forall s, (forall i, In i (vars N) -> (forall v, In v (dom N i) -> fst s i v = 1) -> forall v, In v (dom N i) -> snd s i v = 1) ->
  forall i, In i (vars N) -> (forall v, In v (dom N i) -> fst (fold_left (step N) h s) i v = 1) -> forall v, In v (dom N i) -> snd (fold_left (step N) h s) i v = 1.
Proof.
  induction h as [|c h IH]; intros [L S] H; simpl in *; auto. apply IH. clear IH h. unfold step. cbn [fst snd]. destruct (forallb (quiet N L) (about N L c)) eqn:Eq; [|auto].
  rewrite forallb_forall in Eq. intros i Hi Hones. apply H; auto. destruct (effect_cases N L c i) as [Hn|[[e [He [<- Hl]]]|Hn]]; [| |contradiction].
  - intros v Hv. rewrite <- Hn. auto.
  - intros v Hv. apply (quiet_ones N L e); auto. intros w Hw. rewrite <- Hl. auto.
Qed.
