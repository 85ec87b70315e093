(** Statements about evidence: validation, change detection, rejected evidence, set_observation. *)
From Verif Require Import Py M_Graph M_Node M_Pptc Spec SpecNet SpecEv L_Base L_Init L_Post L_Read L_Build L_Apply L_Exact L_Net L_Evid L_Hist L_Claims L_Shown L_P1.
Open Scope nat_scope.

(** ** normal forms *)
Lemma c14 e : NoDup (ev_dom e) -> ev_dom e <> [] -> NoDup (dkeys (ev_values e)) -> incl (dkeys (ev_values e)) (ev_dom e) ->
  exists m, validate e = Ok (mkEv (ev_node e) (ev_dom e) (ev_type e) m) /\ NoDup (dkeys m) /\ (forall v, In v (dkeys m) <-> In v (ev_dom e)) /\
    match ev_type e with
    | VIRTUAL => forall v, In v (ev_dom e) -> exists q, dget m v = Some q /\
        ((supplied e v < 0)%Qc -> q = 0%Qc) /\ ((0 <= supplied e v)%Qc -> (supplied e v <= 1)%Qc -> q = supplied e v) /\ ((1 < supplied e v)%Qc -> q = 1%Qc)
    | FINDING =>
        (exists v, In v (ev_dom e) /\ dget m v = Some 1%Qc) /\
        forall v, In v (ev_dom e) -> exists q, dget m v = Some q /\ (q = 0%Qc \/ q = 1%Qc) /\
          (q = 1%Qc <-> (0 < supplied e v)%Qc \/ forall w, In w (ev_dom e) -> (supplied e w <= 0)%Qc)
    | OBSERVATION => exists y, In y (ev_dom e) /\ dget m y = Some 1%Qc /\ (forall v, In v (ev_dom e) -> v <> y -> dget m v = Some 0%Qc) /\
        (forall v, In v (ev_dom e) -> (supplied e v <= supplied e y)%Qc) /\
        (forall l1 l2, considered e = l1 ++ y :: l2 -> forall v, In v l1 -> (supplied e v < supplied e y)%Qc)
    | UNOBSERVE => forall v, In v (ev_dom e) -> dget m v = Some 1%Qc
    end.
Proof.
  intros H1 H2 H3 H4. set (N := mkNet [ev_node e] (fun _ => ev_dom e) (fun _ => []) (fun _ => [])).
  destruct (validate_known N e) as [m [A1 [A2 [A3 A4]]]]. { intros i _. split; auto. } { split; [left; auto|]. split; auto. }
  simpl in *. exists m. split; auto. split; auto. split; auto. unfold like_of in A4. destruct (ev_type e) eqn:Et.
  - intros v Hv. rewrite (A4 v Hv). eexists. split; [reflexivity|]. destruct (qltb (supplied e v) 0%Qc) eqn:E1.
    + apply qltb_lt in E1. split; auto. split; intros; exfalso; [apply (Qclt_not_le _ _ E1); auto|].
      assert (0 < 1)%Qc by reflexivity. apply (Qclt_not_le _ _ E1). apply Qclt_le_weak. eapply Qclt_trans; eauto.
    + apply qltb_false in E1. split. { intros Hx. exfalso. apply (Qclt_not_le _ _ Hx); auto. }
      destruct (qltb 1%Qc (supplied e v)) eqn:E2; split; auto.
      * apply qltb_lt in E2. intros _ Hx. exfalso. apply (Qclt_not_le _ _ E2); auto.
      * apply qltb_false in E2. intros Hx. exfalso. apply (Qclt_not_le _ _ Hx); auto.
  - assert (G : forall v, In v (ev_dom e) -> dget m v = Some (if existsb (fun w => qltb 0%Qc (supplied e w)) (ev_dom e) then (if qltb 0%Qc (supplied e v) then 1%Qc else 0%Qc) else 1%Qc)) by auto.
    destruct (existsb (fun w => qltb 0%Qc (supplied e w)) (ev_dom e)) eqn:Ex.
    + apply existsb_exists in Ex. destruct Ex as [w [W1 W2]]. split.
      * exists w. split; auto. rewrite (G w W1), W2. auto.
      * intros v Hv. rewrite (G v Hv). eexists. split; [reflexivity|]. destruct (qltb 0%Qc (supplied e v)) eqn:E1.
        { apply qltb_lt in E1. split; auto. split; auto. }
        { split; auto. apply qltb_false in E1. split. intros E; discriminate E. intros [Hl|Ha]; exfalso.
          - apply (Qclt_not_le _ _ Hl); auto.
          - apply qltb_lt in W2. apply (Qclt_not_le _ _ W2). auto. }
    + assert (Hn : forall w, In w (ev_dom e) -> (supplied e w <= 0)%Qc).
      { intros w Hw. destruct (qltb 0%Qc (supplied e w)) eqn:E1; [|apply qltb_false; auto]. exfalso.
        assert (Hx : existsb (fun w => qltb 0%Qc (supplied e w)) (ev_dom e) = true) by (apply existsb_exists; eauto). congruence. }
      split.
      * destruct (ev_dom e) as [|w l] eqn:Ed; [congruence|]. exists w. split; [left; auto|]. apply G. left; auto.
      * intros v Hv. rewrite (G v Hv). eexists. split; [reflexivity|]. split; auto. split; auto.
  - set (y := best (supplied e) (considered e)) in *.
    assert (Hc : considered e <> []). { intros E. destruct (ev_dom e) as [|w l] eqn:Ed; [congruence|]. assert (Hw : In w (considered e)) by (apply considered_In; rewrite Ed; right; left; auto). rewrite E in Hw. destruct Hw. }
    assert (Hy : In y (ev_dom e)). { pose proof (best_In (supplied e) _ Hc) as Hb. fold y in Hb. apply considered_In in Hb. destruct Hb; auto. }
    exists y. split; auto. split. { rewrite (A4 y Hy), String.eqb_refl. auto. }
    split. { intros v Hv Hn. rewrite (A4 v Hv). destruct (String.eqb_spec v y); [congruence|auto]. }
    split. { intros v Hv. apply best_max. apply considered_In; auto. }
    intros l1 l2 E v Hv. eapply (best_first (supplied e) (considered e)); eauto. apply considered_NoDup; auto.
  - auto.
Qed.

Lemma app_calls h1 h2 : calls (h1 ++ h2) = calls h1 ++ calls h2.
Proof. unfold calls. apply map_app. Qed.
Lemma valid_app N h1 h2 : valid_history N (h1 ++ h2) <-> valid_history N h1 /\ valid_history N h2.
Proof. unfold valid_history. rewrite app_calls, !Forall_app. tauto. Qed.
Lemma valid_one N o c : ord_ok o -> valid_call N c -> valid_history N [(o, c)].
Proof. intros H1 H2. split; (constructor; [auto|constructor]). Qed.
Lemma in_force_snoc N h c : in_force N (h ++ [c]) = effect N (in_force N h) c.
Proof. unfold in_force. rewrite fold_left_app. reflexivity. Qed.

(** ** stored evidence of a session *)
Lemma session_stored ops o h : well_shaped ops -> ord_ok o -> valid_history (net_of ops) h ->
  exists j, session o ops h = Ok j /\ stored (net_of ops) (net_name ops) (in_force (net_of ops) (calls h)) j.
Proof.
  intros HW Ho Hh. destruct (session_shows ops o h HW Ho Hh) as [b [j [j' [A1 [A2 [A3 _]]]]]]. exists j'. split; [eapply session_eq; eauto|]. apply A3.
Qed.

(** ** change detection *)
Lemma c16_iff ops o h es j : well_shaped ops -> ord_ok o -> valid_history (net_of ops) h -> Forall (known (net_of ops)) es ->
  session o ops h = Ok j ->
  let N := net_of ops in let L := in_force N (calls h) in
  exists es', mapM validate es = Ok es' /\
    (get_change_type j es' = Ok CNone \/ get_change_type j es' = Ok CRetraction) /\
    (get_change_type j es' = Ok CNone <->
       forall e, In e es -> let i := ev_node e in
         (forall v, In v (dom N i) -> L i v = 1%Qc /\ like_of e v = 1%Qc) \/
         (exists y, only_one N (L i) i y /\ only_one N (like_of e) i y)).
Proof.
  intros HW Ho Hh HK HJ N L. destruct (session_stored ops o h HW Ho Hh) as [j' [A1 A2]]. rewrite HJ in A1. injection A1 as <-.
  destruct (validate_all N (ws_dom _ HW) es HK) as [es' [E1 E2]]. exists es'. split; auto.
  rewrite (change_exact N (net_name ops) (ws_dom _ HW) L j es es' A2 HK E2).
  split. { destruct (forallb (quiet N L) es); auto. }
  assert (G : forall e, In e es -> (quiet N L e = true <-> (forall v, In v (dom N (ev_node e)) -> L (ev_node e) v = 1%Qc /\ like_of e v = 1%Qc) \/
         (exists y, only_one N (L (ev_node e)) (ev_node e) y /\ only_one N (like_of e) (ev_node e) y))).
  { intros e He. rewrite Forall_forall in HK. destruct (HK e He) as [K1 _]. destruct (ws_dom _ HW _ K1) as [D1 _]. change (NoDup (dom N (ev_node e))) in D1.
    rewrite quiet_eq. unfold quietD. rewrite orb_true_iff, all_ones. split.
    - intros [[Ha Hb]|Hs]; [left; auto|]. right. unfold soleD in Hs.
      destruct (ones (L (ev_node e)) (dom N (ev_node e))) as [|y [|]] eqn:Ey; try discriminate.
      destruct (ones (like_of e) (dom N (ev_node e))) as [|z [|]] eqn:Ez; try discriminate. apply String.eqb_eq in Hs. subst z.
      exists y. split; apply only_one_ones; auto.
    - intros [Ha|[y [Y1 Y2]]]; [left; split; intros v Hv; apply Ha; auto|]. right. apply only_one_ones in Y1; auto. apply only_one_ones in Y2; auto.
      unfold soleD. rewrite Y1, Y2. apply String.eqb_refl. }
  split.
  - intros H e He. apply G; auto. destruct (forallb (quiet N L) es) eqn:F; [|discriminate]. rewrite forallb_forall in F. auto.
  - intros H. replace (forallb (quiet N L) es) with true; auto. symmetry. apply forallb_forall. intros e He. apply G; auto.
Qed.

Lemma c16_part ops o h es o' j es' : well_shaped ops -> ord_ok o -> valid_history (net_of ops) h -> Forall hard_call (calls h) ->
  Forall (known (net_of ops)) es -> Forall hard es -> session o ops h = Ok j -> mapM validate es = Ok es' -> get_change_type j es' = Ok CNone ->
  update_evidences o' j es = (j, None).
Proof.
  intros HW Ho Hh Hhd HK Hes HJ Ev HC. destruct (c16_iff ops o h es j HW Ho Hh HK HJ) as [es1 [E1 [_ E2]]]. rewrite Ev in E1. injection E1 as <-.
  destruct (session_stored ops o h HW Ho Hh) as [j' [A1 A2]]. rewrite HJ in A1. injection A1 as <-.
  set (N := net_of ops) in *. set (L := in_force N (calls h)) in *.
  assert (HB : bitL N L).
  { unfold L, in_force. assert (G : forall hh L0, Forall hard_call hh -> bitL N L0 -> bitL N (fold_left (effect N) hh L0)).
    { induction hh as [|c hh IH]; intros L0 F B; simpl; auto. inversion F; subst. apply IH; auto. apply bit_effect; auto. }
    apply G; auto. intros i v _ _. right; reflexivity. }
  destruct (validate_all N (ws_dom _ HW) es HK) as [es1 [E3 E4]]. rewrite Ev in E3. injection E3 as <-.
  assert (HA : forall e, In e es -> forall v, In v (dom N (ev_node e)) -> L (ev_node e) v = like_of e v).
  { intros e He v Hv. rewrite Forall_forall in HK, Hes. destruct (HK e He) as [K1 _]. destruct (proj1 E2 HC e He) as [Ha|[y [Y1 Y2]]].
    - destruct (Ha v Hv). congruence.
    - destruct (Qc_eq_dec (L (ev_node e) v) (like_of e v)) as [|Hn]; auto. exfalso. apply (bit_noticed N L e HB (Hes e He) K1). exists y. split; auto. split; auto. exists v; auto. }
  unfold update_evidences. rewrite Ev, HC, (store_noop N (net_name ops) (ws_dom _ HW) es es' E4 L j A2 HK HA). unfold notify. rewrite (st_lis _ _ _ _ A2). auto.
Qed.

(** ** evidence is only stored for nodes of the tree *)
Definition evgrow (ids : list Z) (j j' : jtree) : Prop :=
  jt_nodes j' = jt_nodes j /\ forall k, In k (dkeys (jt_evid j')) -> In k (dkeys (jt_evid j)) \/ In k ids.
Lemma evgrow_refl ids j : evgrow ids j j. Proof. split; auto. Qed.
Lemma evgrow_trans ids j j1 j2 : evgrow ids j j1 -> evgrow ids j1 j2 -> evgrow ids j j2.
Proof. intros [A1 A2] [B1 B2]. split; [congruence|]. intros k Hk. destruct (B2 k Hk); auto. Qed.
Lemma evgrow_foldM {A} (f : jtree -> A -> res jtree) ids l : (forall j x j', In x l -> f j x = Ok j' -> evgrow ids j j') -> forall j j', foldM f l j = Ok j' -> evgrow ids j j'.
Proof.
  induction l as [|x l IH]; intros H j j' E; simpl in E. { injection E as <-. apply evgrow_refl. }
  apply rbind_Ok in E. destruct E as [j1 [E1 E2]]. eapply evgrow_trans; [eapply H; [left; auto|exact E1]|]. apply IH; auto. intros. eapply H; [right; eauto|eauto].
Qed.
Lemma evgrow_fold {A} (f : jtree -> A -> jtree) ids l : (forall j x, In x l -> evgrow ids j (f j x)) -> forall j, evgrow ids j (fold_left f l j).
Proof.
  induction l as [|x l IH]; intros H j; simpl. { apply evgrow_refl. }
  eapply evgrow_trans; [apply H; left; auto|]. apply IH. intros. apply H; right; auto.
Qed.
Lemma evgrow_get j i v j' p : get_evidence j i v = (j', p) -> evgrow [i] j j'.
Proof.
  unfold get_evidence. destruct (dget (dgets (jt_evid j) i) v); intros E; injection E as <- _; (split; [reflexivity|]); intros k Hk; simpl in Hk;
    apply dkeys_dset_In in Hk; destruct Hk as [Hk|Hk]; auto; right; left; auto.
Qed.
Lemma evgrow_mono ids ids' j j' : incl ids ids' -> evgrow ids j j' -> evgrow ids' j j'.
Proof. intros Hi [A B]. split; auto. intros k Hk. destruct (B k Hk); auto. Qed.
Lemma evgrow_initialize j j' : initialize j = Ok j' -> evgrow (jt_bbn_ids j) j j'.
Proof.
  unfold initialize. intros E. set (ids := jt_bbn_ids j) in *.
  assert (H1 : evgrow ids j (init_pots j)).
  { unfold init_pots. eapply evgrow_trans; [|apply evgrow_fold; intros; (split; [reflexivity|intros; auto])]. apply evgrow_fold. intros; (split; [reflexivity|auto]). }
  assert (Ei : jt_bbn_ids (init_pots j) = ids). { unfold jt_bbn_ids, jt_cliques. rewrite (proj1 H1). reflexivity. }
  rewrite Ei in E. apply rbind_Ok in E. destruct E as [j1 [E1 E2]]. eapply evgrow_trans; [exact H1|]. eapply evgrow_trans.
  - eapply evgrow_foldM; [|exact E1]. intros j0 i j2 Hi E. unfold init_node in E. apply rbind_Ok in E. destruct E as [[c j3] [E3 E]].
    assert (G3 : evgrow ids j0 j3).
    { unfold get_clique in E3. apply rbind_Ok in E3. destruct E3 as [n [_ E3]]. destruct (n_mclq n). injection E3 as _ <-; (split; [reflexivity|intros; auto]).
      destruct (isort cl_leb (find_cliques j0 i)); [discriminate|]. injection E3 as _ <-. (split; [reflexivity|intros; auto]). }
    apply rbind_Ok in E. destruct E as [p1 [_ E]]. apply rbind_Ok in E. destruct E as [n [_ E]]. destruct (n_pot n); [|discriminate]. injection E as <-. exact G3.
  - eapply evgrow_foldM; [|exact E2]. intros j0 i j2 Hi E. unfold init_evid in E. apply rbind_Ok in E. destruct E as [n [_ E]].
    apply (evgrow_mono [i]). { intros k [<-|[]]; auto. }
    eapply evgrow_foldM; [|exact E]. intros j3 v j4 _ E3. destruct (n_mclq n); [|discriminate]. apply rbind_Ok in E3. destruct E3 as [cp [_ E3]].
    destruct (get_evidence j3 i v) as [j5 p] eqn:Eg. injection E3 as <-. apply evgrow_get in Eg. exact Eg.
Qed.
Lemma evgrow_infer o j j' : infer o j = Ok j' -> evgrow (jt_bbn_ids j) j j'.
Proof.
  unfold infer. intros E. apply rbind_Ok in E. destruct E as [j1 [E1 E2]]. apply evgrow_initialize in E1. eapply evgrow_trans; [exact E1|].
  unfold propagate in E2. destruct (isort cl_leb (jt_cliques j1)); [discriminate|]. apply rbind_Ok in E2. destruct E2 as [s1 [_ E2]]. apply rbind_Ok in E2. destruct E2 as [s2 [_ E2]].
  injection E2 as <-. (split; [reflexivity|intros; auto]).
Qed.
Lemma evgrow_store es : forall j j' x, store_evidences j es = (j', x) -> evgrow [] j j'.
Proof.
  induction es as [|e es IH]; intros j j' x E; simpl in E. { injection E as <- _. (split; [reflexivity|intros; auto]). }
  destruct (dget (jt_evid j) (ev_node e)) as [m|] eqn:Em; [|injection E as <- _; (split; [reflexivity|intros; auto])].
  destruct (store_values m (ev_values e)) as [m' y].
  assert (G : evgrow [] j (set_jevid j (dset (jt_evid j) (ev_node e) m'))).
  { split; auto. intros k Hk. simpl in Hk. rewrite dkeys_dset_in in Hk by (eapply dget_Some_key; eauto). auto. }
  destruct y; [injection E as <- _; exact G|]. eapply evgrow_trans; [exact G|]. eapply IH; eauto.
Qed.
Lemma bbn_ids_grow ids j j' : evgrow ids j j' -> jt_bbn_ids j' = jt_bbn_ids j.
Proof. intros [E _]. unfold jt_bbn_ids, jt_cliques. rewrite E. auto. Qed.
Lemma evgrow_notify o c j j' x : notify o j c = (j', x) -> evgrow (jt_bbn_ids j) j j'.
Proof.
  unfold notify. destruct (jt_listener j); [|intros E; injection E as <- _; (split; [reflexivity|intros; auto])].
  destruct c.
  - intros E; injection E as <- _; (split; [reflexivity|intros; auto]).
  - destruct (propagate o j) as [j1|y] eqn:Ep; intros E; injection E as <- _; [|(split; [reflexivity|intros; auto])].
    unfold propagate in Ep. destruct (isort cl_leb (jt_cliques j)); [discriminate|]. apply rbind_Ok in Ep. destruct Ep as [s1 [_ E2]]. apply rbind_Ok in E2. destruct E2 as [s2 [_ E2]].
    injection E2 as <-. (split; [reflexivity|intros; auto]).
  - change (j0 <- initialize j ;; propagate o j0) with (infer o j). destruct (infer o j) as [j1|y] eqn:Ep; intros E; injection E as <- _; [|(split; [reflexivity|intros; auto])]. eapply evgrow_infer; eauto.
Qed.
Lemma evgrow_update o j es j' x : update_evidences o j es = (j', x) -> evgrow (jt_bbn_ids j) j j'.
Proof.
  unfold update_evidences. destruct (mapM validate es) as [es'|y]; [|intros E; injection E as <- _; (split; [reflexivity|intros; auto])].
  destruct (get_change_type j es'); [|intros E; injection E as <- _; (split; [reflexivity|intros; auto])].
  destruct (store_evidences j es') as [j1 [y|]] eqn:Es; apply evgrow_store in Es.
  - intros E; injection E as <- _. apply (evgrow_mono []); auto. intros k [].
  - intros E. apply evgrow_notify in E. rewrite (bbn_ids_grow _ _ _ Es) in E. eapply evgrow_trans; [|exact E]. apply (evgrow_mono []); auto. intros k [].
Qed.
Lemma evgrow_call o j c j' x : do_call o j c = (j', x) -> evgrow (jt_bbn_ids j) j j'.
Proof.
  destruct c as [es|ns| |e]; simpl.
  - apply evgrow_update.
  - apply evgrow_update.
  - unfold unobserve_all. destruct (mapM _ _); [apply evgrow_update|]. intros E; injection E as <- _; (split; [reflexivity|intros; auto]).
  - unfold set_observation. destruct (dget _ _); [|intros E; injection E as <- _; (split; [reflexivity|intros; auto])].
    destruct (convert l) as [pv|]; [|intros E; injection E as <- _; (split; [reflexivity|intros; auto])].
    destruct (map fst (filter (fun p => qeqb 1 (snd p)) pv)) as [|a [|]]; try apply evgrow_update.
    destruct (map fst (filter (fun p => qeqb 1 (snd p)) (ev_values e))) as [|b ?]; [intros E; injection E as <- _; (split; [reflexivity|intros; auto])|].
    destruct (eqb a b); apply evgrow_update.
Qed.
Lemma evgrow_calls h : forall j j' x, do_calls j h = (j', x) -> evgrow (jt_bbn_ids j) j j'.
Proof.
  induction h as [|[o c] h IH]; intros j j' x E; simpl in E. { injection E as <- _. (split; [reflexivity|intros; auto]). }
  destruct (do_call o j c) as [j1 [y|]] eqn:E1; apply evgrow_call in E1.
  - injection E as <- _. exact E1.
  - apply IH in E. rewrite (bbn_ids_grow _ _ _ E1) in E. eapply evgrow_trans; eauto.
Qed.

Lemma session_evid ops o h j : well_shaped ops -> ord_ok o -> session o ops h = Ok j -> forall i, ~ In i (vars (net_of ops)) -> dget (jt_evid j) i = None.
Proof.
  intros HW Ho HJ i Hi. unfold session in HJ. apply rbind_Ok in HJ. destruct HJ as [[b j1] [E1 E2]]. cbn [snd] in E2.
  destruct (do_calls j1 h) as [j2 [x|]] eqn:E3; [discriminate|]. injection E2 as <-. apply evgrow_calls in E3.
  destruct (apply_net (net_of ops) (net_name ops) (build ops) o (net_shape ops HW) (build_good ops) (ws_names _ HW) Ho (build_fresh ops HW)) as [j0 [j3 [A1 [A2 [A3 [A4 [A5 [A6 [A7 _]]]]]]]]].
  rewrite A6 in E1. injection E1 as _ <-. apply evgrow_infer in A4. apply dget_None. intros Hk.
  assert (Hb : forall k, In k (jt_bbn_ids j0) -> In k (vars (net_of ops))) by (intros k Hk'; apply (jn_ids _ _ _ A2); auto).
  apply Hi, Hb. destruct (proj2 E3 i Hk) as [H|H].
  - destruct (proj2 A4 i H) as [H'|H']; auto. rewrite A3 in H'. destruct H'.
  - change (jt_bbn_ids (set_jlistener j3 true)) with (jt_bbn_ids j3) in H. rewrite (bbn_ids_grow _ _ _ A4) in H. auto.
Qed.

(** ** rejected evidence *)
Lemma fold_dset_keys {V} (f : list (string * V) -> string -> V) l : forall m v, In v (dkeys (fold_left (fun m v => dset m v (f m v)) l m)) <-> In v (dkeys m) \/ In v l.
Proof.
  induction l as [|x l IH]; intros m v; simpl; [tauto|]. rewrite IH, dkeys_dset_In. intuition.
Qed.
Lemma fill_keys d : forall m v, In v (dkeys (fill_missing d m)) <-> In v (dkeys m) \/ In v d.
Proof.
  unfold fill_missing. induction d as [|x d IH]; intros m v; simpl; [tauto|]. rewrite IH. destruct (dmem m x) eqn:E.
  - apply dmem_In in E. intuition. subst; auto.
  - rewrite dkeys_dset_In. intuition.
Qed.
Lemma validate_keys e : sensible e -> exists m, validate e = Ok (mkEv (ev_node e) (ev_dom e) (ev_type e) m) /\
  forall v, In v (dkeys m) <-> In v (dkeys (ev_values e)) \/ In v (ev_dom e).
Proof.
  intros Hs. unfold validate. set (m0 := fill_missing (ev_dom e) (ev_values e)).
  assert (H0 : forall v, In v (dkeys m0) <-> In v (dkeys (ev_values e)) \/ In v (ev_dom e)) by (intros; apply fill_keys).
  destruct (ev_type e) eqn:Et.
  - eexists. split; [reflexivity|]. intros v. rewrite fold_dset_keys, H0. tauto.
  - eexists. split; [reflexivity|]. intros v. destruct (qeqb _ _); rewrite ?fold_dset_keys, H0; tauto.
  - destruct (isort (fun a b => qleb (snd b) (snd a)) m0) as [|[k q] t] eqn:Es.
    + exfalso. assert (E : m0 = []). { apply Permutation_nil. rewrite <- Es. apply isort_perm. }
      destruct (ev_dom e) as [|x l] eqn:Ed; [apply Hs; auto|]. assert (Hx : In x (dkeys m0)) by (apply H0; right; left; auto). rewrite E in Hx. destruct Hx.
    + eexists. split; [reflexivity|]. intros v. rewrite fold_dset_keys, H0. tauto.
  - eexists. split; [reflexivity|]. intros v. rewrite fold_dset_keys, H0. tauto.
Qed.
Lemma validate_list es : Forall sensible es -> exists es', mapM validate es = Ok es' /\
  Forall2 (fun e e' => ev_node e' = ev_node e /\ forall v, In v (dkeys (ev_values e')) <-> In v (dkeys (ev_values e)) \/ In v (ev_dom e)) es es'.
Proof.
  induction 1 as [|e es H1 H2 [es' [IH1 IH2]]]. { exists []; auto. } destruct (validate_keys e H1) as [m [E1 E2]].
  eexists. simpl. rewrite E1. cbn [rbind]. rewrite IH1. split; [reflexivity|]. constructor; auto.
Qed.
Lemma observed_total m : is_observed m = true -> exists v, observed_value m = Ok v.
Proof.
  unfold is_observed, observed_value. destruct (filter (fun p => qeqb 1 (snd p)) m) as [|[k q] t]; simpl; [discriminate|]. eauto.
Qed.
Lemma compare_total e i d L : exists c, compare_ev e (evmap i d L) = Ok c.
Proof.
  unfold compare_ev. rewrite convert_evmap. cbn [rbind]. destruct (_ && _); [eauto|]. destruct (is_observed _ && is_observed _) eqn:E; [|eauto].
  apply andb_true_iff in E. destruct E as [E1 E2]. destruct (observed_total _ E1) as [v1 ->]. destruct (observed_total _ E2) as [v2 ->]. cbn [rbind]. destruct (eqb v1 v2); eauto.
Qed.
Lemma mapM_KeyError {A B} (f : A -> res B) l : (forall x, In x l -> (exists y, f x = Ok y) \/ f x = Err KeyError) -> (exists x, In x l /\ f x = Err KeyError) -> mapM f l = Err KeyError.
Proof.
  induction l as [|x l IH]; intros H [y [Hy E]]; [destruct Hy|]. simpl. destruct (H x) as [[z Ez]|Ez]; [left; auto| |]; rewrite Ez; cbn [rbind]; auto.
  rewrite IH; auto. intros; apply H; right; auto. destruct Hy as [->|Hy]; [congruence|]. eauto.
Qed.

Lemma c17_node ops o h j o' es : well_shaped ops -> ord_ok o -> valid_history (net_of ops) h -> session o ops h = Ok j -> Forall sensible es ->
  (exists e, In e es /\ ~ In (ev_node e) (vars (net_of ops))) -> update_evidences o' j es = (j, Some KeyError).
Proof.
  intros HW Ho Hh HJ Hs [e [He Hn]]. destruct (session_stored ops o h HW Ho Hh) as [j' [A1 A2]]. rewrite HJ in A1. injection A1 as <-.
  destruct (validate_list es Hs) as [es' [E1 E2]]. unfold update_evidences. rewrite E1. unfold get_change_type. rewrite mapM_KeyError; auto.
  - intros x _. unfold dgetE. destruct (in_dec Z.eq_dec (ev_node x) (vars (net_of ops))) as [Hi|Hi].
    + rewrite (stored_get _ _ _ _ _ A2 Hi). cbn [rbind]. left. apply compare_total.
    + rewrite (session_evid ops o h j HW Ho HJ _ Hi). right. reflexivity.
  - assert (G : exists x, In x es' /\ ev_node x = ev_node e).
    { clear - E2 He. induction E2 as [|a b l l' [V _] F IH]; [destruct He|]. destruct He as [->|He]. exists b; split; [left|]; auto. destruct (IH He) as [x [X1 X2]]. exists x; split; [right|]; auto. }
    destruct G as [x [Hx Ex]]. exists x. split; auto. rewrite Ex. unfold dgetE. rewrite (session_evid ops o h j HW Ho HJ _ Hn). reflexivity.
Qed.

Definition full (m : list (string * potential)) : Prop := forall k p, dget m k = Some p -> p <> [].
Lemma store_values_total vs : forall m, full m -> exists m' x, store_values m vs = (m', x) /\ full m' /\ dkeys m' = dkeys m /\
  (x = None \/ x = Some KeyError) /\ (x = None <-> incl (dkeys vs) (dkeys m)).
Proof.
  induction vs as [|[k v] vs IH]; intros m Hm; simpl. { exists m, None. split; auto. split; auto. split; auto. split; auto. split; auto. intros _ y []. }
  destruct (dget m k) as [[|e es]|] eqn:Ek.
  - exfalso. apply (Hm _ _ Ek); auto.
  - destruct (IH (dset m k (mkPE (pe_map e) v :: es))) as [m' [x [E1 [E2 [E3 [E4 E5]]]]]].
    { intros k' p Hp. rewrite dget_dset in Hp. destruct (eqb k' k); [injection Hp as <-; discriminate|eauto]. }
    pose proof (dget_Some_key _ _ _ Ek) as Hk. rewrite dkeys_dset_in in E3, E5 by auto.
    exists m', x. split; auto. split; auto. split; auto. split; auto. rewrite E5. simpl. split; intros Hi.
    + intros y [<-|Hy]; auto.
    + intros y Hy. apply Hi. right; auto.
  - exists m, (Some KeyError). split; auto. split; auto. split; auto. split; auto. split; [discriminate|]. intros Hi. exfalso. apply dget_None in Ek. apply Ek, Hi. left; auto.
Qed.
(** the stored evidence of every node has one potential per value *)
Definition evfull (N : net) (ev : list (Z * list (string * potential))) : Prop :=
  forall i, In i (vars N) -> exists m, dget ev i = Some m /\ full m /\ dkeys m = dom N i.
Lemma stored_evfull N nm L j : (forall i, In i (vars N) -> NoDup (dom N i)) -> stored N nm L j -> evfull N (jt_evid j).
Proof.
  intros HD H i Hi. rewrite (stored_get _ _ _ _ _ H Hi). eexists. split; [reflexivity|]. unfold evmap. split.
  - intros k p Hp. apply dget_In in Hp. apply in_map_iff in Hp. destruct Hp as [v [E _]]. injection E as _ <-. discriminate.
  - unfold dkeys. rewrite map_map. simpl. apply map_id.
Qed.
Lemma store_total N es : forall j, evfull N (jt_evid j) -> (forall e, In e es -> In (ev_node e) (vars N)) ->
  exists ev x, store_evidences j es = (set_jevid j ev, x) /\ (x = None \/ x = Some KeyError) /\
    (x = None <-> forall e, In e es -> incl (dkeys (ev_values e)) (dom N (ev_node e))).
Proof.
  induction es as [|e es IH]; intros j HF Hn; simpl.
  { exists (jt_evid j), None. split; [destruct j; auto|]. split; auto. split; auto. intros _ e []. }
  destruct (HF (ev_node e)) as [m [M1 [M2 M3]]]; [apply Hn; left; auto|]. rewrite M1.
  destruct (store_values_total (ev_values e) m M2) as [m' [x [E1 [E2 [E3 [E4 E5]]]]]]. rewrite E1. rewrite M3 in E5.
  destruct E4 as [->| ->].
  - destruct (IH (set_jevid j (dset (jt_evid j) (ev_node e) m'))) as [ev [x [F1 [F2 F3]]]].
    { intros i Hi. simpl. rewrite dget_dset. destruct (eqb_spec i (ev_node e)) as [->|]; [|apply HF; auto]. exists m'. split; auto. split; auto. congruence. }
    { intros e' He'. apply Hn; right; auto. }
    exists ev, x. rewrite F1. split; auto. split; auto. rewrite F3. split.
    + intros H e' [<-|He']; auto. apply E5; auto.
    + intros H e' He'. apply H; right; auto.
  - exists (dset (jt_evid j) (ev_node e) m'), (Some KeyError). split; auto. split; auto. split; [discriminate|]. intros H. exfalso.
    assert (Hx : Some KeyError = None) by (apply E5, H; left; auto). discriminate.
Qed.

Lemma c17_value ops o h j o' es : well_shaped ops -> ord_ok o -> valid_history (net_of ops) h -> session o ops h = Ok j -> Forall sensible es ->
  (forall e, In e es -> In (ev_node e) (vars (net_of ops))) ->
  (exists e v, In e es /\ (In v (dkeys (ev_values e)) \/ In v (ev_dom e)) /\ ~ In v (dom (net_of ops) (ev_node e))) ->
  exists ev, update_evidences o' j es = (set_jevid j ev, Some KeyError) /\ get_posteriors (set_jevid j ev) = get_posteriors j.
Proof.
  intros HW Ho Hh HJ Hs Hn [e [v [He [Hv1 Hv2]]]]. destruct (session_stored ops o h HW Ho Hh) as [j' [A1 A2]]. rewrite HJ in A1. injection A1 as <-.
  set (N := net_of ops) in *.
  destruct (validate_list es Hs) as [es' [E1 E2]]. unfold update_evidences. rewrite E1.
  assert (Hn' : forall x, In x es' -> In (ev_node x) (vars N)).
  { clear - E2 Hn. induction E2 as [|a b l l' [V _] F IH]; intros x Hx; [destruct Hx|]. destruct Hx as [<-|Hx]. rewrite V. apply Hn; left; auto. apply IH; auto. intros; apply Hn; right; auto. }
  assert (Hc : exists c, get_change_type j es' = Ok c).
  { unfold get_change_type. destruct (mapM_total (fun e => pot <- dgetE (jt_evid j) (ev_node e) ;; compare_ev e pot) es') as [cs ->].
    - intros x Hx. unfold dgetE. rewrite (stored_get _ _ _ _ _ A2 (Hn' x Hx)). cbn [rbind]. apply compare_total.
    - cbn [rbind]. destruct (existsb _ cs); [eauto|]. destruct (existsb _ cs); eauto. }
  destruct Hc as [c ->].
  destruct (store_total N es' j) as [ev [x [F1 [F2 F3]]]]; auto. { eapply stored_evfull; eauto. intros i Hi. apply (ws_dom _ HW i Hi). }
  rewrite F1. destruct F2 as [->| ->].
  - exfalso. assert (G : exists x, In x es' /\ ev_node x = ev_node e /\ In v (dkeys (ev_values x))).
    { clear - E2 He Hv1. induction E2 as [|a b l l' [V1 V2] F IH]; [destruct He|]. destruct He as [->|He]. exists b; split; [left; auto|]. split; auto. apply V2; auto. destruct (IH He) as [x [X1 X2]]. exists x; split; [right|]; auto. }
    destruct G as [x [Hx [Ex Hx2]]]. apply Hv2. rewrite <- Ex. apply (proj1 F3 eq_refl x Hx). auto.
  - exists ev. split; auto.
Qed.

(** ** set_observation *)
Lemma like_observes N e y : known N e -> observes e y -> forall v, In v (dom N (ev_node e)) -> like_of e v = if String.eqb v y then 1%Qc else 0%Qc.
Proof.
  intros [K1 [K2 [K3 K4]]] [O1 O2] v Hv. unfold like_of. rewrite O1.
  assert (Ey : best (supplied e) (considered e) = y); [|rewrite Ey; auto].
  assert (Hs : forall w, supplied e w = if String.eqb w y then 1%Qc else 0%Qc). { intros w. unfold supplied. rewrite O2. simpl. change (eqb w y) with (String.eqb w y). destruct (String.eqb w y); auto. }
  assert (Hy : In y (considered e)). { apply considered_In. left. rewrite O2. left; auto. }
  pose proof (best_max (supplied e) _ y Hy) as Hm. rewrite (Hs y), String.eqb_refl, (Hs (best _ _)) in Hm.
  destruct (String.eqb_spec (best (supplied e) (considered e)) y) as [E|E]; auto. exfalso. revert Hm. apply Qclt_not_le. reflexivity.
Qed.
Lemma toggles_observes N L e y : In (ev_node e) (vars N) -> NoDup (dom N (ev_node e)) -> observes e y ->
  toggles N L e = true <-> only_one N (L (ev_node e)) (ev_node e) y.
Proof.
  intros Hi Hd [O1 O2]. rewrite only_one_ones by auto. unfold toggles, first_one. rewrite O2. fold (ones (L (ev_node e)) (dom N (ev_node e))). cbn [filter snd].
  replace (qeqb 1%Qc 1%Qc) with true by reflexivity. destruct (ones (L (ev_node e)) (dom N (ev_node e))) as [|x [|]]; split; try discriminate.
  - intros E. apply String.eqb_eq in E. subst; auto.
  - intros E. injection E as ->. apply String.eqb_refl.
Qed.

Lemma c15_part ops o h o' e y : well_shaped ops -> connected ops -> ord_ok o -> ord_ok o' -> valid_history (net_of ops) h -> Forall hard_call (calls h) ->
  known (net_of ops) e -> observes e y ->
  let N := net_of ops in let L := in_force N (calls h) in let i := ev_node e in
  exists j t, session o ops (h ++ [(o', SetObservation e)]) = Ok j /\ get_posteriors j = Ok t /\
    (only_one N (L i) i y -> exact_table N (net_name ops) (withdraw L [i]) t) /\
    (~ only_one N (L i) i y -> exact_table N (net_name ops) (observing L i y) t).
Proof.
  intros HW Hc Ho Ho' Hh Hd HK HO N L i.
  assert (Hd1 : NoDup (dom N i)) by (apply (ws_dom _ HW); apply HK).
  assert (HF : first_one e <> None). { unfold first_one. destruct HO as [_ ->]. cbn [filter snd]. replace (qeqb 1%Qc 1%Qc) with true by reflexivity. discriminate. }
  assert (Hv : valid_history N (h ++ [(o', SetObservation e)])). { apply valid_app. split; auto. apply valid_one; auto. split; auto. }
  destruct (c02 ops o (h ++ [(o', SetObservation e)]) HW Hc Ho Hv) as [j [t [A1 [A2 A3]]]].
  { rewrite app_calls. apply Forall_app. split; auto. constructor; [|constructor]. simpl. unfold hard. destruct HO as [-> _]. discriminate. }
  exists j, t. split; auto. split; auto. rewrite app_calls in A3. change (calls [(o', SetObservation e)]) with [SetObservation e] in A3. rewrite in_force_snoc in A3. fold N L in A3. cbn [effect] in A3.
  pose proof (toggles_observes N L e y (proj1 HK) Hd1 HO) as Ht. fold i in Ht. split; intros H.
  - rewrite (proj2 Ht H) in A3. exact A3.
  - destruct (toggles N L e) eqn:Et; [exfalso; apply H, Ht; auto|]. eapply exact_table_agree; [|exact A3].
    intros k v Hk Hvv. unfold assimilate, observing. fold i. destruct (Z.eqb_spec k i) as [->|]; auto. eapply like_observes; eauto.
Qed.

Lemma quietD_euclid d f g k : NoDup d -> quietD d f g = true -> quietD d f k = true -> quietD d g k = true.
Proof.
  intros Hd. unfold quietD. rewrite !orb_true_iff, !all_ones.
  assert (S : forall f g, match soleD f d, soleD g d with Some y, Some z => String.eqb y z | _, _ => false end = true <-> exists y, ones f d = [y] /\ ones g d = [y]).
  { intros f0 g0. unfold soleD. destruct (ones f0 d) as [|a [|]]; destruct (ones g0 d) as [|b [|]]; split; try discriminate; try (intros [y [E1 E2]]; discriminate).
    - intros E. apply String.eqb_eq in E. subst. eauto.
    - intros [y [E1 E2]]. injection E1 as ->. injection E2 as ->. apply String.eqb_refl. }
  assert (A : forall f : string -> Qc, (forall v, In v d -> f v = 1%Qc) -> ones f d = d).
  { intros f0 H0. unfold ones. clear - H0. induction d as [|x l IH]; simpl; auto. rewrite (H0 x) by (left; auto). simpl. change (qeqb 1 1) with true. simpl. rewrite IH; auto. intros; apply H0; right; auto. }
  rewrite !S. intros [[F1 G1]|[y [F1 G1]]] [[F2 K2]|[z [F2 K2]]]; auto.
  - right. rewrite (A f F1) in F2. exists z. rewrite (A g G1). split; congruence.
  - right. rewrite (A f F2) in F1. exists y. rewrite (A k K2). split; congruence.
  - right. exists y. split; congruence.
Qed.
Lemma assims_twice es : forall L L' i v, (forall e, In e es -> ev_node e <> i) \/ fold_left assimilate es L i v = fold_left assimilate es L' i v.
Proof.
  induction es as [|e es IH]; intros L L' i v; simpl. { left. intros e []. }
  destruct (IH (assimilate L e) (assimilate L' e) i v) as [H|H]; auto.
  destruct (Z.eq_dec (ev_node e) i) as [E|E].
  - right. rewrite !assims_other by auto. unfold assimilate. rewrite E, Z.eqb_refl. auto.
  - left. intros e' [<-|He']; auto.
Qed.

Lemma twice_shown ops h o1 o2 es : well_shaped ops -> Forall (known (net_of ops)) es -> let N := net_of ops in
  agree N (shown N (calls (h ++ [(o1, Update es); (o2, Update es)]))) (shown N (calls (h ++ [(o1, Update es)]))).
Proof.
  intros HW HK N. unfold shown. rewrite !app_calls. change (calls [(o1, Update es)]) with [Update es]. change (calls [(o1, Update es); (o2, Update es)]) with [Update es; Update es].
  rewrite !fold_left_app. cbn [fold_left]. set (s := fold_left (step N) (calls h) (no_evidence, no_evidence)). set (L := fst s).
  unfold step at 1. cbn [snd about]. set (s1 := step N s (Update es)). set (L1 := fst s1).
  assert (EL : L1 = fold_left assimilate es L) by reflexivity.
  destruct (forallb (quiet N L1) es) eqn:Q2; [apply agree_refl|].
  assert (Q1 : forallb (quiet N L) es = false).
  { destruct (forallb (quiet N L) es) eqn:Q1; auto. exfalso. enough (forallb (quiet N L1) es = true) by congruence. rewrite forallb_forall in Q1. apply forallb_forall. intros e He.
    rewrite Forall_forall in HK. destruct (HK e He) as [K1 _]. destruct (ws_dom _ HW _ K1) as [D1 _]. change (NoDup (dom N (ev_node e))) in D1.
    destruct (assims_cases es L (ev_node e)) as [H|[e' [H1 [H2 H3]]]]; [exfalso; apply (H e He); auto|].
    rewrite quiet_eq. rewrite (quietD_ext _ _ (like_of e') _ (like_of e)); auto.
    apply (quietD_euclid _ (L (ev_node e))); auto.
    - specialize (Q1 e' H1). rewrite quiet_eq, H2 in Q1. exact Q1.
    - specialize (Q1 e He). rewrite quiet_eq in Q1. exact Q1. }
  unfold s1, step. cbn [snd about]. fold L. rewrite Q1. cbn [effect]. fold L1. intros k v Hk Hv.
  change (fst s1) with L1. destruct (assims_twice es L1 L k v) as [H|H]; auto. rewrite !assims_other by auto. rewrite EL. apply assims_other; auto.
Qed.

Lemma c15_update ops o h o1 o2 es : well_shaped ops -> connected ops -> ord_ok o -> ord_ok o1 -> ord_ok o2 -> valid_history (net_of ops) h -> Forall (known (net_of ops)) es ->
  exists j1 j2 t1 t2, session o ops (h ++ [(o1, Update es)]) = Ok j1 /\ session o ops (h ++ [(o1, Update es); (o2, Update es)]) = Ok j2 /\
    get_posteriors j1 = Ok t1 /\ get_posteriors j2 = Ok t2 /\ forall i, In i (vars (net_of ops)) -> dget t2 (net_name ops i) = dget t1 (net_name ops i).
Proof.
  intros HW Hc Ho Ho1 Ho2 Hh HK. set (N := net_of ops) in *.
  assert (V1 : valid_history N (h ++ [(o1, Update es)])) by (apply valid_app; split; auto; apply valid_one; auto).
  assert (V2 : valid_history N (h ++ [(o1, Update es); (o2, Update es)])) by (apply valid_app; split; auto; apply (valid_app N [(o1, Update es)] [(o2, Update es)]); split; apply valid_one; auto).
  destruct (session_exact ops o _ HW Hc Ho V1) as [j1 [t1 [A1 [A2 [A3 A4]]]]]. destruct (session_exact ops o _ HW Hc Ho V2) as [j2 [t2 [B1 [B2 [B3 B4]]]]].
  exists j1, j2, t1, t2. split; auto. split; auto. split; auto. split; auto. intros i Hi. rewrite A4, B4 by auto. fold N. f_equal. apply map_ext_in. intros y _. f_equal.
  apply posterior_agree. apply (twice_shown ops h o1 o2 es); auto.
Qed.
