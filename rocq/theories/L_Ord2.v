(** Reported posteriors in orderly arithmetic. *)
From Verif Require Import Py M_Graph M_Node M_Pptc M_Round Spec SpecNet SpecEv SpecRound SpecStored SpecOrderly L_Base L_Str L_Str2 L_Table L_Post L_Forest L_Root L_Good L_Elim L_Init L_Exact L_Apply L_Build L_Net L_Evid L_Hist L_P1 L_Read L_Part2 L_Part4 L_Round L_Round2 L_Round3 L_Round4 L_Round5 L_Size L_Steady L_RS L_RS4 L_Ord1 SpecStored.
Open Scope nat_scope.
Open Scope Qc_scope.

Lemma psim_pos r k ps ps' x p' : psim r k ps ps' -> dget ps' x = Some p' -> Forall (fun e => 0 <= pe_val e) p'.
Proof.
  induction 1 as [|[y p] [y' q] ps ps' [E H] F IH]; simpl; [discriminate|]. cbn [fst snd] in *. destruct (String.eqb x y'); auto. intros Q. inversion Q; subst. clear - H.
  induction H as [|e e' p p' [_ W] F IH]; constructor; auto. apply W.
Qed.

(** every row of a rounded session *)
Lemma rows ops o h r a : well_shaped ops -> ord_ok o -> valid_history (net_of ops) h -> orderly r a ->
  exists j t, session_r a o ops h = Ok j /\ get_posteriors_r a j = Ok t /\ Permutation (map fst t) (map (net_name ops) (vars (net_of ops))) /\
    forall i, In i (vars (net_of ops)) -> exists m, Forall (stored (r_rnd a)) m /\ List.length m = List.length (dom (net_of ops) i) /\ dget t (net_name ops i) = Some (combine (dom (net_of ops) i) (normed a m)).
Proof.
  intros HW Ho Hh OD. destruct (session_situ ops o h HW Ho Hh) as [_ [_ [_ [je [_ [_ [_ [E [_ [_ [_ SI]]]]]]]]]]]. pose proof (situ_jnet _ _ _ _ SI) as JN.
  destruct (session_follows ops o h je HW Ho Hh E) as [_ K]. destruct (near_accurate _ r a K (od_acc _ _ OD)) as [j [A1 A2]]. destruct (jsim_fields _ _ _ _ A2) as [_ [_ [Eh Enn]]].
  destruct (c04_described ops o h HW Ho Hh) as [je2 [te [B1 [B2 [B3 _]]]]]. rewrite E in B1. inversion B1; subst je2. destruct (c80_follows ops o h je te HW Ho Hh E B2 r a (od_acc _ _ OD)) as [j2 [t [C1 [C2 C3]]]].
  rewrite A1 in C1. inversion C1; subst j2. exists j, t. split; auto. split; auto. split. { rewrite (table_fst _ _ _ _ C3). auto. }
  assert (Eb : jt_bbn_ids j = jt_bbn_ids je) by (unfold jt_bbn_ids, jt_cliques; rewrite Enn; auto). unfold get_posteriors_r in C2. rewrite Eb, Eh in C2.
  assert (HP : forall i, In i (jt_bbn_ids je) -> exists m, Forall (stored (r_rnd a)) m /\ List.length m = List.length (dom (net_of ops) i) /\ (get_bbn_potential_r a j i = Err KeyError \/ get_bbn_potential_r a j i = Err AttributeError \/ exists p, get_bbn_potential_r a j i = Ok p /\ pot_to_map p = combine (dom (net_of ops) i) (normed a m))).
  { intros i Hi. destruct (hg_node _ _ _ _ (jn_hg _ _ _ JN) i Hi) as [n [D1 [D2 [D3 _]]]]. destruct (hg_dm _ _ _ _ (jn_hg _ _ _ JN) i Hi) as [ND _]. unfold get_bbn_potential_r. rewrite Eh. unfold dgetE. rewrite D1. cbn [rbind].
    assert (Z : exists m, Forall (stored (r_rnd a)) m /\ List.length m = List.length (dom (net_of ops) i)). { exists (map (fun _ => r_sum a []) (dom (net_of ops) i)). split; [|apply map_length]. apply Forall_forall. intros x Hx. apply in_map_iff in Hx. destruct Hx as [v [<- _]]. apply (od_sum _ _ OD). constructor. }
    destruct (n_mclq n) as [c|]; [|destruct Z as [m [Z1 Z2]]; exists m; auto]. destruct (dget (jt_pots j) c) as [cp|] eqn:Ep; [|destruct Z as [m [Z1 Z2]]; exists m; auto].
    exists (marks a cp i (dom (net_of ops) i)). destruct A2 as [_ A2]. split. { eapply marks_ok; eauto. eapply psim_pos; eauto. } split. { apply map_length. } right. right. eexists. split; [reflexivity|].
    unfold nv. rewrite D2, D3. apply row_of. auto. }
  assert (G : forall l, incl l (jt_bbn_ids je) -> NoDup (map (h_name (jt_heap je)) l) -> forall d t, foldM (fun d i => p <- get_bbn_potential_r a j i ;; Ok (dset d (h_name (jt_heap je) i) (pot_to_map p))) l d = Ok t ->
     (forall x, ~ In x (map (h_name (jt_heap je)) l) -> dget t x = dget d x) /\ forall i, In i l -> exists m, Forall (stored (r_rnd a)) m /\ List.length m = List.length (dom (net_of ops) i) /\ dget t (h_name (jt_heap je) i) = Some (combine (dom (net_of ops) i) (normed a m))).
  { induction l as [|i l IH]; intros Hl ND d t0 E0; cbn [foldM] in E0. { inversion E0; subst. split; auto. intros i []. }
    destruct (get_bbn_potential_r a j i) as [p|] eqn:Ep; cbn [rbind] in E0; [|discriminate]. simpl in ND. inversion ND as [|? ? N1 N2]; subst. destruct (IH (fun y Hy => Hl y (or_intror Hy)) N2 _ _ E0) as [I1 I2]. split.
    - intros x Hx. rewrite I1 by (intros H; apply Hx; right; auto). rewrite dget_dset. destruct (eqb_spec x (h_name (jt_heap je) i)) as [Q|Q]; auto. exfalso. apply Hx. left. auto.
    - intros k [<-|Hk]; auto. destruct (HP i (Hl i (or_introl eq_refl))) as [m [M1 [M2 [M3|[M3|[p' [M3 M4]]]]]]]; try congruence. exists m. split; auto. split; auto. rewrite I1 by auto. rewrite dget_dset. destruct (eqb_spec (h_name (jt_heap je) i) (h_name (jt_heap je) i)); [|congruence]. congruence. }
  assert (NN : NoDup (map (h_name (jt_heap je)) (jt_bbn_ids je))).
  { pose proof (ws_names _ HW) as WN. clear - JN WN. assert (H : forall l, incl l (jt_bbn_ids je) -> NoDup l -> NoDup (map (h_name (jt_heap je)) l)).
    { induction l as [|i l IH]; intros Hl ND; simpl; [constructor|]. inversion ND as [|? ? N1 N2]; subst. constructor; [|apply IH; auto; intros y Hy; apply Hl; right; auto]. intros H. apply in_map_iff in H. destruct H as [k [K1 K2]].
      assert (Vi : In i (vars (net_of ops))) by (apply (jn_ids _ _ _ JN); apply Hl; left; auto). assert (Vk : In k (vars (net_of ops))) by (apply (jn_ids _ _ _ JN); apply Hl; right; auto).
      rewrite !(jn_nm _ _ _ JN) in K1 by auto. apply N1. rewrite <- (names_inj _ _ WN k i Vk Vi K1). auto. }
    apply H; [apply incl_refl|]. apply bbn_ids_NoDup. }
  intros i Hi. destruct (G _ (incl_refl _) NN _ _ C2) as [_ G2]. rewrite <- (jn_nm _ _ _ JN i Hi). apply G2. apply (jn_ids _ _ _ JN); auto.
Qed.

Section Zero.
  Context (r : Qc) (a : arith) (OD : orderly r a).
  Lemma normed_nil m : Forall (stored (r_rnd a)) m -> Forall2 (fun x q => x = 0 <-> q = 0) m (normed a m).
  Proof.
    intros F. unfold normed. cbv zeta. destruct (qeqb (r_sum a m) 0) eqn:E. { clear. induction m; constructor; tauto. }
    apply qeqb_false in E. pose proof (sum_pos _ _ OD m F E) as P. apply (stored_pos _ _ OD) in F. generalize dependent (r_sum a m). intros t Ht P. induction F as [|x m Hx F IH]; simpl; constructor; auto.
    assert (D : 0 <= x / t) by (apply qdiv_nonneg; [auto|apply Qclt_le_weak; auto]). pose proof (st_near _ _ (od_rnd _ _ OD) _ D) as W. apply within_0 in W. split.
    - intros ->. apply W. unfold Qcdiv. ring.
    - intros Q. apply W in Q. replace x with (x / t * t) by (field; auto). rewrite Q. ring.
  Qed.
  Lemma normed_single m l q l' : Forall (stored (r_rnd a)) m -> normed a m = l ++ q :: l' -> Forall (fun y => y = 0) (l ++ l') -> q <> 0 -> q = 1.
  Proof.
    intros F E Z Hq. pose proof (normed_nil m F) as N. rewrite E in N. apply Forall2_app_inv_r in N. destruct N as [k [k0 [N1 [N2 Em]]]]. inversion N2 as [|x ? k' ? Nx N3]; subst. apply Forall_app in Z. destruct Z as [Z1 Z2].
    assert (T : forall k l, Forall2 (fun x q => x = 0 <-> q = 0) k l -> Forall (fun y => y = 0) l -> Forall (fun y => y = 0) k). { clear. induction 1; intros H1; inversion H1; subst; constructor; tauto. }
    assert (Y : Forall (fun y => y = 0) (k ++ k')) by (apply Forall_app; split; eauto). assert (X : x <> 0) by tauto. rewrite (normed_alone _ _ OD k x k' F Y X) in E.
    pose proof (T _ _ N1 Z1) as K1. assert (L : List.length k = List.length l). { clear - N1. induction N1; simpl; auto. } clear - E L. revert l L E. induction k as [|y k IH]; intros [|z l] L E; simpl in *; try discriminate; inversion E; auto. apply (IH l); auto.
  Qed.
End Zero.

Theorem c110_range ops o h r a : well_shaped ops -> ord_ok o -> valid_history (net_of ops) h -> orderly r a ->
  let N := net_of ops in
  exists j t, session_r a o ops h = Ok j /\ get_posteriors_r a j = Ok t /\ Permutation (map fst t) (map (net_name ops) (vars N)) /\
    forall i, In i (vars N) -> exists qs, List.length qs = List.length (dom N i) /\ dget t (net_name ops i) = Some (combine (dom N i) qs) /\
      Forall (fun q => 0 <= q /\ q <= 1) qs /\
      (Forall (fun q => q = 0) qs \/ within r (S (List.length (dom N i))) 1 (qsum qs)) /\
      (forall l q l', qs = l ++ q :: l' -> Forall (fun y => y = 0) (l ++ l') -> q <> 0 -> q = 1).
Proof.
  intros HW Ho Hh OD N. destruct (rows ops o h r a HW Ho Hh OD) as [j [t [A1 [A2 [A3 A4]]]]]. exists j, t. split; auto. split; auto. split; auto. intros i Hi. destruct (A4 i Hi) as [m [M1 [M2 M3]]].
  exists (normed a m). split. { rewrite normed_len. auto. } split; auto. split. { apply (normed_bounds _ _ OD); auto. } split. { fold N in M2. rewrite <- M2. apply (normed_total _ _ OD); auto. } intros l q l' E. apply (normed_single _ _ OD m l q l' M1 E).
Qed.
