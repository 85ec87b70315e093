(** Rows of posteriors in orderly arithmetic. *)
From Verif Require Import Py M_Graph M_Node M_Pptc M_Round Spec SpecNet SpecEv SpecRound SpecStored SpecOrderly L_Base L_Str L_Table L_Read L_Round L_Round2 L_Round5 L_RS L_RS4.
Open Scope nat_scope.
Open Scope Qc_scope.

Section Row.
  Context (r : Qc) (a : arith) (OD : orderly r a).
  Let R1 : 1 <= r := st_one _ _ (od_rnd _ _ OD).
  (** what [normalize_r] makes of the numbers [m] *)
  Definition normed (m : list Qc) : list Qc := let t := r_sum a m in if qeqb t 0 then m else map (fun x => r_rnd a (x / t)) m.
  Lemma stored_pos l : Forall (stored (r_rnd a)) l -> Forall (fun x => 0 <= x) l.
  Proof. apply Forall_impl. intros q. apply (stored_nn _ _ (od_rnd _ _ OD)). Qed.
  Lemma sum_within m m' : Forall2 (fun x y => within r 1 x y) m m' -> within r 1 (qsum m) (qsum m').
  Proof. induction 1 as [|x y m m' H F IH]; [apply within_le with O; [auto|lia|apply within_refl; discriminate]|]. rewrite !qsum_cons. apply within_add; auto. Qed.
  Lemma normed_zero m : Forall (stored (r_rnd a)) m -> r_sum a m = 0 -> Forall (fun x => x = 0) m.
  Proof.
    intros F E. apply Forall_forall. intros x Hx. pose proof (od_most _ _ OD m x F Hx) as H. rewrite E in H. apply stored_pos in F. rewrite Forall_forall in F. apply Qcle_antisym; auto.
  Qed.
  Lemma sum_pos m : Forall (stored (r_rnd a)) m -> r_sum a m <> 0 -> 0 < r_sum a m.
  Proof.
    intros F H. destruct (Qcle_lt_or_eq 0 (r_sum a m)) as [G|G]; auto; [|congruence]. apply (stored_nn _ _ (od_rnd _ _ OD)). apply (od_sum _ _ OD). apply stored_pos; auto.
  Qed.
  Lemma normed_bounds m : Forall (stored (r_rnd a)) m -> Forall (fun q => 0 <= q /\ q <= 1) (normed m).
  Proof.
    intros F. unfold normed. cbv zeta. destruct (qeqb (r_sum a m) 0) eqn:E.
    - apply qeqb_true in E. eapply Forall_impl; [|exact (normed_zero m F E)]. intros q ->. split; discriminate.
    - apply qeqb_false in E. pose proof (sum_pos m F E) as P. apply Forall_forall. intros q Hq. apply in_map_iff in Hq. destruct Hq as [x [<- Hx]]. pose proof (od_most _ _ OD m x F Hx) as Hm.
      apply stored_pos in F. rewrite Forall_forall in F. pose proof (F x Hx) as H0. assert (D : 0 <= x / r_sum a m). { apply qdiv_nonneg; auto. apply Qclt_le_weak; auto. }
      split. { apply (st_near _ _ (od_rnd _ _ OD) _ D). } rewrite <- (od_unit _ _ OD). apply (st_up _ _ (od_rnd _ _ OD)); auto; [discriminate|]. rewrite (od_unit _ _ OD).
      replace 1 with (r_sum a m / r_sum a m) by (field; auto). unfold Qcdiv. apply Qcmult_le_compat_r; auto. apply Qclt_le_weak. 
      assert (I : 0 <= 1 / r_sum a m). { apply qdiv_nonneg; [discriminate|apply Qclt_le_weak; auto]. } unfold Qcdiv in I. rewrite Qcmult_1_l in I. destruct (Qcle_lt_or_eq _ _ I) as [J|J]; auto.
      exfalso. apply E. rewrite <- (Qcmult_1_r (r_sum a m)). assert (K : r_sum a m * / r_sum a m = 1) by (apply Qcmult_inv_r; auto). rewrite <- J in K. rewrite Qcmult_0_r in K. discriminate K.
  Qed.
  Lemma normed_total m : Forall (stored (r_rnd a)) m -> Forall (fun q => q = 0) (normed m) \/ within r (S (List.length m)) 1 (qsum (normed m)).
  Proof.
    intros F. unfold normed. cbv zeta. destruct (qeqb (r_sum a m) 0) eqn:E.
    - left. apply qeqb_true in E. apply normed_zero; auto.
    - right. apply qeqb_false in E. pose proof (sum_pos m F E) as P. set (t := r_sum a m) in *. pose proof (stored_pos m F) as F0. pose proof (ac_sum _ _ (od_acc _ _ OD) m F0) as W. fold t in W.
      assert (IN : 0 <= / t). { assert (I : 0 <= 1 / t) by (apply qdiv_nonneg; [discriminate|apply Qclt_le_weak; auto]). unfold Qcdiv in I. rewrite Qcmult_1_l in I. auto. }
      assert (W1 : within r (List.length m) 1 (qsum m / t)).
      { destruct W as [W0 [W1 [W2 W3]]]. split; [discriminate|]. split. { apply qdiv_nonneg; auto. } replace 1 with (t * / t) by (apply Qcmult_inv_r; auto). split.
        - replace (qsum m / t * r ^ List.length m) with (qsum m * r ^ List.length m * / t) by (unfold Qcdiv; ring). apply Qcmult_le_compat_r; auto.
        - replace (t * / t * r ^ List.length m) with (t * r ^ List.length m * / t) by ring. unfold Qcdiv. apply Qcmult_le_compat_r; auto. }
      replace (S (List.length m)) with (List.length m + 1)%nat by lia. eapply within_trans; [exact R1|exact W1|].
      assert (Q : qsum m / t = qsum (map (fun x => x / t) m)). { clearbody t. clear. induction m as [|x m IH]; [unfold Qcdiv; change (qsum []) with 0; simpl; apply Qcmult_0_l|]. simpl map. rewrite !qsum_cons, <- IH. unfold Qcdiv. ring. }
      rewrite Q. apply sum_within. clearbody t. clear - F0 OD P. induction m as [|x m IH]; simpl; constructor; inversion F0; subst; auto. apply (st_near _ _ (od_rnd _ _ OD)). apply qdiv_nonneg; auto. apply Qclt_le_weak; auto.
  Qed.
  (** all but one are 0 *)
  Lemma normed_alone l x l' : Forall (stored (r_rnd a)) (l ++ x :: l') -> Forall (fun y => y = 0) (l ++ l') -> x <> 0 -> normed (l ++ x :: l') = l ++ 1 :: l'.
  Proof.
    intros F Z Hx. assert (Fx : stored (r_rnd a) x). { rewrite Forall_forall in F. apply F. apply in_or_app. right. left. auto. }
    unfold normed. cbv zeta. rewrite (od_alone _ _ OD l l' x Z Fx). destruct (qeqb x 0) eqn:E; [apply qeqb_true in E; congruence|]. rewrite map_app. simpl.
    assert (G : forall k, Forall (fun y => y = 0) k -> map (fun y => r_rnd a (y / x)) k = k).
    { induction 1 as [|y k -> Hk IH]; simpl; auto. rewrite IH. f_equal. replace (0 / x) with 0 by (unfold Qcdiv; ring). pose proof (st_near _ _ (od_rnd _ _ OD) 0 ltac:(discriminate)) as W. apply within_0 in W. apply W. auto. }
    apply Forall_app in Z. rewrite !G by tauto. f_equal. f_equal. rewrite <- (od_unit _ _ OD). f_equal. unfold Qcdiv. apply Qcmult_inv_r; auto.
  Qed.
  (** a row of [get_posteriors_r] *)
  Definition marks (cp : potential) (i : Z) (vs : list string) : list Qc := map (fun v => r_sum a (map pe_val (get_matching_entries cp (mkPE [(i, v)] 1)))) vs.
  Lemma pot_to_map_one i (vs : list string) (f : string -> Qc) : NoDup vs -> pot_to_map (map (fun v => mkPE [(i, v)] (f v)) vs) = map (fun v => (v, f v)) vs.
  Proof.
    intros HN. unfold pot_to_map. rewrite <- (fold_dset_id (map (fun v => (v, f v)) vs)).
    - generalize (@nil (string * Qc)) as d. clear HN. induction vs as [|x l IH]; intros d; simpl; auto.
    - rewrite map_map. simpl. rewrite map_id. auto.
  Qed.
  Lemma row_of cp i vs : NoDup vs -> pot_to_map (normalize_r a (marginalize_r a cp [(i, vs)])) = combine vs (normed (marks cp i vs)).
  Proof.
    intros HN. unfold marginalize_r, potential_from_nodes. cbn [map fst snd]. rewrite cartesian_one, !map_map. cbn [combine fold_left fst snd pe_map].
    set (f := fun v => r_sum a (map pe_val (get_matching_entries cp (mkPE [(i, v)] 1)))). unfold normalize_r, normed, marks. cbv zeta. fold f. rewrite map_map. cbn [pe_val]. change (dset [] i ?v) with [(i, v)].
    match goal with |- context [qeqb ?u 0] => change u with (r_sum a (map f vs)) end. destruct (qeqb (r_sum a (map f vs)) 0).
    - transitivity (map (fun v => (v, f v)) vs). { apply (pot_to_map_one i vs f HN). } clear. induction vs as [|v vs IH]; simpl; congruence.
    - rewrite map_map. cbn [pe_map pe_val]. transitivity (map (fun v => (v, r_rnd a (f v / r_sum a (map f vs)))) vs). { apply (pot_to_map_one i vs (fun v => r_rnd a (f v / r_sum a (map f vs))) HN). }
      generalize (r_sum a (map f vs)). intros t. clear. induction vs as [|v vs IH]; simpl; congruence.
  Qed.
  Lemma normed_len m : List.length (normed m) = List.length m.
  Proof. unfold normed. cbv zeta. destruct (qeqb _ 0); auto. apply map_length. Qed.
  Lemma marks_ok cp i vs : Forall (fun e => 0 <= pe_val e) cp -> Forall (stored (r_rnd a)) (marks cp i vs).
  Proof.
    intros F. apply Forall_forall. intros x Hx. apply in_map_iff in Hx. destruct Hx as [v [<- _]]. apply (od_sum _ _ OD). apply Forall_forall. intros y Hy. apply in_map_iff in Hy. destruct Hy as [e [<- He]].
    apply filter_In in He. rewrite Forall_forall in F. apply F. tauto.
  Qed.
End Row.

Theorem c110_floats p : (1 <= p)%Z -> orderly (ulp_factor p) (floats p).
Proof.
  intros Hp. pose proof (c109_floats p Hp) as ST. assert (Z0 : digits p 0 = 0) by (apply Qc_is_canon; vm_compute; reflexivity).
  assert (FS : forall l s, stored (digits p) s -> Forall (fun x => 0 <= x) l -> stored (digits p) (fold_left (fun s x => digits p (s + x)) l s)).
  { induction l as [|x l IH]; intros s Hs F; simpl; auto. inversion F; subst. apply IH; auto. exists (s + x). split; auto. apply qnn_add; auto. apply (stored_nn _ _ ST); auto. }
  assert (S0 : stored (digits p) 0). { exists 0. split; [discriminate|auto]. }
  assert (FG : forall l s, stored (digits p) s -> Forall (fun x => 0 <= x) l -> s <= fold_left (fun s x => digits p (s + x)) l s).
  { induction l as [|x l IH]; intros s Hs F; simpl; [apply Qcle_refl|]. inversion F; subst. eapply Qcle_trans; [apply (stored_keep _ _ ST); eauto|]. apply IH; auto. exists (s + x). split; auto. apply qnn_add; auto. apply (stored_nn _ _ ST); auto. }
  assert (FZ : forall l s, stored (digits p) s -> Forall (fun x => x = 0) l -> fold_left (fun s x => digits p (s + x)) l s = s).
  { intros l s Hs F. induction F as [|x l -> F IH]; simpl; auto. rewrite (stored_zero _ _ ST) by auto. auto. }
  constructor.
  - apply c80_floats; auto.
  - exact ST.
  - assert (Q : 1 = dyadic 1 0) by (apply Qc_is_canon; vm_compute; reflexivity). cbn [r_rnd floats]. assert (P2 : (1 <= 2 ^ p)%Z). { change 1%Z with (2 ^ 0)%Z. apply Z.pow_le_mono_r; lia. } rewrite Q. apply Qcle_antisym; [apply digits_up|apply digits_down]; try lia; try apply Qcle_refl; rewrite <- Q; discriminate.
  - intros l F. apply FS; auto.
  - intros l x F Hx. cbn [r_sum floats r_rnd] in *. pose proof (Forall_impl _ (fun q => stored_nn _ _ ST q) F) as F0. apply in_split in Hx. destruct Hx as [l1 [l2 ->]]. rewrite fold_left_app. simpl. apply Forall_app in F. apply Forall_app in F0. destruct F as [F1 F2], F0 as [G1 G2]. inversion F2; subst. inversion G2; subst.
    set (s := fold_left _ l1 0). assert (Hs : stored (digits p) s) by (apply FS; auto). eapply Qcle_trans; [|apply FG; auto; exists (s + x); split; auto; apply qnn_add; auto; apply (stored_nn _ _ ST); auto].
    rewrite Qcplus_comm. apply (stored_keep _ _ ST); auto. apply (stored_nn _ _ ST); auto.
  - intros l l' x Z Hx. cbn [r_sum floats r_rnd] in *. rewrite fold_left_app. simpl. apply Forall_app in Z. rewrite (FZ l 0) by tauto. rewrite Qcplus_0_l. rewrite <- (Qcplus_0_r x) at 1. rewrite (stored_zero _ _ ST x Hx). apply FZ; tauto.
Qed.
