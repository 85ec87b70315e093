(** Floating point with a smallest exponent. *)
From Verif Require Import Py M_Graph M_Node M_Pptc M_Str M_Round Spec SpecNet SpecEv SpecRound L_Base L_Str L_Apply L_Net L_Claims L_Hist L_P1 L_Round L_Round2 L_Round3 L_Round4 L_Size L_Steady L_Round5 L_Part4.
Open Scope nat_scope.
Open Scope Qc_scope.

Lemma pow2_pos e : 0 < pow2 e.
Proof.
  unfold Qclt, pow2. rewrite (this_of (2 ^ Z.max 0 e # _)). assert (H : (0 < 2 ^ Z.max 0 e)%Z) by (apply Z.pow_pos_nonneg; lia). unfold Qlt. cbn [Qnum Qden this]. change (Qnum (this 0)) with 0%Z. change (QDen (this 0)) with 1%Z. lia.
Qed.
Lemma pow2_mono e e' : (e <= e')%Z -> pow2 e <= pow2 e'.
Proof.
  intros H. apply qcle_q. unfold pow2. rewrite (this_of (2 ^ Z.max 0 e # _)), (this_of (2 ^ Z.max 0 e' # _)). unfold Qle. cbn [Qnum Qden]. rewrite !Z2Pos.id by (apply Z.pow_pos_nonneg; lia).
  rewrite <- !Z.pow_add_r by lia. apply Z.pow_le_mono_r; lia.
Qed.
Lemma pow2_small lo : 0 < lo -> exists e, pow2 e <= lo.
Proof.
  intros H. set (d := Qden (this lo)). exists (- Zpos d)%Z. apply qcle_q. unfold pow2. rewrite (this_of (2 ^ Z.max 0 (- Zpos d) # _)). replace (Z.max 0 (- Zpos d)) with 0%Z by lia. replace (Z.max 0 (- - Zpos d)) with (Zpos d) by lia.
  unfold Qle. cbn [Qnum Qden]. rewrite Z2Pos.id by (apply Z.pow_pos_nonneg; lia). fold d. assert (H' : (0 < Qnum (this lo))%Z). { unfold Qclt, Qlt in H. change (Qnum (this 0)) with 0%Z in H. change (QDen (this 0)) with 1%Z in H. lia. }
  pose proof (Z.pow_gt_lin_r 2 (Zpos d)). change (2 ^ 0)%Z with 1%Z. nia.
Qed.
(** rounding does not go below a power of two *)
Lemma digits_above p emin x : (1 <= p)%Z -> pow2 emin <= x -> pow2 emin <= digits p x.
Proof.
  intros Hp Hx. assert (H0 : 0 < x) by (eapply Qclt_le_trans; [apply (pow2_pos emin)|exact Hx]). unfold digits. cbv zeta. set (n := Qnum (this x)). set (d := Qden (this x)). assert (Hn : (0 < n)%Z).
  { unfold Qclt, Qlt in H0. change (Qnum (this 0)) with 0%Z in H0. change (QDen (this 0)) with 1%Z in H0. fold n in H0. lia. }
  rewrite Z.abs_eq by lia. destruct (Z.eqb_spec n 0) as [E|_]; [lia|].
  pose proof (exponent_ok p n d Hp Hn) as He. cbv zeta in He. set (e := exponent p n d) in *.
  assert (HP : (0 < 2 ^ Z.max 0 e)%Z) by (apply Z.pow_pos_nonneg; lia). assert (HQ : (0 < 2 ^ Z.max 0 (- e))%Z) by (apply Z.pow_pos_nonneg; lia).
  assert (HT : (0 < 2 ^ (p - 1))%Z) by (apply Z.pow_pos_nonneg; lia).
  assert (HU : (0 < 2 ^ Z.max 0 emin)%Z) by (apply Z.pow_pos_nonneg; lia). assert (HV : (0 < 2 ^ Z.max 0 (- emin))%Z) by (apply Z.pow_pos_nonneg; lia).
  set (P := (2 ^ Z.max 0 e)%Z) in *. set (Q := (2 ^ Z.max 0 (- e))%Z) in *.
  assert (HA : (0 <= n * Q)%Z) by nia. destruct (rounded_ok (n * Q) (d * Z.to_pos P) HA) as [M1 M2]. set (m := rounded (n * Q) (d * Z.to_pos P)) in *.
  rewrite Z.sgn_pos by auto. rewrite Z.mul_1_l. rewrite Pos2Z.inj_mul, Z2Pos.id in M2 by auto.
  assert (X : (2 ^ Z.max 0 emin * Zpos d <= n * 2 ^ Z.max 0 (- emin))%Z).
  { unfold Qcle, pow2 in Hx. rewrite (this_of (2 ^ Z.max 0 emin # _)) in Hx. unfold Qle in Hx. cbn [Qnum Qden] in Hx. fold n d in Hx. rewrite Z2Pos.id in Hx by auto. exact Hx. }
  apply qcle_q. unfold pow2. rewrite (this_of (2 ^ Z.max 0 emin # _)), (this_of ((m * P)%Z # _)). unfold Qle. cbn [Qnum Qden]. rewrite !Z2Pos.id by auto.
  assert (Hm : forall t, (t * (Zpos d * P) <= n * Q)%Z -> (t <= m)%Z). { intros t Ht. assert ((2 * t - 1) * (Zpos d * P) <= 2 * m * (Zpos d * P))%Z by nia. nia. }
  destruct (Z_le_gt_dec e emin) as [C|C].
  - (* 2^(emin-e) is a whole number *)
    assert (K : (2 ^ Z.max 0 emin * Q = 2 ^ (emin - e) * P * 2 ^ Z.max 0 (- emin))%Z). { unfold P, Q. rewrite <- !Z.pow_add_r by lia. f_equal. lia. }
    assert (Hs : (2 ^ (emin - e) <= m)%Z). { apply Hm. apply Z.mul_le_mono_pos_r with (2 ^ Z.max 0 (- emin))%Z; auto.
      replace (2 ^ (emin - e) * (Zpos d * P) * 2 ^ Z.max 0 (- emin))%Z with (2 ^ (emin - e) * P * 2 ^ Z.max 0 (- emin) * Zpos d)%Z by ring. rewrite <- K.
      replace (2 ^ Z.max 0 emin * Q * Zpos d)%Z with (2 ^ Z.max 0 emin * Zpos d * Q)%Z by ring. replace (n * Q * 2 ^ Z.max 0 (- emin))%Z with (n * 2 ^ Z.max 0 (- emin) * Q)%Z by ring. apply Z.mul_le_mono_nonneg_r; lia. }
    rewrite K. replace (m * P * 2 ^ Z.max 0 (- emin))%Z with (m * (P * 2 ^ Z.max 0 (- emin)))%Z by ring. rewrite <- Z.mul_assoc. apply Z.mul_le_mono_nonneg_r; [nia|auto].
  - assert (Hs : (1 <= m)%Z). { apply Hm. nia. }
    apply Z.le_trans with (P * 2 ^ Z.max 0 (- emin))%Z; [|nia]. unfold P, Q. rewrite <- !Z.pow_add_r by lia. apply Z.pow_le_mono_r; lia.
Qed.
Lemma gradual_digits p emin x : x = 0 \/ pow2 emin <= x -> gradual p emin x = digits p x.
Proof.
  intros H. unfold gradual. destruct (qltb 0 x && qltb x (pow2 emin)) eqn:E; auto. apply andb_true_iff in E. destruct E as [E1 E2]. apply qltb_lt in E1, E2. destruct H as [->|H].
  - exfalso. apply (Qclt_not_eq _ _ E1). auto.
  - exfalso. apply (Qcle_not_lt _ _ H E2).
Qed.
Lemma ulp_two p : (1 <= p)%Z -> ulp_factor p <= 1 + 1.
Proof.
  intros Hp. apply qcle_q. rewrite (ulp_this p Hp). assert (H : (0 < 2 ^ (p - 1))%Z) by (apply Z.pow_pos_nonneg; lia).
  set (t := (2 ^ (p - 1))%Z) in *. destruct t as [|t|t]; try lia. unfold Qle. simpl. lia.
Qed.
Lemma pow2_next e : pow2 (e + 1) = (1 + 1) * pow2 e.
Proof.
  apply Qc_is_canon. rewrite this_mul. unfold pow2. rewrite (this_of (2 ^ Z.max 0 (e + 1) # _)), (this_of (2 ^ Z.max 0 e # _)). unfold Qeq, Qmult. cbn [Qnum Qden]. change (Qnum (this (1 + 1))) with 2%Z. change (Qden (this (1 + 1))) with 1%positive.
  rewrite Pos.mul_1_l. rewrite !Z2Pos.id by (apply Z.pow_pos_nonneg; lia). replace 2%Z with (2 ^ 1)%Z at 3 by reflexivity. rewrite <- !Z.pow_add_r by lia. f_equal. lia.
Qed.
Lemma pow2_lt e : pow2 e < pow2 (e + 1).
Proof. rewrite pow2_next. replace ((1 + 1) * pow2 e) with (pow2 e + pow2 e) by ring. replace (pow2 e) with (pow2 e + 0) at 1 by ring. apply qlt_add, pow2_pos. Qed.
Lemma ranged_digits p emin emax over x : (1 <= p)%Z -> x = 0 \/ pow2 emin <= x -> x <= pow2 (emax - 2) -> ranged p emin emax over x = digits p x.
Proof.
  intros Hp H Hx. unfold ranged. cbv zeta. rewrite gradual_digits by auto. destruct (qltb (digits p x) (pow2 emax)) eqn:E; auto. exfalso.
  assert (H0 : 0 <= x). { destruct H as [->|H]; [discriminate|]. apply Qcle_trans with (pow2 emin); auto. apply Qclt_le_weak, pow2_pos. }
  destruct (digits_within p x Hp H0) as [_ [_ [_ W]]]. simpl in W. rewrite Qcmult_1_r in W.
  assert (L : digits p x < pow2 emax). { apply Qcle_lt_trans with (pow2 (emax - 2 + 1)).
    - rewrite pow2_next. rewrite Qcmult_comm. eapply Qcle_trans; [exact W|]. apply qle_mul2; auto. { apply Qclt_le_weak, pow2_pos. } { apply Qcle_trans with 1; [discriminate|apply ulp_one; auto]. } apply ulp_two; auto.
    - replace emax with (emax - 2 + 1 + 1)%Z at 2 by lia. apply pow2_lt. }
  apply qltb_lt in L. congruence.
Qed.
(** floating point is accurate from its smallest normal number to a quarter of its largest power of two *)
Theorem c89_floats p emin emax over : (1 <= p)%Z -> accurate_between (pow2 emin) (pow2 (emax - 2)) (ulp_factor p) (floats_in p emin emax over).
Proof.
  intros Hp. destruct (c80_floats p Hp) as [H1 H2 H3]. set (r := ulp_factor p) in *. assert (G : forall x, x = 0 \/ pow2 emin <= x -> 0 <= x).
  { intros x [->|Hx]; [discriminate|]. apply Qcle_trans with (pow2 emin); auto. apply Qclt_le_weak, pow2_pos. }
  constructor; auto.
  - intros x Hx Hy. cbn [floats_in r_rnd]. rewrite ranged_digits by auto. apply (H2 x). apply G; auto.
  - intros l Hl Hy. replace (r_sum (floats_in p emin emax over) l) with (r_sum (floats p) l). { apply H3. eapply Forall_impl; [|exact Hl]. exact G. }
    cbn [floats_in floats r_sum]. clear H3 H2.
    assert (K : forall l s, Forall (fun x => x = 0 \/ pow2 emin <= x) l -> s = 0 \/ pow2 emin <= s -> (s + qsum l) * r ^ List.length l <= pow2 (emax - 2) ->
      fold_left (fun s x => digits p (s + x)) l s = fold_left (fun s x => ranged p emin emax over (s + x)) l s).
    { clear l Hl Hy. induction l as [|x l IH]; intros s Hl Hs Hy; cbn [fold_left]; auto. inversion Hl as [|? ? Hx Hl']; subst.
      assert (Hsx : s + x = 0 \/ pow2 emin <= s + x).
      { destruct Hs as [->|Hs]; [replace (0 + x) with x by ring; auto|]. right. replace (pow2 emin) with (pow2 emin + 0) by ring. apply Qcplus_le_compat; auto. }
      pose proof (G _ Hsx) as Hsx0. assert (Hq : 0 <= qsum l) by (apply sum_nn; eapply Forall_impl; [|exact Hl']; exact G). rewrite qsum_cons in Hy. cbn [List.length] in Hy.
      assert (Hr0 : 0 <= r) by (apply Qcle_trans with 1; auto; discriminate). assert (Hrn : 1 <= r ^ List.length l) by (apply pow_ge1; auto). assert (Hrn0 : 0 <= r ^ List.length l) by (apply pow_nn; auto).
      assert (Hb : (s + x) * r + qsum l * r <= (s + (x + qsum l)) * r) by (replace ((s + (x + qsum l)) * r) with ((s + x) * r + qsum l * r) by ring; apply Qcle_refl).
      assert (Hle : s + x <= pow2 (emax - 2)).
      { eapply Qcle_trans; [|exact Hy]. replace (s + x) with ((s + x) * (1 * 1)) by ring. apply qle_mul2; auto using one_nn.
        - apply qnn_add; [apply (G s Hs)|apply qnn_add; auto].
        - replace (s + x) with (s + x + 0) by ring. replace (s + (x + qsum l)) with (s + x + qsum l) by ring. apply Qcplus_le_compat; auto using Qcle_refl.
        - simpl. apply qle_mul2; auto using one_nn. }
      rewrite ranged_digits by auto. apply IH; auto. { destruct Hsx as [->|Hsx]; [left; reflexivity|right; apply digits_above; auto]. }
      eapply Qcle_trans; [|exact Hy]. simpl. rewrite Qcmult_assoc. apply qle_mul; auto. destruct (digits_within p (s + x) Hp Hsx0) as [_ [_ [_ W]]]. simpl in W. rewrite Qcmult_1_r in W. fold r in W.
      eapply Qcle_trans; [|exact Hb]. apply Qcplus_le_compat; auto. replace (qsum l) with (qsum l * 1) at 1 by ring. apply qle_mul2; auto using one_nn, Qcle_refl. }
    apply K; auto. replace (0 + qsum l) with (qsum l) by ring. auto.
Qed.

Lemma pow2_large hi : exists e, hi <= pow2 e.
Proof.
  set (n := Z.abs (Qnum (this hi))). exists n. apply qcle_q. unfold pow2. rewrite (this_of (2 ^ Z.max 0 n # _)). assert (Hn : (0 <= n)%Z) by (unfold n; lia). replace (Z.max 0 n) with n by lia. replace (Z.max 0 (- n)) with 0%Z by lia.
  unfold Qle. cbn [Qnum Qden]. pose proof (Z.pow_gt_lin_r 2 n ltac:(lia) Hn). unfold n in *. change (Z.to_pos (2 ^ 0)) with 1%positive. set (m := Qnum (this hi)) in *. nia.
Qed.
(** what is near holds in floating point with a large enough range of exponents *)
Lemma near_floats P : near P -> exists e, forall p emin emax over, (1 <= p)%Z -> (emin <= - e)%Z -> (e <= emax)%Z -> P (ulp_factor p) (floats_in p emin emax over).
Proof.
  intros H. destruct (H (1 + 1)) as (lo & hi & Hl & K). destruct (pow2_small lo Hl) as [e He], (pow2_large hi) as [f Hf]. exists (Z.max (- e) (f + 2)). intros p emin emax over Hp Hm Hx. apply K. { apply ulp_two; auto. }
  apply between_mono with (pow2 emin) (pow2 (emax - 2)).
  - eapply Qcle_trans; [apply (pow2_mono emin e); lia|exact He].
  - eapply Qcle_trans; [exact Hf|]. apply pow2_mono. lia.
  - apply c89_floats; auto.
Qed.
Theorem c89_range ops : well_shaped ops -> exists k, forall o h, ord_ok o -> valid_history (net_of ops) h ->
  exists j t, session o ops h = Ok j /\ get_posteriors j = Ok t /\
  exists e, forall p emin emax over, (1 <= p)%Z -> (emin <= - e)%Z -> (e <= emax)%Z -> exists j' t', session_r (floats_in p emin emax over) o ops h = Ok j' /\ get_posteriors_r (floats_in p emin emax over) j' = Ok t' /\ table_within (ulp_factor p) k t t'.
Proof.
  intros HW. exists (spread_of ops). intros o h Ho Hh. destruct (c04_described ops o h HW Ho Hh) as [j [t [A1 [A2 _]]]]. exists j, t. split; auto. split; auto.
  destruct (near_floats _ (c89_follows ops o h j t HW Ho Hh A1 A2)) as [e E]. exists e. exact E.
Qed.
(** the same for posteriors *)
Theorem c89_posteriors ops : well_shaped ops -> connected ops -> exists k, forall o h, ord_ok o -> valid_history (net_of ops) h -> Forall hard_call (calls h) ->
  let N := net_of ops in let L := in_force N (calls h) in
  exists e, forall p emin emax over, (1 <= p)%Z -> (emin <= - e)%Z -> (e <= emax)%Z -> exists j t, session_r (floats_in p emin emax over) o ops h = Ok j /\ get_posteriors_r (floats_in p emin emax over) j = Ok t /\
    Permutation (map fst t) (map (net_name ops) (vars N)) /\ forall i, In i (vars N) -> exists row, dget t (net_name ops i) = Some row /\ row_within (ulp_factor p) k N L i row.
Proof.
  intros HW Hc. exists (spread_of ops). intros o h Ho Hh Hd N L. destruct (session_exact ops o h HW Hc Ho Hh) as [j [t [E1 [E2 [T1 T2]]]]]. fold N in T1, T2.
  destruct (near_floats _ (c89_follows ops o h j t HW Ho Hh E1 E2)) as [e E]. exists e. intros p emin emax over Hp He Hx. destruct (E p emin emax over Hp He Hx) as [j' [t' [A1 [A2 A3]]]]. exists j', t'. split; auto. split; auto.
  rewrite (table_fst _ _ _ _ A3). split; auto. intros i Hi. destruct (table_get _ _ _ _ _ _ A3 (T2 i Hi)) as [row [R1 R2]]. exists row. split; auto.
  unfold msim in R2. apply F2_map_l in R2. eapply F2_impl; [|exact R2]. intros y q [Q1 Q2]. cbn [fst snd] in Q1, Q2. split; auto.
  rewrite (posterior_agree N L (shown N (calls h))); auto. apply agree_sym. apply (shown_in_force N (ws_dom _ HW)). { apply Hh. }
  apply hard_all_noticed; auto. apply Hh.
Qed.
