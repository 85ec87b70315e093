(** Accuracy of floating point; exact posteriors in the limit. *)
From Verif Require Import Py M_Graph M_Node M_Pptc M_Str M_Round Spec SpecNet SpecEv SpecRound L_Base L_Str L_Apply L_Net L_Claims L_Hist L_P1 L_Round L_Round2 L_Round3 L_Round4 L_Size L_Steady.
Open Scope nat_scope.
Open Scope Qc_scope.

(** ** floating point *)
Lemma exponent_ok p n d : (1 <= p)%Z -> (0 < n)%Z -> let e := exponent p n d in
  (2 ^ (p - 1) * (Zpos d * 2 ^ Z.max 0 e) <= n * 2 ^ Z.max 0 (- e))%Z.
Proof.
  intros Hp Hn. cbv zeta. unfold exponent. cbv zeta. set (e := (Z.log2 n - Z.log2 (Zpos d) - p)%Z). pose proof (Z.log2_spec n Hn) as [N1 N2]. pose proof (Z.log2_spec (Zpos d) ltac:(lia)) as [D1 D2].
  pose proof (Z.log2_nonneg n) as L1. pose proof (Z.log2_nonneg (Zpos d)) as L2.
  destruct (Z.ltb_spec (n * 2 ^ Z.max 0 (- e)) (2 ^ p * Zpos d * 2 ^ Z.max 0 e)) as [H|H].
  - (* n >= 2^ln, d < 2^(ld+1), 2^(p-1) * 2^(ld+1) * 2^max(0,e) = 2^ln * 2^max(0,-e) *)
    apply Z.le_trans with (2 ^ (p - 1) * (2 ^ (Z.succ (Z.log2 (Zpos d))) * 2 ^ Z.max 0 e))%Z.
    { apply Z.mul_le_mono_nonneg_l. { apply Z.pow_nonneg; lia. } apply Z.mul_le_mono_nonneg_r. { apply Z.pow_nonneg; lia. } lia. }
    apply Z.le_trans with (2 ^ Z.log2 n * 2 ^ Z.max 0 (- e))%Z. 2:{ apply Z.mul_le_mono_nonneg_r. { apply Z.pow_nonneg; lia. } lia. }
    rewrite <- !Z.pow_add_r by lia. apply Z.pow_le_mono_r; lia.
  - assert (E : (2 ^ (p - 1) * 2)%Z = (2 ^ p)%Z). { replace p with (p - 1 + 1)%Z at 2 by lia. rewrite Z.pow_add_r by lia. reflexivity. }
    destruct (Z_le_gt_dec 0 e) as [He|He].
    + replace (Z.max 0 (e + 1)) with (e + 1)%Z by lia. replace (Z.max 0 (- (e + 1))) with 0%Z by lia. replace (Z.max 0 (- e)) with 0%Z in H by lia. replace (Z.max 0 e) with e in H by lia.
      rewrite Z.pow_add_r by lia. change (2 ^ 1)%Z with 2%Z. rewrite <- E in H. nia.
    + replace (Z.max 0 (e + 1)) with 0%Z by lia. replace (Z.max 0 (- (e + 1))) with (- e - 1)%Z by lia. replace (Z.max 0 (- e)) with (- e - 1 + 1)%Z in H by lia. replace (Z.max 0 e) with 0%Z in H by lia.
      rewrite Z.pow_add_r in H by lia. change (2 ^ 1)%Z with 2%Z in H. rewrite <- E in H. nia.
Qed.

Lemma qcle_q (x y : Qc) : Qle (this x) (this y) -> x <= y. Proof. auto. Qed.
Lemma this_mul (x y : Qc) : Qeq (this (x * y)) (Qmult (this x) (this y)). Proof. apply Qred_correct. Qed.
Lemma this_add (x y : Qc) : Qeq (this (x + y)) (Qplus (this x) (this y)). Proof. apply Qred_correct. Qed.
Lemma this_inv (x : Qc) : Qeq (this (/ x)) (Qinv (this x)). Proof. apply Qred_correct. Qed.
Lemma this_of q : Qeq (this (Q2Qc q)) q. Proof. apply Qred_correct. Qed.

Lemma ulp_this p : (1 <= p)%Z -> Qeq (this (ulp_factor p)) ((2 ^ (p - 1) + 1)%Z # Z.to_pos (2 ^ (p - 1))).
Proof.
  intros Hp. unfold ulp_factor. rewrite this_add, this_inv, (this_of (inject_Z _)). assert (H : (0 < 2 ^ (p - 1))%Z) by (apply Z.pow_pos_nonneg; lia).
  set (t := (2 ^ (p - 1))%Z) in *. destruct t as [|t|t]; try lia. unfold Qeq. cbn. lia.
Qed.
Lemma ulp_one p : (1 <= p)%Z -> 1 <= ulp_factor p.
Proof.
  intros Hp. apply qcle_q. rewrite (ulp_this p Hp). assert (H : (0 < 2 ^ (p - 1))%Z) by (apply Z.pow_pos_nonneg; lia).
  set (t := (2 ^ (p - 1))%Z) in *. destruct t as [|t|t]; try lia. unfold Qle. simpl. lia.
Qed.

Lemma digits_within p x : (1 <= p)%Z -> 0 <= x -> within (ulp_factor p) 1 x (digits p x).
Proof.
  intros Hp Hx. unfold digits. cbv zeta. set (n := Qnum (this x)). set (d := Qden (this x)). assert (Hn : (0 <= n)%Z). { unfold Qcle, Qle in Hx. simpl in Hx. unfold n. lia. }
  rewrite Z.abs_eq by auto. destruct (Z.eqb_spec n 0) as [E|E].
  { assert (x = 0) as ->. { apply Qc_is_canon. unfold Qeq. fold n d. rewrite E. simpl. lia. } split; [discriminate|]. split; [discriminate|]. rewrite !Qcmult_0_l. split; discriminate. }
  assert (Hn' : (0 < n)%Z) by lia. pose proof (exponent_ok p n d Hp Hn') as He. cbv zeta in He. set (e := exponent p n d) in *.
  assert (HP : (0 < 2 ^ Z.max 0 e)%Z) by (apply Z.pow_pos_nonneg; lia). assert (HQ : (0 < 2 ^ Z.max 0 (- e))%Z) by (apply Z.pow_pos_nonneg; lia).
  assert (HT : (0 < 2 ^ (p - 1))%Z) by (apply Z.pow_pos_nonneg; lia).
  set (P := (2 ^ Z.max 0 e)%Z) in *. set (Q := (2 ^ Z.max 0 (- e))%Z) in *.
  assert (HA : (0 <= n * Q)%Z) by nia. destruct (rounded_ok (n * Q) (d * Z.to_pos P) HA) as [M1 M2]. set (m := rounded (n * Q) (d * Z.to_pos P)) in *.
  rewrite Z.sgn_pos by auto. rewrite Z.mul_1_l. rewrite Pos2Z.inj_mul, Z2Pos.id in M2 by auto.
  pose proof (ulp_this p Hp) as Hu. set (t := (2 ^ (p - 1))%Z) in *.
  assert (G : forall u v w : Qc, Qle (this u) (Qmult (this v) (this w)) -> u <= v * w ^ 1). { intros u v w H. simpl. rewrite Qcmult_1_r. apply qcle_q. rewrite this_mul. auto. }
  assert (Y : Qeq (this (Q2Qc ((m * P)%Z # Z.to_pos Q))) ((m * P)%Z # Z.to_pos Q)) by apply this_of.
  assert (X : Qeq (this x) (n # d)) by (unfold n, d; destruct (this x); reflexivity).
  set (B := (Zpos d * P)%Z) in *. assert (HB : (0 < B)%Z) by (unfold B; nia). set (A := (n * Q)%Z) in *.
  assert (I1 : (m * B * t <= A * (t + 1))%Z) by nia.
  assert (I2 : (A * t <= m * B * (t + 1))%Z).
  { (* 2mB >= 2A - B, tB <= A *) assert (J : ((2 * A - B) * (t + 1) <= 2 * m * B * (t + 1))%Z) by nia. assert (K : (2 * A * t <= (2 * A - B) * (t + 1))%Z) by nia. nia. }
  split; auto. split.
  { apply qcle_q. rewrite Y. unfold Qle. simpl. nia. }
  split; apply G; rewrite Y, X, Hu; unfold Qle, Qmult; cbn [Qnum Qden]; rewrite ?Pos2Z.inj_mul, ?Z2Pos.id by auto.
  - replace (n * (Q * t))%Z with (A * t)%Z by (unfold A; ring). replace (m * P * (t + 1) * Zpos d)%Z with (m * B * (t + 1))%Z by (unfold B; ring). auto.
  - replace (m * P * (Zpos d * t))%Z with (m * B * t)%Z by (unfold B; ring). replace (n * (t + 1) * Q)%Z with (A * (t + 1))%Z by (unfold A; ring). auto.
Qed.

Theorem c80_floats p : (1 <= p)%Z -> accurate (ulp_factor p) (floats p).
Proof.
  intros Hp. pose proof (ulp_one p Hp) as H1. constructor; auto. { intros x Hx. apply digits_within; auto. }
  intros l Hl. cbn [floats r_sum]. unfold qsum. set (r := ulp_factor p) in *.
  assert (G : forall l k s s', Forall (fun x => 0 <= x) l -> within r k s s' -> within r (k + List.length l) (fold_left Qcplus l s) (fold_left (fun s x => digits p (s + x)) l s')).
  { clear l Hl. induction l as [|x l IH]; intros k s s' Hl Hs; cbn [fold_left List.length]. { rewrite Nat.add_0_r. auto. }
    inversion Hl as [|? ? Hx Hl']; subst. replace (k + S (List.length l))%nat with ((k + 1) + List.length l)%nat by lia. apply IH; auto.
    assert (Ha : within r k (s + x) (s' + x)). { apply within_add; auto. apply within_le with 0%nat; auto; [lia|]. apply within_refl; auto. }
    eapply within_trans; [exact H1|exact Ha|]. apply digits_within; auto. apply Ha. }
  apply (G l 0%nat 0 0 Hl). apply within_refl. discriminate.
Qed.

(** ** exact posteriors *)
Lemma table_get r k t t' x m : table_within r k t t' -> dget t x = Some m -> exists m', dget t' x = Some m' /\ msim r k m m'.
Proof.
  induction 1 as [|[y q] [y' q'] t t' [E H] F IH]; simpl; [discriminate|]. cbn [fst snd] in E, H. subst y'. destruct (String.eqb x y); auto. intros Q. inversion Q; subst. eauto.
Qed.
Lemma table_fst r k t t' : table_within r k t t' -> map fst t' = map fst t.
Proof. induction 1 as [|p p' t t' [E _] F IH]; simpl; congruence. Qed.
Lemma F2_map_l {A B C} (R : B -> C -> Prop) (f : A -> B) l l' : Forall2 R (map f l) l' -> Forall2 (fun a c => R (f a) c) l l'.
Proof. revert l'. induction l as [|x l IH]; intros l' H; inversion H; subst; constructor; auto. Qed.

Theorem c80_spread ops o h : well_shaped ops -> connected ops -> ord_ok o -> valid_history (net_of ops) h -> Forall hard_call (calls h) ->
  let N := net_of ops in let L := in_force N (calls h) in
  forall r a, accurate r a -> exists j t, session_r a o ops h = Ok j /\ get_posteriors_r a j = Ok t /\
    Permutation (map fst t) (map (net_name ops) (vars N)) /\ forall i, In i (vars N) -> exists row, dget t (net_name ops i) = Some row /\ row_within r (spread_of ops) N L i row.
Proof.
  intros HW Hc Ho Hh Hd N L. destruct (session_exact ops o h HW Hc Ho Hh) as [j [t [E1 [E2 [T1 T2]]]]]. fold N in T1, T2.
  pose proof (c80_follows ops o h j t HW Ho Hh E1 E2) as K. intros r a Ha. destruct (K r a Ha) as [j' [t' [A1 [A2 A3]]]]. exists j', t'. split; auto. split; auto.
  rewrite (table_fst _ _ _ _ A3). split; auto. intros i Hi. destruct (table_get _ _ _ _ _ _ A3 (T2 i Hi)) as [row [R1 R2]]. exists row. split; auto.
  unfold msim in R2. apply F2_map_l in R2. eapply F2_impl; [|exact R2]. intros y q [Q1 Q2]. cbn [fst snd] in Q1, Q2. split; auto.
  rewrite (posterior_agree N L (shown N (calls h))); auto. apply agree_sym. apply (shown_in_force N (ws_dom _ HW)). { apply Hh. }
  apply hard_all_noticed; auto. apply Hh.
Qed.
Theorem c80_posteriors ops : well_shaped ops -> connected ops -> exists k, forall o h, ord_ok o -> valid_history (net_of ops) h -> Forall hard_call (calls h) ->
  let N := net_of ops in let L := in_force N (calls h) in
  forall r a, accurate r a -> exists j t, session_r a o ops h = Ok j /\ get_posteriors_r a j = Ok t /\
    Permutation (map fst t) (map (net_name ops) (vars N)) /\ forall i, In i (vars N) -> exists row, dget t (net_name ops i) = Some row /\ row_within r k N L i row.
Proof. intros HW Hc. exists (spread_of ops). intros o h Ho Hh Hd. apply c80_spread; auto. Qed.

Theorem c80_zero ops o h p : well_shaped ops -> connected ops -> ord_ok o -> valid_history (net_of ops) h -> Forall hard_call (calls h) -> (1 <= p)%Z ->
  let N := net_of ops in let L := in_force N (calls h) in
  exists j t, session_r (floats p) o ops h = Ok j /\ get_posteriors_r (floats p) j = Ok t /\
    forall i, In i (vars N) -> exists row, dget t (net_name ops i) = Some row /\
      Forall2 (fun y q => fst q = y /\ 0 <= snd q /\ (snd q = 0 <-> exact_posterior N L i y = 0)) (dom N i) row.
Proof.
  intros HW Hc Ho Hh Hd Hp N L. destruct (c80_spread ops o h HW Hc Ho Hh Hd _ _ (c80_floats p Hp)) as [j [t [A1 [A2 [_ A3]]]]]. exists j, t. split; auto. split; auto.
  intros i Hi. destruct (A3 i Hi) as [row [R1 R2]]. exists row. split; auto. eapply F2_impl; [|exact R2]. intros y q [Q1 Q2]. split; auto. split. { apply Q2. } apply within_0 in Q2. tauto.
Qed.

(** ** the limit *)
Lemma qlt_add a x y : x < y -> a + x < a + y.
Proof. intros H. apply Qclt_minus_iff. apply Qclt_minus_iff in H. replace (a + y + - (a + x)) with (y + - x) by ring. auto. Qed.
Lemma qlt_opp x : 0 < x -> - x < 0.
Proof. intros H. apply Qclt_minus_iff. replace (0 + - - x) with x by ring. auto. Qed.
Lemma qmin_le (x y : Qc) : exists z, z <= x /\ z <= y /\ (z = x \/ z = y).
Proof. destruct (Qclt_le_dec x y) as [H|H]; [exists x|exists y]; repeat split; auto using Qcle_refl, Qclt_le_weak. Qed.
Lemma pow_mono r s k : 0 <= r -> r <= s -> r ^ k <= s ^ k.
Proof.
  intros Hr H. assert (Hs : 0 <= s) by (eapply Qcle_trans; eauto). induction k as [|k IH]; simpl. { apply Qcle_refl. } apply qle_mul2; auto. clear IH. induction k as [|k IH]; simpl; [discriminate|]. apply qnn_mul; auto.
Qed.
Lemma root_close k : forall e, 0 < e -> exists r, 1 < r /\ r ^ k <= 1 + e.
Proof.
  induction k as [|k IH]; intros e He.
  - exists (1 + 1). split; [reflexivity|]. simpl. replace 1 with (1 + 0) at 1 by ring. apply Qcplus_le_compat; [apply Qcle_refl|apply Qclt_le_weak; auto].
  - destruct (qmin_le 1 e) as [m [M1 [M2 M3]]]. assert (Hm : 0 < m) by (destruct M3; subst; auto; reflexivity). set (c := m / Q2Qc (3 # 1)).
    assert (Hc : 0 < c). { unfold c, Qcdiv. replace 0 with (0 * / Q2Qc (3 # 1)) by ring. apply Qcmult_lt_compat_r; auto. reflexivity. }
    destruct (IH c Hc) as [r0 [R1 R2]]. destruct (qmin_le r0 (1 + c)) as [r [S1 [S2 S3]]]. exists r. assert (Hr : 1 < r). { destruct S3; subst; auto. replace 1 with (1 + 0) at 1 by ring. apply qlt_add; auto. }
    split; auto. simpl. assert (H0 : 0 <= r) by (apply Qcle_trans with 1; [discriminate|apply Qclt_le_weak; auto]).
    apply Qcle_trans with ((1 + c) * (1 + c)).
    + apply qle_mul2; auto.
      * apply Qcle_trans with 1; [discriminate|]. replace 1 with (1 + 0) at 1 by ring. apply Qcplus_le_compat; [apply Qcle_refl|apply Qclt_le_weak; auto].
      * apply pow_nn. apply Qclt_le_weak; auto.
      * eapply Qcle_trans; [apply pow_mono; [auto|exact S1]|exact R2].
    + apply Qcle_trans with (1 + m).
      * assert (E3 : m = Q2Qc (3 # 1) * c). { unfold c. field. intros Z3. discriminate. } assert (Hc1 : c <= 1). { apply Qcle_trans with m; [|auto]. rewrite E3. replace c with (1 * c) at 1 by ring. apply qle_mul; [discriminate|apply Qclt_le_weak; auto]. }
        replace ((1 + c) * (1 + c)) with (1 + ((1 + 1) * c + c * c)) by ring. apply Qcplus_le_compat; [apply Qcle_refl|]. rewrite E3. replace (Q2Qc (3 # 1) * c) with ((1 + 1) * c + 1 * c) by (replace (Q2Qc (3 # 1)) with (1 + 1 + 1) by (apply Qc_is_canon; reflexivity); ring).
        apply Qcplus_le_compat; [apply Qcle_refl|]. apply qle_mul; auto. apply Qclt_le_weak; auto.
      * apply Qcplus_le_compat; [apply Qcle_refl|auto].
Qed.
Lemma within_close r k e x q : 0 < e -> x <= 1 -> r ^ k <= 1 + e -> within r k x q -> x - e <= q /\ q <= x + e.
Proof.
  intros He Hx Hr [W1 [W2 [W3 W4]]]. assert (He' : 0 <= e) by (apply Qclt_le_weak; auto). split.
  - apply Qcnot_lt_le. intros H. assert (A : x <= q * (1 + e)). { eapply Qcle_trans; [exact W3|]. rewrite (Qcmult_comm q), (Qcmult_comm q). apply qle_mul; auto. }
    assert (B : q * (1 + e) <= (x - e) * (1 + e)). { apply qle_mul. apply Qclt_le_weak; auto. apply qnn_add; auto. discriminate. }
    assert (C : (x - e) * (1 + e) < x).
    { replace ((x - e) * (1 + e)) with (x + (- (e * (1 - x)) - e * e)) by ring. apply Qclt_minus_iff. replace (x + - (x + (- (e * (1 - x)) - e * e))) with (0 + - (- (e * (1 - x)) - e * e)) by ring. apply Qclt_minus_iff with (p := - (e * (1 - x)) - e * e).
      assert (P1 : 0 <= e * (1 - x)). { apply qnn_mul; auto. replace 0 with (x - x) by ring. unfold Qcminus. apply Qcplus_le_compat; auto. apply Qcle_refl. }
      assert (P2 : 0 < e * e). { replace 0 with (0 * e) by ring. apply Qcmult_lt_compat_r; auto. }
      replace 0 with (0 + 0) by ring. unfold Qcminus. apply Qcle_lt_trans with (0 + - (e * e)). { apply Qcplus_le_compat; [|apply Qcle_refl]. apply Qcopp_le_compat in P1. exact P1. }
      apply qlt_add. apply qlt_opp; auto. }
    apply (Qcle_not_lt _ _ (Qcle_trans _ _ _ A B)). auto.
  - eapply Qcle_trans; [exact W4|]. apply Qcle_trans with (x * (1 + e)). { rewrite (Qcmult_comm x), (Qcmult_comm x). apply qle_mul; auto. }
    replace (x * (1 + e)) with (x + x * e) by ring. apply Qcplus_le_compat; [apply Qcle_refl|]. replace e with (1 * e) at 2 by ring. apply qle_mul; auto.
Qed.

Section Low.
  Context (N : net) (L : likelihood) (HN : nshape N) (HL : forall i v, In i (vars N) -> In v (dom N i) -> (0 <= L i v)%Qc).
  Lemma posterior_le1 i y : In i (vars N) -> In y (dom N i) -> exact_posterior N L i y <= 1.
  Proof using HN HL.
    intros Hi Hy. destruct (Qc_eq_dec (total N L) 0) as [E|E].
    - unfold exact_posterior. destruct (Qc_eq_dec (total N L) 0); [discriminate|tauto].
    - rewrite <- (posterior_sum N L HN i Hi E). assert (P : forall l, In y l -> exact_posterior N L i y <= qsum (map (exact_posterior N L i) l)); [|apply P; auto].
      intros l. assert (Z : forall l, 0 <= qsum (map (exact_posterior N L i) l)).
      { induction l0 as [|z l0 IH]; [discriminate|]. simpl. rewrite qsum_cons. apply qnn_add; auto. apply posterior_nonneg; auto. }
      induction l as [|z l IH]; [intros []|]. cbn [map]. rewrite qsum_cons. intros [->|H].
      + replace (exact_posterior N L i y) with (exact_posterior N L i y + 0) at 1 by ring. apply Qcplus_le_compat; auto using Qcle_refl.
      + replace (exact_posterior N L i y) with (0 + exact_posterior N L i y) at 1 by ring. apply Qcplus_le_compat; auto. apply posterior_nonneg; auto.
  Qed.
End Low.

Lemma within_mono r s k x y : 0 <= r -> r <= s -> within r k x y -> within s k x y.
Proof.
  intros Hr H [W1 [W2 [W3 W4]]]. pose proof (pow_mono r s k Hr H) as Hp. split; auto. split; auto.
  split; [eapply Qcle_trans; [exact W3|]; rewrite (Qcmult_comm y), (Qcmult_comm y)|eapply Qcle_trans; [exact W4|]; rewrite (Qcmult_comm x), (Qcmult_comm x)]; apply qle_mul; auto.
Qed.
Lemma accurate_mono r s a : r <= s -> accurate r a -> accurate s a.
Proof.
  intros H [H1 H2 H3]. assert (Hr : 0 <= r) by (apply Qcle_trans with 1; auto; discriminate). constructor.
  - eapply Qcle_trans; eauto.
  - intros x Hx. apply within_mono with r; auto.
  - intros l Hl. apply within_mono with r; auto.
Qed.
Lemma ulp_small r : 1 < r -> exists p0, (1 <= p0)%Z /\ forall p, (p0 <= p)%Z -> ulp_factor p <= r.
Proof.
  intros H. apply Qclt_minus_iff in H. set (s := (r + - (1))) in *. set (d := Qden (this s)). exists (Z.succ (Zpos d)). split; [lia|]. intros p Hp.
  assert (B : (Zpos d <= 2 ^ (p - 1))%Z). { apply Z.le_trans with (2 ^ Zpos d)%Z; [|apply Z.pow_le_mono_r; lia]. pose proof (Z.pow_gt_lin_r 2 (Zpos d)). lia. }
  replace r with (1 + s) by (unfold s; ring). unfold ulp_factor. apply Qcplus_le_compat; [apply Qcle_refl|]. apply qcle_q. rewrite this_inv, (this_of (inject_Z _)).
  assert (H' : (0 < Qnum (this s))%Z). { unfold Qclt, Qlt in H. change (Qnum (this 0)) with 0%Z in H. change (QDen (this 0)) with 1%Z in H. lia. }
  set (t := (2 ^ (p - 1))%Z) in *. destruct t as [|t|t]; try lia. unfold Qle. cbn [Qinv inject_Z Qnum Qden]. fold d. nia.
Qed.

Lemma unit_force N h : forall L, unitL N L -> unitL N (fold_left (effect N) h L).
Proof. induction h as [|c h IH]; intros L H; cbn [fold_left]; auto. apply IH, unit_effect; auto. Qed.

Theorem c80_limit ops : well_shaped ops -> connected ops -> forall e, 0 < e -> exists p0, forall p, (p0 <= p)%Z ->
  forall o h, ord_ok o -> valid_history (net_of ops) h -> Forall hard_call (calls h) -> let N := net_of ops in let L := in_force N (calls h) in exists j t, session_r (floats p) o ops h = Ok j /\ get_posteriors_r (floats p) j = Ok t /\
    forall i, In i (vars N) -> exists row, dget t (net_name ops i) = Some row /\
      Forall2 (fun y q => fst q = y /\ exact_posterior N L i y - e <= snd q /\ snd q <= exact_posterior N L i y + e) (dom N i) row.
Proof.
  intros HW Hc e He. set (k := spread_of ops). destruct (root_close k e He) as [r [R1 R2]]. destruct (ulp_small r R1) as [p0 [P1 P2]].
  exists p0. intros p Hp o h Ho Hh Hd N L. pose proof (c80_spread ops o h HW Hc Ho Hh Hd) as K. cbv zeta in K. fold N L k in K. assert (Ha : accurate r (floats p)). { eapply accurate_mono; [apply P2; exact Hp|apply c80_floats; lia]. }
  destruct (K _ _ Ha) as [j [t [A1 [A2 [_ A3]]]]]. exists j, t. split; auto. split; auto. intros i Hi. destruct (A3 i Hi) as [row [B1 B2]]. exists row. split; auto.
  assert (HL : forall i v, In i (vars N) -> In v (dom N i) -> 0 <= L i v). { intros i' v Hi' Hv. apply (unit_force N (calls h) no_evidence (unit_none N) i' v); auto. }
  unfold row_within in B2. assert (G : forall l, incl l (dom N i) -> forall row, Forall2 (fun y q => fst q = y /\ within r k (exact_posterior N L i y) (snd q)) l row ->
    Forall2 (fun y q => fst q = y /\ exact_posterior N L i y - e <= snd q /\ snd q <= exact_posterior N L i y + e) l row).
  { intros l Hl row0 F. induction F as [|y q l row0 [F1 F2] F IH]; constructor.
    - split; auto. eapply within_close; eauto. apply (posterior_le1 N L (net_shape ops HW) HL); auto. apply Hl. left; auto.
    - apply IH. intros z Hz. apply Hl. right; auto. }
  apply G; auto. apply incl_refl.
Qed.
