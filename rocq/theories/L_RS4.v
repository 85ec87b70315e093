(** Rounding to binary digits moves no number past one that has as many digits. *)
From Verif Require Import Py M_Graph M_Node M_Pptc M_Str M_Round Spec SpecRound SpecStored L_Base L_Str L_Round L_Round5 L_Range.
Open Scope nat_scope.
Open Scope Qc_scope.

Lemma exponent_up p n d : (1 <= p)%Z -> (0 < n)%Z -> let e := exponent p n d in (n * 2 ^ Z.max 0 (- e) < 2 ^ p * (Zpos d * 2 ^ Z.max 0 e))%Z.
Proof.
  intros Hp Hn. cbv zeta. unfold exponent. cbv zeta. set (e := (Z.log2 n - Z.log2 (Zpos d) - p)%Z). pose proof (Z.log2_spec n Hn) as [N1 N2]. pose proof (Z.log2_spec (Zpos d) ltac:(lia)) as [D1 D2].
  pose proof (Z.log2_nonneg n) as L1. pose proof (Z.log2_nonneg (Zpos d)) as L2.
  destruct (Z.ltb_spec (n * 2 ^ Z.max 0 (- e)) (2 ^ p * Zpos d * 2 ^ Z.max 0 e)) as [H|H]; [rewrite Z.mul_assoc; exact H|].
  (* n < 2^(ln+1), d >= 2^ld *)
  apply Z.lt_le_trans with (2 ^ Z.succ (Z.log2 n) * 2 ^ Z.max 0 (- (e + 1)))%Z. { apply Z.mul_lt_mono_pos_r; auto. apply Z.pow_pos_nonneg; lia. }
  apply Z.le_trans with (2 ^ p * (2 ^ Z.log2 (Zpos d) * 2 ^ Z.max 0 (e + 1)))%Z.
  { rewrite <- !Z.pow_add_r by lia. apply Z.pow_le_mono_r; lia. }
  apply Z.mul_le_mono_nonneg_l. { apply Z.pow_nonneg; lia. } apply Z.mul_le_mono_nonneg_r; auto. apply Z.pow_nonneg; lia.
Qed.

(** k * 2^e *)
Definition dyadic (k e : Z) : Qc := Q2Qc ((k * 2 ^ Z.max 0 e)%Z # Z.to_pos (2 ^ Z.max 0 (- e))).
Lemma dyadic_le k e x : dyadic k e <= x <-> (k * 2 ^ Z.max 0 e * Zpos (Qden (this x)) <= Qnum (this x) * 2 ^ Z.max 0 (- e))%Z.
Proof. unfold dyadic, Qcle. rewrite (this_of (_ # _)). unfold Qle. cbn [Qnum Qden]. rewrite Z2Pos.id by (apply Z.pow_pos_nonneg; lia). tauto. Qed.
Lemma le_dyadic k e x : x <= dyadic k e <-> (Qnum (this x) * 2 ^ Z.max 0 (- e) <= k * 2 ^ Z.max 0 e * Zpos (Qden (this x)))%Z.
Proof. unfold dyadic, Qcle. rewrite (this_of (_ # _)). unfold Qle. cbn [Qnum Qden]. rewrite Z2Pos.id by (apply Z.pow_pos_nonneg; lia). tauto. Qed.
Lemma dyadics_le k e k' e' : dyadic k e <= dyadic k' e' <-> (k * (2 ^ Z.max 0 e * 2 ^ Z.max 0 (- e')) <= k' * (2 ^ Z.max 0 e' * 2 ^ Z.max 0 (- e)))%Z.
Proof.
  unfold dyadic, Qcle. rewrite (this_of ((k * _)%Z # _)), (this_of ((k' * _)%Z # _)). unfold Qle. cbn [Qnum Qden]. rewrite !Z2Pos.id by (apply Z.pow_pos_nonneg; lia). rewrite !Z.mul_assoc. tauto.
Qed.
(** scales of two exponents *)
Lemma scales e e' : (e <= e')%Z -> (2 ^ Z.max 0 e' * 2 ^ Z.max 0 (- e) = 2 ^ (e' - e) * (2 ^ Z.max 0 e * 2 ^ Z.max 0 (- e')))%Z.
Proof. intros H. rewrite <- !Z.pow_add_r by lia. f_equal. lia. Qed.

Lemma digits_as p x : (1 <= p)%Z -> 0 < x -> exists m e, digits p x = dyadic m e /\ let A := (Qnum (this x) * 2 ^ Z.max 0 (- e))%Z in let B := (Zpos (Qden (this x)) * 2 ^ Z.max 0 e)%Z in
  (0 < B /\ 2 ^ (p - 1) * B <= A < 2 ^ p * B /\ 2 * A - B <= 2 * m * B <= 2 * A + B)%Z.
Proof.
  intros Hp H0. unfold digits. cbv zeta. set (n := Qnum (this x)). set (d := Qden (this x)).
  assert (Hn : (0 < n)%Z). { unfold Qclt, Qlt in H0. change (Qnum (this 0)) with 0%Z in H0. change (QDen (this 0)) with 1%Z in H0. fold n in H0. lia. }
  rewrite Z.abs_eq by lia. destruct (Z.eqb_spec n 0) as [E|_]; [lia|]. rewrite Z.sgn_pos by auto. rewrite Z.mul_1_l.
  pose proof (exponent_ok p n d Hp Hn) as He. pose proof (exponent_up p n d Hp Hn) as Hu. cbv zeta in He, Hu. set (e := exponent p n d) in *.
  assert (HP : (0 < 2 ^ Z.max 0 e)%Z) by (apply Z.pow_pos_nonneg; lia). assert (HQ : (0 < 2 ^ Z.max 0 (- e))%Z) by (apply Z.pow_pos_nonneg; lia).
  assert (HA : (0 <= n * 2 ^ Z.max 0 (- e))%Z) by nia. destruct (rounded_ok (n * 2 ^ Z.max 0 (- e)) (d * Z.to_pos (2 ^ Z.max 0 e)) HA) as [M1 M2].
  rewrite Pos2Z.inj_mul, Z2Pos.id in M2 by auto.
  exists (rounded (n * 2 ^ Z.max 0 (- e)) (d * Z.to_pos (2 ^ Z.max 0 e))), e. split; [reflexivity|]. split; [nia|]. split; [split; lia|]. exact M2.
Qed.
Lemma two_p p : (1 <= p)%Z -> (2 ^ p = 2 * 2 ^ (p - 1))%Z.
Proof. intros H. replace p with (1 + (p - 1))%Z at 1 by lia. rewrite Z.pow_add_r by lia. reflexivity. Qed.
Lemma digits_rep p x : (1 <= p)%Z -> 0 <= x -> exists k e, (0 <= k <= 2 ^ p)%Z /\ digits p x = dyadic k e.
Proof.
  intros Hp Hx. assert (HT : (0 < 2 ^ (p - 1))%Z) by (apply Z.pow_pos_nonneg; lia). pose proof (two_p p Hp) as Tp. destruct (Qcle_lt_or_eq _ _ Hx) as [H0|H0].
  - destruct (digits_as p x Hp H0) as (m & e & E & HB & [H1 H2] & [H3 H4]). exists m, e. split; [|exact E].
    set (A := (Qnum (this x) * 2 ^ Z.max 0 (- e))%Z) in *. set (B := (Zpos (Qden (this x)) * 2 ^ Z.max 0 e)%Z) in *. split; nia.
  - exists 0%Z, 0%Z. split; [lia|]. rewrite <- H0. apply Qc_is_canon. reflexivity.
Qed.
Lemma digits_down p x k e' : (1 <= p)%Z -> (0 <= k <= 2 ^ p)%Z -> 0 <= x -> dyadic k e' <= x -> dyadic k e' <= digits p x.
Proof.
  intros Hp Hk Hx Ha. destruct (Qcle_lt_or_eq _ _ Hx) as [H0|H0]. 2:{ rewrite <- H0 in *. exact Ha. }
  assert (HT : (0 < 2 ^ (p - 1))%Z) by (apply Z.pow_pos_nonneg; lia). pose proof (two_p p Hp) as Tp.
  destruct (digits_as p x Hp H0) as (m & e & -> & HB & [H1 H2] & [H3 H4]). apply dyadic_le in Ha. apply dyadics_le.
  assert (HP : (0 < 2 ^ Z.max 0 e)%Z) by (apply Z.pow_pos_nonneg; lia). assert (HQ : (0 < 2 ^ Z.max 0 (- e))%Z) by (apply Z.pow_pos_nonneg; lia).
  assert (HP' : (0 < 2 ^ Z.max 0 e')%Z) by (apply Z.pow_pos_nonneg; lia). assert (HQ' : (0 < 2 ^ Z.max 0 (- e'))%Z) by (apply Z.pow_pos_nonneg; lia).
  set (n := Qnum (this x)) in *. set (d := Zpos (Qden (this x))) in *. assert (Hd : (0 < d)%Z) by (unfold d; lia).
  assert (Hm : forall t, (t * (d * 2 ^ Z.max 0 e) <= n * 2 ^ Z.max 0 (- e))%Z -> (t <= m)%Z) by (intros t Ht; nia).
  destruct (Z_le_gt_dec e e') as [C|C].
  - rewrite (scales e e' C). set (U := (2 ^ Z.max 0 e * 2 ^ Z.max 0 (- e'))%Z). assert (HU : (0 < U)%Z) by (unfold U; nia). rewrite Z.mul_assoc. apply Z.mul_le_mono_nonneg_r; [lia|]. apply Hm.
    apply Z.mul_le_mono_pos_r with (2 ^ Z.max 0 (- e'))%Z; auto. pose proof (scales e e' C) as S.
    replace (k * 2 ^ (e' - e) * (d * 2 ^ Z.max 0 e) * 2 ^ Z.max 0 (- e'))%Z with (k * d * (2 ^ (e' - e) * (2 ^ Z.max 0 e * 2 ^ Z.max 0 (- e'))))%Z by ring. rewrite <- S.
    replace (k * d * (2 ^ Z.max 0 e' * 2 ^ Z.max 0 (- e)))%Z with (k * 2 ^ Z.max 0 e' * d * 2 ^ Z.max 0 (- e))%Z by ring. replace (n * 2 ^ Z.max 0 (- e) * 2 ^ Z.max 0 (- e'))%Z with (n * 2 ^ Z.max 0 (- e') * 2 ^ Z.max 0 (- e))%Z by ring.
    apply Z.mul_le_mono_nonneg_r; lia.
  - rewrite (scales e' e ltac:(lia)). set (V := (2 ^ Z.max 0 e' * 2 ^ Z.max 0 (- e))%Z). assert (HV : (0 < V)%Z) by (unfold V; nia). assert (M : (2 ^ (p - 1) <= m)%Z) by (apply Hm; exact H1).
    assert (T2 : (2 <= 2 ^ (e - e'))%Z). { change 2%Z with (2 ^ 1)%Z at 1. apply Z.pow_le_mono_r; lia. } rewrite Z.mul_assoc. apply Z.mul_le_mono_nonneg_r; [lia|]. nia.
Qed.
Lemma digits_up p x k e' : (1 <= p)%Z -> (0 <= k <= 2 ^ p)%Z -> 0 <= x -> x <= dyadic k e' -> digits p x <= dyadic k e'.
Proof.
  intros Hp Hk Hx Ha. destruct (Qcle_lt_or_eq _ _ Hx) as [H0|H0]. 2:{ rewrite <- H0 in *. exact Ha. }
  assert (HT : (0 < 2 ^ (p - 1))%Z) by (apply Z.pow_pos_nonneg; lia). pose proof (two_p p Hp) as Tp.
  destruct (digits_as p x Hp H0) as (m & e & -> & HB & [H1 H2] & [H3 H4]). apply le_dyadic in Ha. apply dyadics_le.
  assert (HP : (0 < 2 ^ Z.max 0 e)%Z) by (apply Z.pow_pos_nonneg; lia). assert (HQ : (0 < 2 ^ Z.max 0 (- e))%Z) by (apply Z.pow_pos_nonneg; lia).
  assert (HP' : (0 < 2 ^ Z.max 0 e')%Z) by (apply Z.pow_pos_nonneg; lia). assert (HQ' : (0 < 2 ^ Z.max 0 (- e'))%Z) by (apply Z.pow_pos_nonneg; lia).
  set (n := Qnum (this x)) in *. set (d := Zpos (Qden (this x))) in *. assert (Hd : (0 < d)%Z) by (unfold d; lia).
  assert (Hm : forall t, (n * 2 ^ Z.max 0 (- e) <= t * (d * 2 ^ Z.max 0 e))%Z -> (m <= t)%Z) by (intros t Ht; nia).
  assert (K : (n * 2 ^ Z.max 0 (- e) * 2 ^ Z.max 0 (- e') <= k * d * (2 ^ Z.max 0 e' * 2 ^ Z.max 0 (- e)))%Z).
  { replace (n * 2 ^ Z.max 0 (- e) * 2 ^ Z.max 0 (- e'))%Z with (n * 2 ^ Z.max 0 (- e') * 2 ^ Z.max 0 (- e))%Z by ring. replace (k * d * (2 ^ Z.max 0 e' * 2 ^ Z.max 0 (- e)))%Z with (k * 2 ^ Z.max 0 e' * d * 2 ^ Z.max 0 (- e))%Z by ring. apply Z.mul_le_mono_nonneg_r; lia. }
  destruct (Z_le_gt_dec e e') as [C|C].
  - pose proof (scales e e' C) as S. rewrite S. set (U := (2 ^ Z.max 0 e * 2 ^ Z.max 0 (- e'))%Z) in *. assert (HU : (0 < U)%Z) by (unfold U; nia). rewrite Z.mul_assoc. apply Z.mul_le_mono_nonneg_r; [lia|]. apply Hm.
    apply Z.mul_le_mono_pos_r with (2 ^ Z.max 0 (- e'))%Z; auto. eapply Z.le_trans; [exact K|]. rewrite S. unfold U. apply Z.eq_le_incl. ring.
  - pose proof (scales e' e ltac:(lia)) as S. set (U := (2 ^ Z.max 0 e * 2 ^ Z.max 0 (- e'))%Z) in *. set (V := (2 ^ Z.max 0 e' * 2 ^ Z.max 0 (- e))%Z) in *. assert (HV : (0 < V)%Z) by (unfold V; nia). assert (HU : (0 < U)%Z) by (unfold U; nia).
    assert (T2 : (2 <= 2 ^ (e - e'))%Z). { change 2%Z with (2 ^ 1)%Z at 1. apply Z.pow_le_mono_r; lia. }
    assert (UV : (2 * V <= U)%Z) by nia.
    assert (L1 : (2 ^ (p - 1) * d * U <= n * 2 ^ Z.max 0 (- e) * 2 ^ Z.max 0 (- e'))%Z). { unfold U. replace (2 ^ (p - 1) * d * (2 ^ Z.max 0 e * 2 ^ Z.max 0 (- e')))%Z with (2 ^ (p - 1) * (d * 2 ^ Z.max 0 e) * 2 ^ Z.max 0 (- e'))%Z by ring. apply Z.mul_le_mono_nonneg_r; lia. }
    assert (L2 : (k * V <= 2 ^ (p - 1) * U)%Z) by nia.
    assert (L3 : (2 ^ (p - 1) * U <= k * V)%Z). { apply Z.mul_le_mono_pos_r with d; auto. replace (2 ^ (p - 1) * U * d)%Z with (2 ^ (p - 1) * d * U)%Z by ring. eapply Z.le_trans; [exact L1|]. eapply Z.le_trans; [exact K|]. apply Z.eq_le_incl. ring. }
    eapply Z.le_trans; [|exact L3]. apply Z.mul_le_mono_nonneg_r; [lia|]. apply Hm. apply Z.mul_le_mono_pos_r with (2 ^ Z.max 0 (- e'))%Z; auto. eapply Z.le_trans; [exact K|].
    replace (2 ^ (p - 1) * (d * 2 ^ Z.max 0 e) * 2 ^ Z.max 0 (- e'))%Z with (2 ^ (p - 1) * U * d)%Z by (unfold U; ring). replace (k * d * V)%Z with (k * V * d)%Z by ring. apply Z.mul_le_mono_nonneg_r; lia.
Qed.
Theorem c109_floats p : (1 <= p)%Z -> steady (ulp_factor p) (digits p).
Proof.
  intros Hp. constructor; [apply ulp_one; auto|intros x; apply digits_within; auto| |]; intros x y Hx Hy H; destruct (digits_rep p x Hp Hx) as (k & e & Hk & E); rewrite E in *; [apply digits_down|apply digits_up]; auto.
Qed.
