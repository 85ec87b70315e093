(** Rounded inference stays close to exact inference. *)
From Verif Require Import Py M_Graph M_Node M_Pptc M_Round SpecRound L_Base.
Open Scope Qc_scope.

(** ** numbers *)
Lemma qle_mul a b c : a <= b -> 0 <= c -> a * c <= b * c. Proof. intros; apply Qcmult_le_compat_r; auto. Qed.
Lemma qnn_mul a b : 0 <= a -> 0 <= b -> 0 <= a * b.
Proof. intros H H'. replace 0 with (0 * b) by ring. apply qle_mul; auto. Qed.
Lemma qnn_add a b : 0 <= a -> 0 <= b -> 0 <= a + b.
Proof. intros H H'. replace 0 with (0 + 0) by ring. apply Qcplus_le_compat; auto. Qed.
Lemma qle_mul2 a b c d : 0 <= b -> 0 <= c -> a <= b -> c <= d -> a * c <= b * d.
Proof. intros Hb Hc H1 H2. eapply Qcle_trans; [apply qle_mul; eauto|]. rewrite (Qcmult_comm b c), (Qcmult_comm b d). apply qle_mul; auto. Qed.
Lemma one_nn : 0 <= 1. Proof. discriminate. Qed.
Lemma pow_add (r : Qc) k l : r ^ (k + l) = r ^ k * r ^ l.
Proof. induction k; simpl; [ring|]. rewrite IHk. ring. Qed.
Lemma pow_ge1 r k : 1 <= r -> 1 <= r ^ k.
Proof. intros H. induction k; simpl; [apply Qcle_refl|]. replace 1 with (1 * 1) by ring. apply qle_mul2; auto using one_nn. apply Qcle_trans with 1; auto using one_nn. Qed.
Lemma pow_nn r k : 1 <= r -> 0 <= r ^ k. Proof. intros H. apply Qcle_trans with 1; auto using one_nn, pow_ge1. Qed.

Lemma within_refl r x : 0 <= x -> within r 0 x x.
Proof. intros H. unfold within. simpl. rewrite Qcmult_1_r. auto using Qcle_refl. Qed.
Lemma within_trans r k l x y z : 1 <= r -> within r k x y -> within r l y z -> within r (k + l) x z.
Proof.
  intros Hr [A1 [A2 [A3 A4]]] [B1 [B2 [B3 B4]]]. unfold within. rewrite pow_add. split; auto. split; auto. split.
  - eapply Qcle_trans; [exact A3|]. replace (z * (r ^ k * r ^ l)) with ((z * r ^ l) * r ^ k) by ring. apply qle_mul; auto using pow_nn.
  - eapply Qcle_trans; [exact B4|]. replace (x * (r ^ k * r ^ l)) with ((x * r ^ k) * r ^ l) by ring. apply qle_mul; auto using pow_nn.
Qed.
Lemma within_le r k l x y : 1 <= r -> (k <= l)%nat -> within r k x y -> within r l x y.
Proof.
  intros Hr Hk [A1 [A2 [A3 A4]]]. replace l with (k + (l - k))%nat by lia. unfold within. rewrite pow_add.
  assert (G : forall z, 0 <= z -> z * r ^ k <= z * (r ^ k * r ^ (l - k))).
  { intros z Hz. replace (z * r ^ k) with ((z * r ^ k) * 1) by ring. replace (z * (r ^ k * r ^ (l - k))) with ((z * r ^ k) * r ^ (l - k)) by ring.
    apply qle_mul2; auto using one_nn, qnn_mul, pow_nn, Qcle_refl, pow_ge1. }
  split; auto. split; auto. split; (eapply Qcle_trans; [eassumption|]); auto.
Qed.
Lemma within_mul r k l x x' y y' : 1 <= r -> within r k x x' -> within r l y y' -> within r (k + l) (x * y) (x' * y').
Proof.
  intros Hr [A1 [A2 [A3 A4]]] [B1 [B2 [B3 B4]]]. unfold within. rewrite pow_add. split; auto using qnn_mul. split; auto using qnn_mul. split.
  - replace (x' * y' * (r ^ k * r ^ l)) with ((x' * r ^ k) * (y' * r ^ l)) by ring. apply qle_mul2; auto using qnn_mul, pow_nn.
  - replace (x * y * (r ^ k * r ^ l)) with ((x * r ^ k) * (y * r ^ l)) by ring. apply qle_mul2; auto using qnn_mul, pow_nn.
Qed.
Lemma within_add r k x x' y y' : within r k x x' -> within r k y y' -> within r k (x + y) (x' + y').
Proof.
  intros [A1 [A2 [A3 A4]]] [B1 [B2 [B3 B4]]]. unfold within. split; auto using qnn_add. split; auto using qnn_add. split.
  - replace ((x' + y') * r ^ k) with (x' * r ^ k + y' * r ^ k) by ring. apply Qcplus_le_compat; auto.
  - replace ((x + y) * r ^ k) with (x * r ^ k + y * r ^ k) by ring. apply Qcplus_le_compat; auto.
Qed.
Lemma within_0 r k x y : within r k x y -> (x = 0 <-> y = 0).
Proof.
  intros [A1 [A2 [A3 A4]]]. split; intros ->; [replace (0 * r ^ k) with 0 in A4 by ring|replace (0 * r ^ k) with 0 in A3 by ring]; apply Qcle_antisym; auto.
Qed.
Lemma inv_nn y : 0 <= y -> 0 <= / y.
Proof.
  intros H. destruct (Qc_eq_dec y 0) as [->|E]; [discriminate|]. unfold Qcle. simpl. rewrite Qred_correct. apply Qinv_le_0_compat. exact H.
Qed.
Lemma within_inv r k y y' : 1 <= r -> y <> 0 -> within r k y y' -> within r k (/ y) (/ y').
Proof.
  intros Hr Hy W. assert (Hy' : y' <> 0) by (intros E; apply Hy; apply (within_0 _ _ _ _ W); auto). destruct W as [A1 [A2 [A3 A4]]]. unfold within.
  split; auto using inv_nn. split; auto using inv_nn. split.
  - replace (/ y) with (y' * (/ y * / y')) by (field; auto). replace (/ y' * r ^ k) with (y * r ^ k * (/ y * / y')) by (field; auto). apply qle_mul; auto using qnn_mul, inv_nn.
  - replace (/ y') with (y * (/ y * / y')) by (field; auto). replace (/ y * r ^ k) with (y' * r ^ k * (/ y * / y')) by (field; auto). apply qle_mul; auto using qnn_mul, inv_nn.
Qed.
Lemma within_div r k l x x' y y' : 1 <= r -> y <> 0 -> within r k x x' -> within r l y y' -> within r (k + l) (x / y) (x' / y').
Proof. intros Hr Hy H1 H2. unfold Qcdiv. apply within_mul; auto. apply within_inv; auto. Qed.
Lemma within_zero_test r k x y : within r k x y -> is_zero x = is_zero y.
Proof.
  intros H. apply within_0 in H. unfold is_zero. destruct (qeqb 0 x) eqn:E, (qeqb 0 y) eqn:E'; auto; rewrite ?qeqb_true, ?qeqb_false in *; exfalso; [apply E'|apply E]; symmetry; apply H; auto.
Qed.
Lemma qsum_acc l : forall s, fold_left Qcplus l s = s + qsum l.
Proof. unfold qsum. induction l as [|x l IH]; intros s; simpl. { ring. } rewrite IH, (IH (0 + x)). ring. Qed.
Lemma within_sum r k l l' : Forall2 (within r k) l l' -> within r k (qsum l) (qsum l').
Proof.
  induction 1 as [|x x' l l' H F IH]. { unfold within, qsum. simpl. rewrite Qcmult_0_l. auto using Qcle_refl. }
  unfold qsum. simpl. rewrite !qsum_acc. replace (0 + x) with x by ring. replace (0 + x') with x' by ring. apply within_add; auto.
Qed.

Lemma F2_impl {A B} (R S : A -> B -> Prop) l l' : (forall a b, R a b -> S a b) -> Forall2 R l l' -> Forall2 S l l'.
Proof. intros H. induction 1; auto. Qed.
Lemma F2_map {A B C D} (R : A -> B -> Prop) (S : C -> D -> Prop) f g l l' : (forall a b, R a b -> S (f a) (g b)) -> Forall2 R l l' -> Forall2 S (map f l) (map g l').
Proof. intros H. induction 1; simpl; auto. Qed.
Lemma F2_length {A B} (R : A -> B -> Prop) l l' : Forall2 R l l' -> List.length l = List.length l'.
Proof. induction 1; simpl; congruence. Qed.
Lemma F2_filter {A B} (R : A -> B -> Prop) f g l l' : (forall a b, R a b -> f a = g b) -> Forall2 R l l' -> Forall2 R (filter f l) (filter g l').
Proof. intros H. induction 1; simpl; auto. rewrite (H _ _ H0). destruct (g y); auto. Qed.

(** ** what holds when numbers between some bounds are accurate enough; the bounds may depend on how large the factor may be *)
Definition near (P : Qc -> arith -> Prop) : Prop := forall R, exists lo hi, 0 < lo /\ forall r a, r <= R -> accurate_between lo hi r a -> P r a.
Lemma qmin2 (x y : Qc) : 0 < x -> 0 < y -> exists z, 0 < z /\ z <= x /\ z <= y.
Proof. intros Hx Hy. destruct (Qclt_le_dec x y) as [H|H]; [exists x|exists y]; repeat split; auto using Qcle_refl, Qclt_le_weak. Qed.
Lemma qmax2 (x y : Qc) : exists z, x <= z /\ y <= z.
Proof. destruct (Qclt_le_dec x y) as [H|H]; [exists y|exists x]; repeat split; auto using Qcle_refl, Qclt_le_weak. Qed.
Lemma between_mono lo lo' hi hi' r a : lo <= lo' -> hi' <= hi -> accurate_between lo hi r a -> accurate_between lo' hi' r a.
Proof.
  intros H H' [H1 H2 H3]. constructor; auto.
  - intros x [Hx|Hx] Hy; apply H2; auto. eapply Qcle_trans; eauto. right. eapply Qcle_trans; eauto. eapply Qcle_trans; eauto.
  - intros l Hl Hy. apply H3; [|eapply Qcle_trans; eauto]. eapply Forall_impl; [|exact Hl]. intros x [Hx|Hx]; auto. right. eapply Qcle_trans; eauto.
Qed.
Lemma near_of (P : Qc -> arith -> Prop) : (forall r a, 1 <= r -> P r a) -> near P.
Proof. intros H R. exists 1, 1. split; [reflexivity|]. intros r a _ Ha. apply H. apply (ab_one _ _ _ _ Ha). Qed.
Lemma near_1 (P Q : Qc -> arith -> Prop) : near P -> (forall r a, 1 <= r -> P r a -> Q r a) -> near Q.
Proof. intros HP H R. destruct (HP R) as (lo & hi & Hl & K). exists lo, hi. split; auto. intros r a Hr Ha. apply H; auto. apply (ab_one _ _ _ _ Ha). Qed.
Lemma near_and P Q : near P -> near Q -> near (fun r a => P r a /\ Q r a).
Proof.
  intros HP HQ R. destruct (HP R) as (lo & hi & Hl & K), (HQ R) as (lo' & hi' & Hl' & K'). destruct (qmin2 lo lo' Hl Hl') as (z & Z1 & Z2 & Z3), (qmax2 hi hi') as (y & Y1 & Y2). exists z, y. split; auto.
  intros r a Hr Ha. split; [apply K|apply K']; auto; eapply between_mono; eauto.
Qed.
Lemma near_2 (P1 P2 Q : Qc -> arith -> Prop) : near P1 -> near P2 -> (forall r a, 1 <= r -> P1 r a -> P2 r a -> Q r a) -> near Q.
Proof. intros H1 H2 H. eapply near_1; [apply near_and; [exact H1|exact H2]|]. intros r a Hr [A B]. auto. Qed.
Lemma near_3 (P1 P2 P3 Q : Qc -> arith -> Prop) : near P1 -> near P2 -> near P3 -> (forall r a, 1 <= r -> P1 r a -> P2 r a -> P3 r a -> Q r a) -> near Q.
Proof. intros H1 H2 H3 H. eapply near_2; [exact H1|apply near_and; [exact H2|exact H3]|]. intros r a Hr A [B C]. auto. Qed.
Lemma near_all {X} (l : list X) (P : X -> Qc -> arith -> Prop) : (forall x, In x l -> near (P x)) -> near (fun r a => forall x, In x l -> P x r a).
Proof.
  induction l as [|x l IH]; intros H. { apply near_of. intros r a _ y []. }
  eapply near_2; [apply (H x); left; auto|apply IH; intros y Hy; apply H; right; auto|]. intros r a _ A B y [<-|Hy]; auto.
Qed.

(** a number within [r ^ k] of [x > 0] is not too small *)
Lemma low_bound k x R : 0 < x -> exists lo, 0 < lo /\ forall r y, r <= R -> 1 <= r -> within r k x y -> lo <= y.
Proof.
  intros Hx. destruct (Qclt_le_dec R 1) as [HR|HR]. { exists 1. split; [reflexivity|]. intros r y H1 H2. exfalso. apply (Qcle_not_lt _ _ (Qcle_trans _ _ _ H2 H1)). auto. }
  pose proof (pow_ge1 R k HR) as HP. assert (HP0 : 0 < R ^ k) by (apply Qclt_le_trans with 1; [reflexivity|auto]). assert (HPn : R ^ k <> 0) by (intros E; rewrite E in HP0; discriminate).
  exists (x / R ^ k). assert (HI : 0 < / R ^ k). { apply Qcnot_le_lt. intros H. assert (E : R ^ k * / R ^ k <= 0). { replace 0 with (0 * R ^ k) by ring. rewrite Qcmult_comm. apply qle_mul; auto. apply Qclt_le_weak; auto. } rewrite Qcmult_inv_r in E by auto. apply (Qcle_not_lt _ _ E). reflexivity. }
  split. { unfold Qcdiv. replace 0 with (0 * / R ^ k) by ring. apply Qcmult_lt_compat_r; auto. }
  intros r y H1 H2 [W1 [W2 [W3 W4]]]. assert (H0 : 0 <= r) by (apply Qcle_trans with 1; auto using one_nn).
  assert (Hm : r ^ k <= R ^ k). { clear - H0 H1 H2 HR. induction k as [|k IH]; simpl. apply Qcle_refl. apply qle_mul2; auto. apply Qcle_trans with r; auto. apply pow_nn; auto. }
  assert (H3 : x <= y * R ^ k). { eapply Qcle_trans; [exact W3|]. rewrite (Qcmult_comm y), (Qcmult_comm y). apply qle_mul; auto. }
  unfold Qcdiv. replace y with (y * R ^ k * / R ^ k) by (field; auto). apply qle_mul; auto. apply Qclt_le_weak; auto.
Qed.
Lemma high_bound k x R : 0 <= x -> exists hi, forall r y, r <= R -> 1 <= r -> within r k x y -> y <= hi.
Proof.
  intros Hx. destruct (Qclt_le_dec R 1) as [HR|HR]. { exists 1. intros r y H1 H2. exfalso. apply (Qcle_not_lt _ _ (Qcle_trans _ _ _ H2 H1)). auto. }
  exists (x * R ^ k). intros r y H1 H2 [_ [_ [_ W]]]. eapply Qcle_trans; [exact W|]. rewrite (Qcmult_comm x), (Qcmult_comm x). apply qle_mul; auto.
  assert (H0 : 0 <= r) by (apply Qcle_trans with 1; auto using one_nn). clear - H0 H1 H2 HR. induction k as [|k IH]; simpl. apply Qcle_refl. apply qle_mul2; auto. apply Qcle_trans with r; auto. apply pow_nn; auto.
Qed.
Lemma rnd_near k x : near (fun r a => forall y, within r k x y -> within r (S k) x (r_rnd a y)).
Proof.
  intros R. destruct (Qclt_le_dec 0 x) as [Hx|Hx].
  - destruct (low_bound k x R Hx) as (lo & Hl & K), (high_bound k x R (Qclt_le_weak _ _ Hx)) as (hi & K'). exists lo, hi. split; auto. intros r a Hr Ha y W. replace (S k) with (k + 1)%nat by lia. pose proof (ab_one _ _ _ _ Ha). apply within_trans with y; auto.
    apply (ab_rnd _ _ _ _ Ha). right. eapply K; eauto. eapply K'; eauto.
  - exists 1, 1. split; [reflexivity|]. intros r a Hr Ha y W. pose proof (ab_one _ _ _ _ Ha). assert (x = 0) as -> by (apply Qcle_antisym; auto; apply W). assert (y = 0) as -> by (apply (within_0 _ _ _ _ W); auto).
    apply within_le with 1%nat; auto. lia. apply (ab_rnd _ _ _ _ Ha). auto. discriminate.
Qed.
Lemma low_all k l R : exists lo, 0 < lo /\ forall r l', r <= R -> 1 <= r -> Forall2 (within r k) l l' -> Forall (fun y => y = 0 \/ lo <= y) l'.
Proof.
  induction l as [|x l (lo & Hl & K)]. { exists 1. split; [reflexivity|]. intros r l' _ _ H. inversion H. constructor. }
  destruct (Qclt_le_dec 0 x) as [Hx|Hx].
  - destruct (low_bound k x R Hx) as (lo1 & Hl1 & K1). destruct (qmin2 lo lo1 Hl Hl1) as (z & Z1 & Z2 & Z3). exists z. split; auto. intros r l' Hr H1 H. inversion H as [|? y ? l2 W F]; subst. constructor.
    + right. eapply Qcle_trans; [exact Z3|]. eapply K1; eauto.
    + apply Forall_impl with (2 := K r l2 Hr H1 F). intros u [Hu|Hu]; auto. right. apply Qcle_trans with lo; auto.
  - exists lo. split; auto. intros r l' Hr H1 H. inversion H as [|? y ? l2 W F]; subst. constructor; [|exact (K r l2 Hr H1 F)]. left. apply (proj1 (within_0 _ _ _ _ W)). apply Qcle_antisym; auto. apply W.
Qed.
Lemma sum_nn l : Forall (fun x => 0 <= x) l -> 0 <= qsum l.
Proof. induction 1 as [|x l Hx Hl IH]. { discriminate. } rewrite qsum_cons. apply qnn_add; auto. Qed.
Lemma sum_near k l : near (fun r a => forall l', Forall2 (within r k) l l' -> within r (k + List.length l) (qsum l) (r_sum a l')).
Proof.
  intros R. destruct (low_all k l R) as (lo & Hl & K).
  assert (B : exists hi, forall r l', r <= R -> 1 <= r -> Forall2 (within r k) l l' -> qsum l' * r ^ List.length l <= hi).
  { destruct (Qclt_le_dec (qsum l) 0) as [Hn|Hn].
    - exists 0. intros r l' _ _ F. exfalso. apply (Qclt_not_le _ _ Hn). apply sum_nn. clear - F. induction F as [|x y l l' W F IH]; constructor; auto. apply W.
    - destruct (high_bound (k + List.length l) (qsum l) R Hn) as (hi & B). exists hi. intros r l' Hr H1 F. apply (B r); auto. pose proof (within_sum r k l l' F) as W. destruct W as [W1 [W2 [W3 W4]]]. unfold within. rewrite pow_add.
      assert (P : 1 <= r ^ List.length l) by (apply pow_ge1; auto). assert (P0 : 0 <= r ^ List.length l) by (apply pow_nn; auto). assert (P1 : 0 <= r ^ k) by (apply pow_nn; auto).
      split; auto. split. { apply qnn_mul; auto. } split.
      + eapply Qcle_trans; [exact W3|]. replace (qsum l' * r ^ List.length l * (r ^ k * r ^ List.length l)) with (qsum l' * r ^ k * (r ^ List.length l * r ^ List.length l)) by ring.
        replace (qsum l' * r ^ k) with (qsum l' * r ^ k * (1 * 1)) at 1 by ring. rewrite !(Qcmult_comm (qsum l' * r ^ k)). apply qle_mul; [|apply qnn_mul; auto]. apply qle_mul2; auto using one_nn.
      + rewrite Qcmult_assoc. apply qle_mul; auto. }
  destruct B as (hi & B). exists lo, hi. split; auto. intros r a Hr Ha l' F. pose proof (ab_one _ _ _ _ Ha) as H1. apply within_trans with (qsum l'); auto. { apply within_sum; auto. }
  assert (E : List.length l = List.length l') by (clear -F; induction F; simpl; congruence). rewrite E. apply (ab_sum _ _ _ _ Ha). eapply K; eauto. rewrite <- E. eapply B; eauto.
Qed.

Section Sim.
  Context (r : Qc) (Hr : 1 <= r).
  (** ** tables *)
  Definition ewithin (k : nat) (e e' : pentry) : Prop := pe_map e = pe_map e' /\ within r k (pe_val e) (pe_val e').
  Definition pwithin (k : nat) : potential -> potential -> Prop := Forall2 (ewithin k).
  Lemma ewithin_le k l e e' : (k <= l)%nat -> ewithin k e e' -> ewithin l e e'.
  Proof using Hr. intros H [H1 H2]. split; auto. eapply within_le; eauto. Qed.
  Lemma pwithin_le k l p p' : (k <= l)%nat -> pwithin k p p' -> pwithin l p p'.
  Proof using Hr. intros H. apply F2_impl. intros e e'. apply ewithin_le; auto. Qed.
End Sim.
Lemma matches_map x x' e e' : pe_map x = pe_map x' -> pe_map e = pe_map e' -> pe_matches x e = pe_matches x' e'.
Proof. intros H1 H2. unfold pe_matches. rewrite H1, H2. auto. Qed.
Lemma within_one k e b l : near (fun r a => forall b' e', pwithin r l b b' -> ewithin r k e e' ->
  pwithin r (l + S k) (map (fun x => if pe_matches x e then mkPE (pe_map x) (pe_val x * pe_val e) else x) b)
                      (map (fun x => if pe_matches x e' then mkPE (pe_map x) (r_rnd a (pe_val x * pe_val e')) else x) b')).
Proof.
  induction b as [|x b IH]. { apply near_of. intros r a _ b' e' H _. inversion H. constructor. }
  eapply near_2; [exact IH|exact (rnd_near (l + k) (pe_val x * pe_val e))|]. intros r a Hr A B b' e' Hb He. inversion Hb as [|? x' ? b2 [X1 X2] Hb2]; subst. cbn [map]. constructor; [|apply A; auto].
  destruct He as [E1 E2]. rewrite (matches_map x x' e e' X1 E1). destruct (pe_matches x' e').
  - split; auto. cbn [pe_val]. replace (l + S k)%nat with (S (l + k)) by lia. apply B. apply within_mul; auto.
  - split; auto. eapply within_le; [exact Hr| |exact X2]. lia.
Qed.
Lemma multiply_within k s : forall l b, near (fun r a => forall b' s', pwithin r l b b' -> pwithin r k s s' -> pwithin r (l + List.length s * S k) (multiply b s) (multiply_r a b' s')).
Proof.
  unfold multiply, multiply_r. induction s as [|e s IH]; intros l b; cbn [List.length fold_left].
  - apply near_of. intros r a Hr b' s' Hb Hs. inversion Hs. cbn [fold_left]. eapply pwithin_le; [exact Hr| |exact Hb]. lia.
  - eapply near_2; [exact (within_one k e b l)|exact (IH (l + S k)%nat (map (fun x => if pe_matches x e then mkPE (pe_map x) (pe_val x * pe_val e) else x) b))|]. intros r a Hr A B b' s' Hb Hs. inversion Hs as [|? e' ? s2 He Hs2]; subst. cbn [fold_left].
    eapply pwithin_le; [exact Hr| |apply B; [apply A; eauto|exact Hs2]]. lia.
Qed.
Lemma divide_within k l n : forall d q, divide n d = Ok q -> near (fun r a => forall n' d', pwithin r k n n' -> pwithin r l d d' -> exists q', divide_r a n' d' = Ok q' /\ pwithin r (S (k + l)) q q').
Proof.
  induction n as [|e n IH]; intros d q E; cbn [divide] in E. { inversion E; subst. apply near_of. intros r a _ n' d' Hn _. inversion Hn. exists []. split; auto. constructor. }
  destruct d as [|x ds]; [discriminate|]. destruct (divide n ds) as [t|] eqn:Et; cbn [rbind] in E; [|discriminate]. inversion E; subst q.
  eapply near_2; [exact (IH ds t Et)|exact (rnd_near (k + l) (pe_val e / pe_val x))|]. intros r a Hr A B n' d' Hn Hd. inversion Hn as [|? e' ? n2 [E1 E2] Hn2]; subst. inversion Hd as [|? x' ? ds' [X1 X2] Hds]; subst.
  cbn [divide_r]. destruct (A _ _ Hn2 Hds) as [t' [T1 T2]]. rewrite T1. cbn [rbind]. eexists. split; [reflexivity|]. constructor; auto. split.
  - cbn [pe_map]. unfold pe_duplicate. rewrite E1. reflexivity.
  - cbn [pe_val]. rewrite <- (within_zero_test _ _ _ _ E2), <- (within_zero_test _ _ _ _ X2). destruct (is_zero (pe_val e)) eqn:Z1; [|destruct (is_zero (pe_val x)) eqn:Z2]; cbn [orb].
    + eapply within_le; [exact Hr| |apply within_refl, Qcle_refl]. lia.
    + eapply within_le; [exact Hr| |apply within_refl, Qcle_refl]. lia.
    + apply B. apply within_div; auto. unfold is_zero in Z2. apply qeqb_false in Z2. auto.
Qed.
Lemma filter_len (f : pentry -> bool) (l : potential) : (List.length (filter f l) <= List.length l)%nat.
Proof. induction l as [|y l IHl]; simpl; [lia|destruct (f y); simpl; lia]. Qed.
Lemma marginalize_within k cp ns : near (fun r a => forall cp', pwithin r k cp cp' -> pwithin r (k + List.length cp) (marginalize cp ns) (marginalize_r a cp' ns)).
Proof.
  unfold marginalize, marginalize_r. induction (potential_from_nodes ns) as [|e l IH]. { apply near_of. intros. constructor. }
  eapply near_2; [exact IH|exact (sum_near k (map pe_val (get_matching_entries cp e)))|]. intros r a Hr A B cp' H. cbn [map]. constructor; [|apply A; auto]. split; auto. cbn [pe_val].
  assert (F : Forall2 (ewithin r k) (get_matching_entries cp e) (get_matching_entries cp' e)). { apply F2_filter; auto. intros x x' [X _]. apply matches_map; auto. }
  eapply within_le; [exact Hr| |apply B].
  - rewrite map_length. unfold get_matching_entries. pose proof (filter_len (fun x => pe_matches x e) cp). lia.
  - eapply F2_map; [|exact F]. intros x x' [_ X]. auto.
Qed.
Lemma normalize_within k p : near (fun r a => forall p', pwithin r k p p' -> pwithin r (S (k + (k + List.length p))) (normalize p) (normalize_r a p')).
Proof.
  set (t := qsum (map pe_val p)).
  assert (HD : near (fun r a => forall e, In e p -> forall y, within r (k + (k + List.length p)) (pe_val e / t) y -> within r (S (k + (k + List.length p))) (pe_val e / t) (r_rnd a y))).
  { apply near_all. intros e _. apply rnd_near. }
  eapply near_2; [exact HD|exact (sum_near k (map pe_val p))|]. intros r a Hr A B p' H. unfold normalize, normalize_r. fold t.
  assert (S0 : within r (k + List.length p) t (r_sum a (map pe_val p'))).
  { rewrite <- (map_length pe_val p). apply B. eapply F2_map; [|exact H]. intros x x' [_ X]; auto. }
  pose proof (within_0 _ _ _ _ S0) as Z. destruct (qeqb t 0) eqn:E, (qeqb (r_sum a (map pe_val p')) 0) eqn:E'; rewrite ?qeqb_true, ?qeqb_false in *; try tauto.
  - eapply pwithin_le; [exact Hr| |exact H]. lia.
  - clear - Hr A S0 H E. set (s := r_sum a (map pe_val p')) in *. clearbody s t. set (m := List.length p) in *. clearbody m. induction H as [|x x' p p' [X1 X2] F IH]; cbn [map]; constructor.
    + split; auto. cbn [pe_val]. apply A; [left; auto|]. apply within_div; auto.
    + apply IH. intros e He. apply A. right; auto.
Qed.
