(** Observing keeps covariances covariances. *)
From Verif Require Import Py M_Gauss SpecGauss SpecCov L_Base L_Sums L_Table L_Gauss L_Gauss2 L_Gauss3 L_Gauss4 L_P10 L_Inv.
Open Scope Qc_scope.

(** a combination of variables in terms of what remains of them *)
Definition remaining (zs : list string) (K : string -> string -> Qc) (a : combination) : combination :=
  a ++ map (fun w => (- qsum (map (fun p => fst p * K (snd p) w) a), w)) zs.
Lemma ccov_app_l c a a' b : combined_cov c (a ++ a') b = combined_cov c a b + combined_cov c a' b.
Proof. unfold combined_cov. rewrite map_app, qsum_app. reflexivity. Qed.
Lemma ccov_app_r c a b b' : combined_cov c a (b ++ b') = combined_cov c a b + combined_cov c a b'.
Proof. unfold combined_cov. rewrite <- qsum_map_plus. apply qsum_map_ext. intros x _. rewrite map_app, qsum_app. reflexivity. Qed.
Lemma remaining_left c zs K a b : combined_cov c (remaining zs K a) b = qsum (map (fun p => fst p * combined_cov c (residual zs K (snd p)) b) a).
Proof.
  unfold remaining. rewrite ccov_app_l, (ccov_left c a b), (ccov_left c (map _ zs) b), map_map. cbn [fst snd].
  rewrite (qsum_map_ext (fun p : Qc * string => fst p * combined_cov c (residual zs K (snd p)) b) (fun p => fst p * combined_cov c [(1, snd p)] b + - qsum (map (fun w => fst p * K (snd p) w * combined_cov c [(1, w)] b) zs))).
  2:{ intros p _. rewrite ccov_residual_l. rewrite (qsum_map_ext (fun w => fst p * K (snd p) w * combined_cov c [(1, w)] b) (fun w => fst p * (K (snd p) w * combined_cov c [(1, w)] b))) by (intros; ring). rewrite qsum_map_mult. ring. }
  rewrite qsum_map_plus. f_equal. rewrite qsum_map_opp, qsum_swap, <- qsum_map_opp. apply qsum_map_ext. intros w _. rewrite (qsum_map_mult_r (fun p : Qc * string => fst p * K (snd p) w) (combined_cov c [(1, w)] b)). ring.
Qed.
Lemma remaining_both c zs K c' ys a b : conditional_cov c ys zs K c' -> incl (map snd a) ys -> incl (map snd b) ys ->
  combined_cov c (remaining zs K a) (remaining zs K b) = combined_cov c' a b.
Proof.
  intros HC Ia Ib. rewrite remaining_left. unfold combined_cov at 2. apply qsum_map_ext. intros p Hp.
  assert (R : forall r, combined_cov c r (remaining zs K b) = qsum (map (fun q => fst q * combined_cov c r (residual zs K (snd q))) b)).
  { intros r. unfold remaining. rewrite ccov_app_r, (ccov_right c r b), (ccov_right c r (map _ zs)), map_map. cbn [fst snd].
    rewrite (qsum_map_ext (fun p : Qc * string => fst p * combined_cov c r (residual zs K (snd p))) (fun p => fst p * combined_cov c r [(1, snd p)] + - qsum (map (fun w => fst p * K (snd p) w * combined_cov c r [(1, w)]) zs))).
    2:{ intros q _. rewrite ccov_residual_r. rewrite (qsum_map_ext (fun w => fst q * K (snd q) w * combined_cov c r [(1, w)]) (fun w => fst q * (K (snd q) w * combined_cov c r [(1, w)]))) by (intros; ring). rewrite qsum_map_mult. ring. }
    rewrite qsum_map_plus. f_equal. rewrite qsum_map_opp, qsum_swap, <- qsum_map_opp. apply qsum_map_ext. intros w _.
    rewrite (qsum_map_mult_r (fun p : Qc * string => fst p * K (snd p) w) (combined_cov c r [(1, w)])). ring. }
  rewrite R, <- qsum_map_mult. apply qsum_map_ext. intros q Hq. rewrite <- (HC (snd p) (snd q)); [ring| |]; [apply Ia|apply Ib]; apply in_map; auto.
Qed.
Lemma remaining_names zs K a : map snd (remaining zs K a) = map snd a ++ zs.
Proof. unfold remaining. rewrite map_app, map_map. cbn [snd]. rewrite map_id. reflexivity. Qed.

Lemma no_negative_rest c ys zs K c' H : conditional_cov c ys zs K c' -> incl ys H -> incl zs H -> no_negative c H -> no_negative c' ys.
Proof.
  intros HC Iy Iz HP a Ha. unfold variance. rewrite <- (remaining_both c zs K c' ys a a HC Ha Ha). apply HP. rewrite remaining_names. intros x Hx. apply in_app_or in Hx. destruct Hx; auto.
Qed.
Lemma unfixed_rest c ys zs K c' H : conditional_cov c ys zs K c' -> incl ys H -> incl zs H -> NoDup zs -> (forall y, In y ys -> ~ In y zs) -> unfixed c H -> unfixed c' ys.
Proof.
  intros HC Iy Iz Nz D HU a Ha (N1 & p & P1 & P2). unfold variance. rewrite <- (remaining_both c zs K c' ys a a HC Ha Ha). apply HU; rewrite ?remaining_names.
  - intros x Hx. apply in_app_or in Hx. destruct Hx; auto.
  - split; [rewrite remaining_names; apply NoDup_app_intro; auto; intros x Hx; apply D; auto|]. exists p. split; auto. unfold remaining. apply in_or_app; auto.
Qed.
(** the variance that is explained *)
Lemma explained c ys zs K c' H y : (forall s t, In s H -> In t H -> c s t = c t s) -> regression c ys zs K -> conditional_cov c ys zs K c' -> incl ys H -> incl zs H -> In y ys ->
  c y y = c' y y + variance c (map (fun w => (K y w, w)) zs).
Proof.
  intros HS HR HC Iy Iz Hy. rewrite (HC y y Hy Hy). rewrite ccov_residual_r. rewrite (qsum_map_zero (fun w => K y w * combined_cov c (residual zs K y) [(1, w)])).
  2:{ intros w Hw. rewrite (HR y w Hy Hw). ring. }
  rewrite residual_with. unfold variance. rewrite ccov_left, map_map. cbn [fst snd].
  rewrite (qsum_map_ext (fun w => K y w * c w y) (fun w => K y w * combined_cov c [(1, w)] (map (fun v => (K y v, v)) zs))); [ring|].
  intros w Hw. f_equal. rewrite (HS w y) by auto. pose proof (HR y w Hy Hw) as E. rewrite residual_with in E.
  assert (E' : c y w = qsum (map (fun v => K y v * c v w) zs)). { transitivity (c y w - qsum (map (fun v => K y v * c v w) zs) + qsum (map (fun v => K y v * c v w) zs)); [ring|rewrite E; ring]. }
  rewrite E', ccov_right, map_map. cbn [fst snd]. apply qsum_map_ext. intros v Hv. rewrite ccov_one, (HS v w) by auto. reflexivity.
Qed.

Theorem c102_stays inv batches g g' : inv_sound inv -> gwf g -> symmetric g -> no_negative (cov_of g) (gi_H g) -> foldM (do_inferences inv) batches g = Ok g' ->
  no_negative (cov_of g') (gi_H g') /\ forall y, In y (gi_H g') -> 0 <= cov_of g' y y /\ cov_of g' y y <= cov_of g y y.
Proof.
  intros HI W S HP E. destruct (many_calls inv HI batches g g' W S E) as (N & I & W' & S' & EH & _ & K & HR & HC).
  set (zs := names (List.concat batches)) in *. assert (Iy : incl (gi_H g') (gi_H g)) by (intros y Hy; rewrite EH in Hy; apply filter_In in Hy; tauto).
  pose proof (no_negative_rest _ _ _ _ _ _ HC Iy I HP) as HP'. split; [exact HP'|]. intros y Hy. split.
  - specialize (HP' [(1, y)]). unfold variance in HP'. rewrite ccov_one in HP'. apply HP'. intros x [<-|[]]. exact Hy.
  - rewrite (explained _ _ _ _ _ (gi_H g) y S HR HC Iy I Hy). assert (V : 0 <= variance (cov_of g) (map (fun w => (K y w, w)) zs)). { apply HP. rewrite map_map. cbn [snd]. rewrite map_id. exact I. }
    revert V. generalize (variance (cov_of g) (map (fun w => (K y w, w)) zs)). intros q V. replace (cov_of g' y y) with (cov_of g' y y + 0) at 1 by ring. apply Qcplus_le_compat; auto. apply Qcle_refl.
Qed.

(** ** when an array can be inverted *)
Definition spelled (v : nat -> Qc) (zs : list string) : combination := map (fun i => (v i, nth i zs ""%string)) (seq 0 (List.length zs)).
Lemma spelled_names v zs : map snd (spelled v zs) = zs.
Proof.
  unfold spelled. rewrite map_map. cbn [snd]. apply nth_ext with ""%string ""%string; [rewrite map_length, seq_length; auto|]. intros n Hn. rewrite map_length, seq_length in Hn.
  rewrite (nth_indep _ _ (nth 0 zs ""%string)) by (rewrite map_length, seq_length; auto). rewrite (map_nth (fun i => nth i zs ""%string)), seq_nth by auto. reflexivity.
Qed.
Lemma spelled_with c v zs i : combined_cov c [(1, nth i zs ""%string)] (spelled v zs) = app_row (List.length zs) (fun j => c (nth i zs ""%string) (nth j zs ""%string)) v.
Proof. rewrite ccov_right. unfold spelled. rewrite map_map. cbn [fst snd]. unfold app_row. apply qsum_map_ext. intros j _. rewrite ccov_one. ring. Qed.
Definition block (c : string -> string -> Qc) (zs : list string) : arr := fun i j => c (nth i zs ""%string) (nth j zs ""%string).
Lemma kernel_variance c v zs : kernel (List.length zs) (block c zs) v -> variance c (spelled v zs) = 0.
Proof.
  intros HK. unfold variance. rewrite ccov_left. unfold spelled at 2. rewrite map_map. apply qsum_map_zero. intros i Hi. apply in_seq in Hi. cbn [fst snd]. rewrite spelled_with. unfold block in HK. rewrite HK by lia. ring.
Qed.
Lemma unfixed_inverse c zs : NoDup zs -> unfixed c zs -> exists b, inverse (List.length zs) (block c zs) b.
Proof.
  intros N HU. destruct (invert (List.length zs) (block c zs)) as [(b & B)|(v & HK & i & Hi & V)]; [eauto|]. exfalso. apply (HU (spelled v zs)).
  - rewrite spelled_names. apply incl_refl.
  - split; [rewrite spelled_names; auto|]. exists (v i, nth i zs ""%string). split; [apply in_map_iff; exists i; split; auto; apply in_seq; lia|]. cbn [fst]. rewrite V. discriminate.
  - apply kernel_variance; auto.
Qed.
Lemma unfixed_incl c H H' : incl H' H -> unfixed c H -> unfixed c H'.
Proof. intros I HU a Ha. apply HU. eapply incl_tran; eauto. Qed.

Theorem c102_answers inv batches : inv_sound inv -> inv_total inv -> forall g, gwf g -> symmetric g -> unfixed (cov_of g) (gi_H g) ->
  NoDup (map fst (List.concat batches)) -> incl (map fst (List.concat batches)) (gi_H g) ->
  exists g', foldM (do_inferences inv) batches g = Ok g' /\ unfixed (cov_of g') (gi_H g').
Proof.
  intros HI HT. induction batches as [|obs bs IH]; intros g W S HU N I; [exists g; auto|]. cbn [List.concat] in N, I. rewrite map_app in N, I.
  assert (N1 : NoDup (names obs)). { clear - N. unfold names. induction (map fst obs) as [|x l IH]; constructor; inversion N; subst; auto. intros Hx. apply H1, in_or_app; auto. }
  assert (N2 : NoDup (map fst (List.concat bs))). { clear - N. induction (map fst obs) as [|x l IH]; auto. inversion N; auto. }
  assert (I1 : incl (names obs) (gi_H g)) by (intros x Hx; apply I, in_or_app; auto).
  destruct (L_P10.answers inv g obs HT W N1 I1) as (g1 & E1). { apply unfixed_inverse; auto. eapply unfixed_incl; eauto. }
  destruct (one_call inv g obs g1 HI W S E1) as (_ & _ & W1 & S1 & EH & _ & K & HR & HC).
  assert (U1 : unfixed (cov_of g1) (gi_H g1)).
  { eapply unfixed_rest; eauto; intros y Hy; rewrite EH in Hy; apply rest_In in Hy; tauto. }
  destruct (IH g1 W1 S1 U1 N2) as (g2 & E2 & U2).
  - intros x Hx. rewrite EH. apply rest_In. split; [apply I, in_or_app; auto|]. intros Hx'. clear - N Hx Hx'. unfold names in Hx'. induction (map fst obs) as [|z l IH]; [destruct Hx'|]. inversion N; subst.
    destruct Hx' as [ ->|Hx']; [apply H1, in_or_app; auto|auto].
  - exists g2. split; auto. cbn [foldM]. rewrite E1. cbn [rbind]. exact E2.
Qed.

(** ** and when not *)
Lemma square_zero (x : Qc) : x * x <= 0 -> x = 0.
Proof.
  intros H. destruct (Qc_eq_dec x 0) as [|Hn]; auto. exfalso. destruct (Qclt_le_dec x 0) as [Hl|Hl].
  - assert (P : 0 < - x) by (apply Qclt_minus_iff in Hl; replace (- x) with (0 + - x) by ring; auto). apply Qclt_not_le in P as P'. pose proof (Qcmult_lt_compat_r 0 (- x) (- x) P P) as Q. replace (0 * - x) with 0 in Q by ring. replace (- x * - x) with (x * x) in Q by ring.
    apply Qclt_not_le in Q. contradiction.
  - assert (P : 0 < x) by (apply Qcle_lt_or_eq in Hl; destruct Hl; congruence). pose proof (Qcmult_lt_compat_r 0 x x P P) as Q. replace (0 * x) with 0 in Q by ring. apply Qclt_not_le in Q. contradiction.
Qed.
(** what has no variance varies with nothing *)
Lemma still c H a z : (forall s t, In s H -> In t H -> c s t = c t s) -> no_negative c H -> incl (map snd a) H -> In z H -> variance c a = 0 -> combined_cov c [(1, z)] a = 0.
Proof.
  intros HS HP Ha Hz V. set (k := combined_cov c [(1, z)] a). set (s := / (1 + c z z)).
  assert (Pz : 0 <= c z z). { specialize (HP [(1, z)]). unfold variance in HP. rewrite ccov_one in HP. apply HP. intros x [<-|[]]; auto. }
  assert (Nz : 1 + c z z <> 0). { intros E. assert (X : 1 + 0 <= 1 + c z z) by (apply Qcplus_le_compat; auto; apply Qcle_refl). rewrite E in X. apply Qcle_not_lt in X. apply X. reflexivity. }
  assert (Es : combined_cov c a [(1, z)] = k).
  { unfold k. rewrite ccov_left, ccov_right. apply qsum_map_ext. intros p Hp. rewrite !ccov_one. rewrite (HS (snd p) z); auto. apply Ha, in_map; auto. }
  specialize (HP (a ++ [(- (k * s), z)])). unfold variance in HP. rewrite ccov_app_l, !ccov_app_r in HP.
  assert (X1 : combined_cov c a [(- (k * s), z)] = - (k * s) * k). { rewrite ccov_right. cbn [map fst snd]. rewrite Es. rewrite qsum_cons. change (qsum []) with 0. ring. }
  assert (X2 : combined_cov c [(- (k * s), z)] a = - (k * s) * k). { rewrite ccov_left. cbn [map fst snd]. fold k. rewrite qsum_cons. change (qsum []) with 0. ring. }
  assert (X3 : combined_cov c [(- (k * s), z)] [(- (k * s), z)] = (k * s) * (k * s) * c z z). { unfold combined_cov. cbn [map fst snd]. rewrite !qsum_cons. change (qsum []) with 0. ring. }
  rewrite X1, X2, X3 in HP. change (combined_cov c a a) with (variance c a) in HP. rewrite V in HP.
  assert (Q : 0 <= 0 + - (k * s) * k + (- (k * s) * k + k * s * (k * s) * c z z)). { apply HP. rewrite map_app. intros x Hx. apply in_app_or in Hx. destruct Hx as [Hx|[<-|[]]]; auto. }
  assert (T : s * (1 + c z z) = 1) by (unfold s; rewrite Qcmult_comm; apply Qcmult_inv_r; auto).
  assert (Q2 : 0 <= - (k * k * s * (1 + s))). { replace (- (k * k * s * (1 + s))) with (0 + - (k * s) * k + (- (k * s) * k + k * s * (k * s) * c z z)); [exact Q|].
    replace (k * s * (k * s) * c z z) with (k * k * s * (s * (1 + c z z)) - k * k * s * s) by ring. rewrite T. ring. }
  assert (Ps : 0 <= s). { unfold s. replace (/ (1 + c z z)) with (1 / (1 + c z z)) by (field; auto). apply qdiv_nonneg; [discriminate|]. apply Qcle_0_plus; auto. discriminate. }
  apply square_zero. assert (Q3 : k * k * s * (1 + s) <= 0). { replace (k * k * s * (1 + s)) with (- - (k * k * s * (1 + s))) by ring. change 0 with (- 0). apply Qcopp_le_compat; auto. }
  assert (B : 0 <= (1 + c z z) * (1 + c z z)) by (apply Qcle_0_mult; apply Qcle_0_plus; auto; discriminate).
  pose proof (Qcmult_le_compat_r _ _ _ Q3 B) as Q4. replace (0 * ((1 + c z z) * (1 + c z z))) with 0 in Q4 by ring.
  replace (k * k * s * (1 + s) * ((1 + c z z) * (1 + c z z))) with (k * k * (s * (1 + c z z)) * ((1 + c z z) + s * (1 + c z z))) in Q4 by ring. rewrite T in Q4.
  assert (Kk : 0 <= k * k). { destruct (Qclt_le_dec k 0) as [Hl|Hl]; [|apply Qcle_0_mult; auto]. replace (k * k) with (- k * - k) by ring. assert (0 <= - k) by (apply Qclt_le_weak in Hl; apply Qcopp_le_compat in Hl; exact Hl). apply Qcle_0_mult; auto. }
  eapply Qcle_trans; [|exact Q4]. replace (k * k) with (k * k + 0) at 1 by ring. replace (k * k * 1 * (1 + c z z + 1)) with (k * k + k * k * (1 + c z z)) by ring. apply Qcplus_le_compat; [apply Qcle_refl|]. apply Qcle_0_mult; auto. apply Qcle_0_plus; auto. discriminate.
Qed.
Lemma inverse_unfixed c zs b : (forall s t, In s zs -> In t zs -> c s t = c t s) -> no_negative c zs -> NoDup zs -> inverse (List.length zs) (block c zs) b -> unfixed c zs.
Proof.
  intros HS HP N B a Ha (N1 & p & P1 & P2) V. apply P2.
  (* coefficients of [a] by position *)
  set (v := fun i => qsum (map (fun q => if string_dec (snd q) (nth i zs ""%string) then fst q else 0) a)).
  assert (HK : kernel (List.length zs) (block c zs) v).
  { intros i Hi. assert (Z : combined_cov c [(1, nth i zs ""%string)] a = 0) by (apply (still c zs); auto; apply nth_In; auto).
    rewrite <- Z, ccov_right. unfold app_row, v, block. rewrite (qsum_map_ext _ (fun j => qsum (map (fun q => c (nth i zs ""%string) (nth j zs ""%string) * (if string_dec (snd q) (nth j zs ""%string) then fst q else 0)) a))) by (intros; rewrite qsum_map_mult; reflexivity).
    rewrite qsum_swap. apply qsum_map_ext. intros q Hq. rewrite ccov_one. assert (Iq : In (snd q) zs) by (apply Ha, in_map; auto).
    rewrite (seq_sum (fun j => c (nth i zs ""%string) (nth j zs ""%string) * (if string_dec (snd q) (nth j zs ""%string) then fst q else 0)) zs N).
    rewrite (qsum_map_ext _ (fun s => c (nth i zs ""%string) s * fst q * (if string_dec s (snd q) then 1 else 0))).
    2:{ intros s Hs. rewrite position_nth by auto. destruct (string_dec (snd q) s) as [E|E], (string_dec s (snd q)) as [F|F]; try ring; congruence. }
    etransitivity; [apply (qsum_delta (fun s => c (nth i zs ""%string) s * fst q) (snd q) zs N Iq)|]. ring. }
  assert (Z : forall i, (i < List.length zs)%nat -> v i = 0).
  { intros i Hi. rewrite <- (seq_select v i (List.length zs) 0) by lia.
    transitivity (app_row (List.length zs) (fun l => app_row (List.length zs) (b i) (fun r => block c zs r l)) v).
    - apply app_row_ext; [|reflexivity]. intros l Hl. destruct (B i l Hi Hl) as [_ E]. symmetry. exact E.
    - rewrite app_assoc_rows. unfold app_row at 1. apply qsum_map_zero. intros r Hr. apply in_seq in Hr. rewrite HK by lia. ring. }
  assert (Ip : In (snd p) zs) by (apply Ha, in_map; auto). specialize (Z (position zs (snd p)) (position_lt _ _ Ip)). unfold v in Z. rewrite position_nth in Z by auto.
  rewrite <- Z. clear - N1 P1. induction a as [|q a IH]; [destruct P1|]. cbn [map] in *. inversion N1 as [|? ? M1 M2]; subst. rewrite qsum_cons. destruct P1 as [ ->|P1].
  - destruct (string_dec (snd p) (snd p)) as [_|]; [|contradiction]. rewrite qsum_map_zero; [ring|]. intros x Hx. destruct (string_dec (snd x) (snd p)) as [E|]; auto. exfalso. apply M1. rewrite <- E. apply in_map; auto.
  - destruct (string_dec (snd q) (snd p)) as [E|]. { exfalso. apply M1. rewrite E. apply in_map; auto. } rewrite <- IH by auto. ring.
Qed.

Theorem c102_exactly inv g obs : inv_sound inv -> inv_total inv -> gwf g -> symmetric g -> no_negative (cov_of g) (gi_H g) ->
  ((exists g', do_inferences inv g obs = Ok g') <-> NoDup (map fst obs) /\ incl (map fst obs) (gi_H g) /\ unfixed (cov_of g) (map fst obs)).
Proof.
  intros HI HT W S HP. split.
  - intros (g' & E). pose proof (call_incl _ _ _ _ W E) as I. pose proof (call_nodup _ _ _ _ HI W E) as N. split; auto. split; auto.
    rewrite (infer_eq inv g obs W N I) in E. destruct (inv (List.length (names obs)) (observed_block g obs)) as [b|x] eqn:IB; [|discriminate]. apply HI in IB.
    apply (inverse_unfixed (cov_of g) (names obs) b); auto.
    + intros a Ha. apply HP. eapply incl_tran; eauto.
    + intros i j Hi Hj. assert (Q : forall i j, (i < List.length (names obs))%nat -> (j < List.length (names obs))%nat -> observed_block g obs i j = block (cov_of g) (names obs) i j).
      { clear. intros i j Hi Hj. unfold observed_block, sub_arr, block, cov_of. rewrite !(nth_indep _ O (position (gi_H g) ""%string)) by (rewrite map_length; assumption). rewrite !map_nth. reflexivity. }
      destruct (IB i j Hi Hj) as [E1 E2]. split; [rewrite <- E1|rewrite <- E2]; apply qsum_map_ext; intros c Hc; apply in_seq in Hc; rewrite Q by lia; reflexivity.
  - intros (N & I & U). apply (L_P10.answers inv g obs HT W N I). apply unfixed_inverse; auto.
Qed.
