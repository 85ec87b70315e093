(** Gaussian inference: the statements of C36. *)
From Coq Require ListDec.
From Verif Require Import Py M_Gauss SpecGauss L_Base L_Sums L_Table L_Gauss L_Gauss2 L_Gauss3 L_Gauss4.
Open Scope Qc_scope.

(** ** what a successful call says about its arguments *)
Lemma call_incl inv g obs g' : gwf g -> do_inferences inv g obs = Ok g' -> incl (names obs) (gi_H g).
Proof.
  intros (N & _) OK. destruct (ListDec.incl_dec string_dec (names obs) (gi_H g)) as [I|I]; [exact I|]. exfalso.
  unfold do_inferences in OK. cbv zeta in OK. rewrite <- (mapM_map (fun n => dgetE (header_index (gi_H g)) n) fst obs) in OK.
  rewrite mapM_keyerror in OK by assumption. discriminate.
Qed.
Lemma dup_positions l : ~ NoDup l -> exists i j, (i < List.length l)%nat /\ (j < List.length l)%nat /\ i <> j /\ nth i l ""%string = nth j l ""%string.
Proof.
  induction l as [|h t IH]; intros N. { exfalso. apply N. constructor. }
  destruct (in_dec string_dec h t) as [J|J].
  - apply In_nth with (d := ""%string) in J. destruct J as (n & Hn & E). exists 0%nat, (S n). simpl. repeat split; try lia. symmetry; exact E.
  - destruct IH as (i & j & Hi & Hj & D & E). { intros K. apply N. constructor; auto. }
    exists (S i), (S j). simpl. repeat split; try lia. exact E.
Qed.
Lemma call_nodup inv g obs g' : inv_sound inv -> gwf g -> do_inferences inv g obs = Ok g' -> NoDup (names obs).
Proof.
  intros S W OK. pose proof (call_incl _ _ _ _ W OK) as I. destruct W as (N & LM & LN & _).
  destruct (ListDec.NoDup_dec string_dec (names obs)) as [D|D]; [exact D|]. exfalso.
  apply dup_positions in D. destruct D as (i & j & Hi & Hj & D & E).
  unfold do_inferences in OK. cbv zeta in OK. rewrite <- (mapM_map (fun n => dgetE (header_index (gi_H g)) n) fst obs) in OK.
  change (map fst obs) with (names obs) in OK. rewrite header_all in OK by assumption. cbn [rbind] in OK. rewrite LN, (positions_lt (gi_H g) (names obs)) in OK by exact I.
  rewrite map_length in OK.
  destruct (inv (List.length (names obs)) (sub_arr (gi_E g) (map (position (gi_H g)) (names obs)) (map (position (gi_H g)) (names obs)))) as [b|x] eqn:IB; [|discriminate].
  apply S in IB. destruct (IB i j Hi Hj) as [E1 _]. destruct (IB j j Hj Hj) as [E2 _].
  unfold delta in E1, E2. rewrite Nat.eqb_refl in E2. destruct (Nat.eqb_spec i j) as [e|_]; [contradiction|].
  assert (E3 : nth i (map (position (gi_H g)) (names obs)) O = nth j (map (position (gi_H g)) (names obs)) O).
  { rewrite !(nth_indep _ O (position (gi_H g) ""%string)) by (rewrite map_length; assumption). rewrite !map_nth, E. reflexivity. }
  unfold sub_arr in E1, E2. rewrite E3, E2 in E1. discriminate.
Qed.

(** ** one call *)
Lemma one_call inv g obs g' : inv_sound inv -> gwf g -> symmetric g -> do_inferences inv g obs = Ok g' ->
  NoDup (names obs) /\ incl (names obs) (gi_H g) /\ gwf g' /\ symmetric g' /\ gi_H g' = rest (gi_H g) obs /\ gi_meta g' = gi_meta g ++ obs /\
  exists K, regression (cov_of g) (gi_H g') (names obs) K /\ conditional_cov (cov_of g) (gi_H g') (names obs) K (cov_of g').
Proof.
  intros S W Y OK. pose proof (call_incl _ _ _ _ W OK) as I. pose proof (call_nodup _ _ _ _ S W OK) as D.
  destruct (inv (List.length (names obs)) (observed_block g obs)) as [b|x] eqn:IB.
  2:{ rewrite (infer_eq inv g obs W D I), IB in OK. discriminate. }
  pose proof (S _ _ _ IB) as INV. destruct (result_shape inv g g' obs b W D I OK IB) as (E1 & E2 & W').
  split; [exact D|]. split; [exact I|]. split; [exact W'|]. split; [apply (result_symmetric inv g g' obs b); assumption|]. split; [exact E1|]. split; [exact E2|].
  exists (gcoef g obs b). rewrite E1. split.
  - apply result_regression; assumption.
  - apply (result_conditional inv g g' obs b); assumption.
Qed.

(** ** several calls *)
Lemma rest_rest H o1 o2 : rest (rest H o1) o2 = rest H (o1 ++ o2).
Proof.
  unfold rest. assert (EN : names (o1 ++ o2) = names o1 ++ names o2) by (unfold names; apply map_app). rewrite EN.
  induction H as [|h t IH]; [reflexivity|]. cbn [filter].
  assert (E : mem h (names o1 ++ names o2) = mem h (names o1) || mem h (names o2)) by (unfold mem; apply existsb_app).
  rewrite E. destruct (mem h (names o1)); cbn [negb orb filter]; [exact IH|].
  destruct (mem h (names o2)); cbn [negb]; rewrite IH; reflexivity.
Qed.
Lemma rest_nil H : rest H [] = H.
Proof. unfold rest. induction H as [|h t IH]; [reflexivity|]. cbn [filter]. change (negb (mem h (names []))) with true. cbv iota. rewrite IH. reflexivity. Qed.

Lemma many_calls inv : inv_sound inv -> forall batches g g', gwf g -> symmetric g -> foldM (do_inferences inv) batches g = Ok g' ->
  let obs := List.concat batches in
  NoDup (names obs) /\ incl (names obs) (gi_H g) /\ gwf g' /\ symmetric g' /\ gi_H g' = rest (gi_H g) obs /\ gi_meta g' = gi_meta g ++ obs /\
  exists K, regression (cov_of g) (gi_H g') (names obs) K /\ conditional_cov (cov_of g) (gi_H g') (names obs) K (cov_of g').
Proof.
  intros S. induction batches as [|o1 t IH]; intros g g' W Y OK; cbv zeta.
  - cbn [foldM] in OK. injection OK as <-. cbn [List.concat]. split; [constructor|]. split; [intros x []|]. split; [exact W|]. split; [exact Y|].
    rewrite rest_nil, app_nil_r. split; [reflexivity|]. split; [reflexivity|]. exists (fun _ _ => 0). split; [intros y z _ []|].
    intros y y' _ _. unfold names, residual. cbn [map]. rewrite ccov_one. reflexivity.
  - cbn [foldM] in OK. destruct (do_inferences inv g o1) as [g1|x] eqn:O1; [|discriminate]. cbn [rbind] in OK.
    destruct (one_call _ _ _ _ S W Y O1) as (D1 & I1 & W1 & Y1 & H1 & M1 & K1 & R1 & C1).
    destruct (IH g1 g' W1 Y1 OK) as (D2 & I2 & W2 & Y2 & H2 & M2 & K2 & R2 & C2). cbn [List.concat].
    set (o2 := List.concat t) in *.
    assert (EN : names (o1 ++ o2) = names o1 ++ names o2) by (unfold names; apply map_app).
    assert (J2 : forall w, In w (names o2) -> In w (gi_H g) /\ ~ In w (names o1)) by (intros w Hw; apply I2 in Hw; rewrite H1 in Hw; apply rest_In in Hw; exact Hw).
    rewrite EN. split. { apply NoDup_app_intro; auto. intros w Hw Hw'. apply J2 in Hw'. tauto. }
    split. { apply incl_app; [exact I1|]. intros w Hw. apply J2, Hw. }
    split; [exact W2|]. split; [exact Y2|]. split. { rewrite H2, H1, rest_rest. reflexivity. }
    split. { rewrite M2, M1, app_assoc. reflexivity. }
    exists (both_stages (names o2) K1 K2). split.
    + eapply stages_regression; eauto. { intros y Hy. rewrite H2 in Hy. apply rest_In in Hy. tauto. } { intros w Hw Hw'. apply J2 in Hw'. tauto. }
    + eapply stages_cov; eauto. { intros y Hy. rewrite H2 in Hy. apply rest_In in Hy. tauto. } { intros w Hw Hw'. apply J2 in Hw'. tauto. }
Qed.

(** ** the order does not matter to the covariance *)
Lemma ccov_perm c a a' b b' : Permutation a a' -> Permutation b b' -> combined_cov c a b = combined_cov c a' b'.
Proof.
  intros P Q. unfold combined_cov. rewrite (qsum_perm _ _ (Permutation_map _ P)). apply qsum_map_ext. intros x _. apply qsum_perm, Permutation_map, Q.
Qed.
Lemma residual_perm zs zs' K y : Permutation zs zs' -> Permutation (residual zs K y) (residual zs' K y).
Proof. intros P. unfold residual. apply perm_skip, Permutation_map, P. Qed.
Lemma rest_perm H o o' : Permutation o o' -> rest H o = rest H o'.
Proof. intros P. apply filter_ext_in'. intros h _. f_equal. apply mem_perm. unfold names. apply Permutation_map, P. Qed.

Lemma any_order inv inv' g b1 b2 g1 g2 : inv_sound inv -> inv_sound inv' -> gwf g -> symmetric g ->
  Permutation (List.concat b1) (List.concat b2) -> foldM (do_inferences inv) b1 g = Ok g1 -> foldM (do_inferences inv') b2 g = Ok g2 ->
  gi_H g1 = gi_H g2 /\ forall y y', In y (gi_H g1) -> In y' (gi_H g1) -> cov_of g1 y y' = cov_of g2 y y'.
Proof.
  intros S S' W Y P O1 O2.
  destruct (many_calls inv S b1 g g1 W Y O1) as (D1 & I1 & _ & _ & H1 & _ & K1 & R1 & C1).
  destruct (many_calls inv' S' b2 g g2 W Y O2) as (D2 & I2 & _ & _ & H2 & _ & K2 & R2 & C2).
  assert (EH : gi_H g1 = gi_H g2) by (rewrite H1, H2; apply rest_perm, P). split; [exact EH|].
  intros y y' Hy Hy'. rewrite C1 by assumption. rewrite <- EH in R2, C2. rewrite C2 by assumption.
  assert (PN : Permutation (names (List.concat b1)) (names (List.concat b2))) by (apply Permutation_map, P).
  rewrite (conditional_cov_unique (cov_of g) (gi_H g1) (names (List.concat b1)) K1 K2); auto.
  - apply ccov_perm; apply residual_perm, PN.
  - intros s t Hs Ht. apply Y; [apply in_app_or in Hs; destruct Hs as [Hs|Hs]|apply in_app_or in Ht; destruct Ht as [Ht|Ht]]; auto; rewrite H1 in *; rewrite rest_In in *; tauto.
  - intros a z Ha Hz. rewrite (ccov_perm _ _ (residual (names (List.concat b2)) K2 a) _ [(1, z)]); [|apply residual_perm, PN|reflexivity].
    apply R2; [exact Ha|]. eapply Permutation_in; eauto.
Qed.

(** ** means *)
Lemma one_mean inv g obs g' K : inv_sound inv -> gwf g -> symmetric g -> do_inferences inv g obs = Ok g' ->
  aligned g obs -> (forall y, In y (gi_H g') -> mean_of g y = 0) -> regression (cov_of g) (gi_H g') (names obs) K ->
  exists p, params g' = Ok p /\ (forall y, In y (gi_H g') -> dget p y = Some (conditional_mean (mean_of g) K obs y, cov_of g' y y)) /\
            (forall s v, In (s, v) obs -> dget p s = Some (v, 0)).
Proof.
  intros S W Y OK A Z R. pose proof (call_incl _ _ _ _ W OK) as I. pose proof (call_nodup _ _ _ _ S W OK) as D.
  destruct (inv (List.length (names obs)) (observed_block g obs)) as [b|x] eqn:IB.
  2:{ rewrite (infer_eq inv g obs W D I), IB in OK. discriminate. }
  pose proof (S _ _ _ IB) as INV. destruct (result_shape inv g g' obs b W D I OK IB) as (E1 & E2 & W').
  destruct (params_ok g' W') as (p & P1 & P2 & P3). exists p. split; [exact P1|]. split.
  - intros y Hy. rewrite P2 by exact Hy. f_equal. f_equal. pose proof Hy as Hy2. rewrite E1 in Hy2.
    rewrite (result_mean inv g g' obs b W D I OK IB y Hy2 A). unfold conditional_mean. rewrite (Z y Hy).
    rewrite (qsum_map_ext (fun ob => K y (fst ob) * (snd ob - mean_of g (fst ob))) (fun ob => gcoef g obs b y (fst ob) * (snd ob - mean_of g (fst ob)))); [ring|].
    intros ob Ho. f_equal. rewrite E1 in R. apply result_unique; auto. apply in_map, Ho.
  - intros s v Hv. apply P3. rewrite E2. apply in_or_app. right. exact Hv.
Qed.
(** the means in general, as P reports them *)
Lemma one_mean_gen inv g obs g' K : inv_sound inv -> gwf g -> symmetric g -> do_inferences inv g obs = Ok g' ->
  aligned g obs -> regression (cov_of g) (gi_H g') (names obs) K ->
  exists p, params g' = Ok p /\ (forall y, In y (gi_H g') -> dget p y = Some (conditional_mean (mean_of g) K obs y - (1 + 1) * mean_of g y, cov_of g' y y)).
Proof.
  intros S W Y OK A R. pose proof (call_incl _ _ _ _ W OK) as I. pose proof (call_nodup _ _ _ _ S W OK) as D.
  destruct (inv (List.length (names obs)) (observed_block g obs)) as [b|x] eqn:IB.
  2:{ rewrite (infer_eq inv g obs W D I), IB in OK. discriminate. }
  pose proof (S _ _ _ IB) as INV. destruct (result_shape inv g g' obs b W D I OK IB) as (E1 & E2 & W').
  destruct (params_ok g' W') as (p & P1 & P2 & P3). exists p. split; [exact P1|].
  intros y Hy. rewrite P2 by exact Hy. f_equal. f_equal. pose proof Hy as Hy2. rewrite E1 in Hy2.
  rewrite (result_mean inv g g' obs b W D I OK IB y Hy2 A). unfold conditional_mean.
  rewrite (qsum_map_ext (fun ob => K y (fst ob) * (snd ob - mean_of g (fst ob))) (fun ob => gcoef g obs b y (fst ob) * (snd ob - mean_of g (fst ob)))); [ring|].
  intros ob Ho. f_equal. rewrite E1 in R. apply result_unique; auto. apply in_map, Ho.
Qed.
Lemma aligned_sorted g obs : NoDup (gi_H g) -> map fst obs = filter (fun h => mem h (map fst obs)) (gi_H g) -> aligned g obs.
Proof. intros _ E. unfold aligned. rewrite <- E. reflexivity. Qed.

(** ** errors *)
Lemma unknown_name inv g obs : gwf g -> ~ incl (names obs) (gi_H g) -> do_inferences inv g obs = Err KeyError.
Proof.
  intros (N & _) I. unfold do_inferences. cbv zeta. rewrite <- (mapM_map (fun n => dgetE (header_index (gi_H g)) n) fst obs).
  rewrite mapM_keyerror by assumption. reflexivity.
Qed.
Lemma answers inv g obs : inv_total inv -> gwf g -> NoDup (names obs) -> incl (names obs) (gi_H g) ->
  (exists B, inverse (List.length (names obs)) (fun i j => cov_of g (nth i (names obs) ""%string) (nth j (names obs) ""%string)) B) ->
  exists g', do_inferences inv g obs = Ok g'.
Proof.
  intros T W D I (B & IB). rewrite infer_eq by assumption. destruct (T (List.length (names obs)) (observed_block g obs)) as (b & E).
  - exists B. intros i j Hi Hj. destruct (IB i j Hi Hj) as [E1 E2].
    assert (Q : forall i j, (i < List.length (names obs))%nat -> (j < List.length (names obs))%nat ->
      observed_block g obs i j = cov_of g (nth i (names obs) ""%string) (nth j (names obs) ""%string)).
    { clear. intros i j Hi Hj. unfold observed_block, sub_arr, cov_of.
      rewrite !(nth_indep _ O (position (gi_H g) ""%string)) by (rewrite map_length; assumption). rewrite !map_nth. reflexivity. }
    split; [rewrite <- E1|rewrite <- E2]; apply qsum_map_ext; intros c Hc; apply in_seq in Hc; rewrite Q by lia; reflexivity.
  - rewrite E. cbn [rbind]. eexists. reflexivity.
Qed.
