(** Gaussian inference: do_inferences conditions the covariance; what P then reports. *)
From Verif Require Import Py M_Gauss SpecGauss L_Base L_Sums L_Gauss L_Gauss2 L_Gauss3.
Open Scope Qc_scope.

Section Named.
  Context (inv : nat -> arr -> res arr) (g g' : ginf) (obs : list (string * Qc)) (b : arr).
  Context (W : gwf g) (ND : NoDup (names obs)) (I : incl (names obs) (gi_H g)).
  Context (OK : do_inferences inv g obs = Ok g') (IB : inv (List.length (names obs)) (observed_block g obs) = Ok b).
  Context (INV : inverse (List.length (names obs)) (observed_block g obs) b).
  Let H := gi_H g.
  Let zs := names obs.
  Let ys := rest H obs.
  Let c := cov_of g.
  Definition binv (u w : string) : Qc := b (position (names obs) u) (position (names obs) w).
  Definition gcoef : string -> string -> Qc := coef (cov_of g) binv (names obs).

  Lemma block_at u v : In u zs -> In v zs -> observed_block g obs (position zs u) (position zs v) = c u v.
  Proof. intros Hu Hv. unfold observed_block, sub_arr. rewrite !position_map by assumption. reflexivity. Qed.
  Lemma delta_at u v : In u zs -> In v zs -> delta (position zs u) (position zs v) = if string_dec u v then 1 else 0.
  Proof.
    intros Hu Hv. unfold delta. destruct (Nat.eqb_spec (position zs u) (position zs v)) as [e|n]; destruct (string_dec u v) as [e'|n']; try reflexivity.
    - exfalso. apply n'. eapply position_inj; eauto.
    - exfalso. apply n. subst. reflexivity.
  Qed.
  Lemma binv_left u v : In u zs -> In v zs -> qsum (map (fun w => binv u w * c w v) zs) = if string_dec u v then 1 else 0.
  Proof using INV ND.
    intros Hu Hv. rewrite <- delta_at by assumption. destruct (INV (position zs u) (position zs v)) as [_ E]; try (apply position_lt; assumption).
    rewrite <- E. fold zs. rewrite seq_sum by exact ND. apply qsum_map_ext. intros w Hw. rewrite block_at by assumption. reflexivity.
  Qed.
  Lemma binv_right u v : In u zs -> In v zs -> qsum (map (fun w => c u w * binv w v) zs) = if string_dec u v then 1 else 0.
  Proof using INV ND.
    intros Hu Hv. rewrite <- delta_at by assumption. destruct (INV (position zs u) (position zs v)) as [E _]; try (apply position_lt; assumption).
    rewrite <- E. fold zs. rewrite seq_sum by exact ND. apply qsum_map_ext. intros w Hw. rewrite block_at by assumption. reflexivity.
  Qed.
  Lemma sub_at u v : In u ys -> In v zs -> sub_arr (gi_E g) (map (position H) ys) (map (position H) zs) (position ys u) (position zs v) = c u v.
  Proof. intros Hu Hv. unfold sub_arr. rewrite !position_map by assumption. reflexivity. Qed.
  Lemma weights_at y w : In y ys -> weights g obs b (position ys y) (position zs w) = gcoef y w.
  Proof using ND.
    intros Hy. unfold weights, gcoef, coef, mdot. rewrite (seq_sum _ _ ND). apply qsum_map_ext. intros u Hu.
    f_equal. apply sub_at; assumption.
  Qed.

  Lemma result_shape : gi_H g' = ys /\ gi_meta g' = gi_meta g ++ obs /\ gwf g'.
  Proof using OK IB W ND I.
    rewrite (infer_eq inv g obs W ND I), IB in OK. cbn [rbind] in OK. injection OK as <-. cbn [gi_H gi_meta]. split; [reflexivity|]. split; [reflexivity|].
    destruct W as (N & LM & LN & DM & NM). split; [apply NoDup_filter, N|]. cbn [gi_M gi_n gi_H gi_meta]. rewrite map_length. split; [reflexivity|]. split; [reflexivity|].
    rewrite map_app. split.
    - intros s Hs. apply rest_In in Hs. rewrite in_app_iff. intros [K|K]; [eapply DM; eauto; tauto|]. apply (proj2 Hs), K.
    - apply (Permutation_NoDup (Permutation_app_comm (names obs) (map fst (gi_meta g)))).
      clear - NM ND DM I. induction (names obs) as [|x t IH]; [exact NM|]. inversion ND; subst. simpl. constructor.
      + rewrite in_app_iff. intros [K|K]; [tauto|]. eapply DM; [|exact K]. apply I. left. reflexivity.
      + apply IH; auto. intros y Hy. apply I. right. exact Hy.
  Qed.

  Lemma result_cov y y' : In y ys -> In y' ys -> cov_of g' y y' = c y y' - qsum (map (fun w => gcoef y w * c y' w) zs).
  Proof using OK IB W ND I.
    intros Hy Hy'. rewrite (infer_eq inv g obs W ND I), IB in OK. cbn [rbind] in OK. injection OK as <-. unfold cov_of at 1. cbn [gi_H gi_E].
    unfold arr_minus. fold H ys. f_equal.
    - unfold sub_arr. rewrite !position_map by assumption. reflexivity.
    - unfold mdot at 1. rewrite (seq_sum _ _ ND). apply qsum_map_ext. intros w Hw.
      rewrite weights_at by assumption. f_equal. apply sub_at; assumption.
  Qed.

  Lemma result_regression : regression c ys zs gcoef.
  Proof using INV ND. apply coef_regression; [exact ND|]. intros; apply binv_left; assumption. Qed.
  Lemma result_unique K y w : regression c ys zs K -> In y ys -> In w zs -> K y w = gcoef y w.
  Proof using INV ND.
    intros R Hy Hw. apply (coef_unique c binv zs K y w ND Hw).
    - intros; apply binv_right; assumption.
    - intros z Hz. rewrite <- residual_with. apply R; assumption.
  Qed.
  Lemma result_conditional : symmetric g -> conditional_cov c ys zs gcoef (cov_of g').
  Proof using OK IB INV W ND I.
    intros S y y' Hy Hy'. rewrite (residual_one_side c ys) by (auto using result_regression). rewrite residual_with, result_cov by assumption. f_equal.
    apply qsum_map_ext. intros w Hw. f_equal. apply S; [apply rest_In in Hy'; tauto|apply I, Hw].
  Qed.
  Lemma result_symmetric : symmetric g -> symmetric g'.
  Proof using OK IB INV W ND I.
    intros S. destruct result_shape as (EH & _ & _). intros s t Hs Ht. rewrite EH in Hs, Ht. rewrite !result_cov by assumption.
    unfold c at 1 3. rewrite (S s t) by (apply rest_In in Hs, Ht; tauto). f_equal.
    assert (G : forall a e, In a ys -> In e ys -> qsum (map (fun w => gcoef a w * c e w) zs) = qsum (map (fun w => qsum (map (fun u => gcoef a w * (gcoef e u * c u w)) zs)) zs)).
    { intros a e Ha He. apply qsum_map_ext. intros w Hw. rewrite qsum_map_mult. f_equal.
      pose proof (result_regression e w He Hw) as R. rewrite residual_with in R.
      transitivity (c e w - qsum (map (fun u => gcoef e u * c u w) zs) + qsum (map (fun u => gcoef e u * c u w) zs)); [ring|rewrite R; ring]. }
    rewrite !G by assumption. rewrite qsum_swap. apply qsum_map_ext. intros u Hu. apply qsum_map_ext. intros w Hw.
    unfold c. rewrite (S u w) by (apply I; assumption). ring.
  Qed.

  (** the means it stores *)
  Lemma result_mean y : In y ys -> aligned g obs ->
    mean_of g' y = mean_of g y - qsum (map (fun ob => gcoef y (fst ob) * (snd ob - mean_of g (fst ob))) obs).
  Proof using OK IB W ND I.
    intros Hy A. rewrite (infer_eq inv g obs W ND I), IB in OK. cbn [rbind] in OK. injection OK as <-. unfold mean_of at 1. cbn [gi_H gi_M].
    fold H ys. rewrite position_map by exact Hy. f_equal.
    assert (E : differences g obs = map (fun ob => snd ob - mean_of g (fst ob)) obs).
    { unfold differences. unfold aligned in A. fold (names obs) in A. unfold seen. rewrite <- A. unfold names. rewrite map_map. clear.
      induction obs as [|o t IH]; [reflexivity|]. cbn [map combine fst snd]. rewrite IH. reflexivity. }
    rewrite E, (enum_nth _ 0), map_map, map_length. cbn [fst snd].
    replace (List.length obs) with (List.length (names obs)) by (unfold names; apply map_length).
    rewrite (seq_sum _ _ ND). match goal with |- qsum (map ?f (names obs)) = _ => change (map f (names obs)) with (map f (map fst obs)); rewrite (map_map fst f) end.
    apply qsum_map_ext. intros ob Ho.
    rewrite weights_at by exact Hy. rewrite position_pick by assumption. reflexivity.
  Qed.
End Named.

(** ** what P reports *)
Lemma params_fold (n : nat) (E : arr) : forall (l : list (string * Qc)) k d, NoDup (map fst l) -> (k + List.length l <= n)%nat ->
  exists d', foldM (fun (d : list (string * (Qc * Qc))) (p : nat * (string * Qc)) => let (i, kv) := p in if Nat.ltb i n then Ok (dset d (fst kv) (- snd kv, E i i)) else Err IndexError)
                   (combine (seq k (List.length l)) l) d = Ok d' /\
    (forall s, ~ In s (map fst l) -> dget d' s = dget d s) /\
    (forall s, In s (map fst l) -> exists i v, nth_error l i = Some (s, v) /\ dget d' s = Some (- v, E (k + i)%nat (k + i)%nat)).
Proof.
  induction l as [|[s v] t IH]; intros k d N L.
  - exists d. split; [reflexivity|]. split; [reflexivity|]. intros s [].
  - cbn [List.length seq combine foldM]. simpl in L. destruct (Nat.ltb_spec k n) as [Hk|Hk]; [|lia]. cbn [rbind fst snd].
    inversion N as [|? ? N1 N2]; subst. destruct (IH (S k) (dset d s (- v, E k k)) N2) as (d' & E1 & E2 & E3); [lia|].
    exists d'. split; [exact E1|]. split.
    + intros x Hx. simpl in Hx. rewrite E2 by tauto. apply dget_dset_neq. intros ->. tauto.
    + intros x Hx. destruct (in_dec string_dec x (map fst t)) as [J|J].
      * destruct (E3 x J) as (i & w & F1 & F2). exists (S i), w. split; [exact F1|]. rewrite F2. do 3 f_equal; lia.
      * simpl in Hx. destruct Hx as [<-|Hx]; [|tauto]. exists 0%nat, v. split; [reflexivity|]. rewrite E2 by exact J. rewrite dget_dset_eq, Nat.add_0_r. reflexivity.
Qed.
Lemma fold_meta (meta : list (string * Qc)) : forall d s, NoDup (map fst meta) ->
  dget (fold_left (fun (d : list (string * (Qc * Qc))) kv => dset d (fst kv) (snd kv, 0)) meta d) s =
  match dget meta s with Some v => Some (v, 0) | None => dget d s end.
Proof.
  induction meta as [|[k v] t IH]; intros d s N; [reflexivity|]. inversion N as [|? ? N1 N2]; subst. cbn [fold_left fst snd]. rewrite IH by exact N2.
  cbn [dget]. destruct (eqb_spec s k) as [->|n].
  - destruct (dget t k) as [w|] eqn:F. { exfalso. apply N1. apply dget_In in F. change (In k (map fst t)). apply in_map_iff. exists (k, w). auto. }
    apply dget_dset_eq.
  - destruct (dget t s); [reflexivity|]. apply dget_dset_neq, n.
Qed.
Lemma params_ok g : gwf g -> exists p, params g = Ok p /\
  (forall s, In s (gi_H g) -> dget p s = Some (- mean_of g s, cov_of g s s)) /\
  (forall s v, In (s, v) (gi_meta g) -> dget p s = Some (v, 0)).
Proof.
  intros (N & LM & LN & DM & NM). unfold params, enumerate.
  assert (EM : combine (gi_H g) (gi_M g) = map (fun h => (h, mean_of g h)) (gi_H g)).
  { rewrite (means_map g N LM) at 1. clear. induction (gi_H g) as [|h t IH]; [reflexivity|]. cbn [map combine]. rewrite IH. reflexivity. }
  rewrite EM. set (L := map (fun h => (h, mean_of g h)) (gi_H g)).
  assert (EL : map fst L = gi_H g) by (unfold L; rewrite map_map; cbn [fst]; apply map_id).
  destruct (params_fold (gi_n g) (gi_E g) L 0 (fold_left (fun d kv => dset d (fst kv) (snd kv, 0)) (gi_meta g) [])) as (p & E1 & E2 & E3).
  { rewrite EL. exact N. } { unfold L. rewrite map_length. lia. }
  exists p. split; [exact E1|]. split.
  - intros s Hs. rewrite <- EL in Hs. destruct (E3 s Hs) as (i & v & F1 & F2). rewrite F2. rewrite EL in Hs.
    assert (Ei : i = position (gi_H g) s).
    { assert (F3 : nth_error (gi_H g) i = Some s).
      { rewrite <- EL. rewrite nth_error_map, F1. reflexivity. }
      assert (F4 : nth_error (gi_H g) (position (gi_H g) s) = Some s).
      { rewrite (nth_error_nth' _ ""%string) by (apply position_lt, Hs). rewrite position_nth by exact Hs. reflexivity. }
      eapply NoDup_nth_error; [exact N|apply nth_error_Some; rewrite F3; discriminate|]. rewrite F3, F4. reflexivity. }
    subst i. apply nth_error_In in F1. unfold L in F1. apply in_map_iff in F1. destruct F1 as (h & F & _). injection F as -> <-. reflexivity.
  - intros s v Hv. rewrite E2. 2:{ rewrite EL. intros K. eapply DM; [exact K|]. apply in_map_iff. exists (s, v). auto. }
    rewrite fold_meta by exact NM. rewrite (In_dget (gi_meta g) s v); auto.
Qed.
