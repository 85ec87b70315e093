(** Gaussian inference: the regression behind do_inferences, and observing in stages. *)
From Verif Require Import Py M_Gauss SpecGauss L_Base L_Sums L_Gauss.
Open Scope Qc_scope.

Lemma qsum_map_opp {A} (f : A -> Qc) l : qsum (map (fun x => - f x) l) = - qsum (map f l).
Proof. induction l as [|x t IH]; cbn [map]; [rewrite !qsum_nil; ring|]. rewrite !qsum_cons, IH. ring. Qed.
Lemma qsum_map_mult_r {A} (f : A -> Qc) c l : qsum (map (fun x => f x * c) l) = qsum (map f l) * c.
Proof. induction l as [|x t IH]; cbn [map]; [rewrite !qsum_nil; ring|]. rewrite !qsum_cons, IH. ring. Qed.
Lemma qsum_delta (F : string -> Qc) v l : NoDup l -> In v l ->
  qsum (map (fun u => F u * (if string_dec u v then 1 else 0)) l) = F v.
Proof.
  induction 1 as [|h t Hh Ht IH]; intros Hv; [destruct Hv|]. cbn [map]. rewrite qsum_cons. destruct Hv as [->|Hv].
  - destruct (string_dec v v); [|congruence]. rewrite qsum_map_zero; [ring|]. intros u Hu. destruct (string_dec u v); [congruence|ring].
  - destruct (string_dec h v); [congruence|]. rewrite IH by exact Hv. ring.
Qed.

(** ** covariances of combinations *)
Section Cov.
  Context (c : string -> string -> Qc).
  Lemma ccov_left a b : combined_cov c a b = qsum (map (fun x => fst x * combined_cov c [(1, snd x)] b) a).
  Proof.
    apply qsum_map_ext. intros x _. unfold combined_cov. cbn [map fst snd]. rewrite qsum_cons, qsum_nil, Qcplus_0_r, <- qsum_map_mult.
    apply qsum_map_ext. intros y _. ring.
  Qed.
  Lemma ccov_right a b : combined_cov c a b = qsum (map (fun y => fst y * combined_cov c a [(1, snd y)]) b).
  Proof.
    unfold combined_cov. rewrite qsum_swap. apply qsum_map_ext. intros y _. cbn [map fst snd]. rewrite <- qsum_map_mult.
    apply qsum_map_ext. intros x _. rewrite qsum_cons, qsum_nil. ring.
  Qed.
  Lemma ccov_one s t : combined_cov c [(1, s)] [(1, t)] = c s t.
  Proof. unfold combined_cov. cbn [map fst snd]. rewrite !qsum_cons, !qsum_nil. ring. Qed.
  Lemma ccov_residual_l zs K y b : combined_cov c (residual zs K y) b = combined_cov c [(1, y)] b - qsum (map (fun w => K y w * combined_cov c [(1, w)] b) zs).
  Proof.
    rewrite ccov_left. unfold residual. cbn [map fst snd]. rewrite qsum_cons, map_map. cbn [fst snd].
    rewrite (qsum_map_ext (fun w => - K y w * combined_cov c [(1, w)] b) (fun w => - (K y w * combined_cov c [(1, w)] b))) by (intros; ring).
    rewrite qsum_map_opp. ring.
  Qed.
  Lemma ccov_residual_r zs K y a : combined_cov c a (residual zs K y) = combined_cov c a [(1, y)] - qsum (map (fun w => K y w * combined_cov c a [(1, w)]) zs).
  Proof.
    rewrite ccov_right. unfold residual. cbn [map fst snd]. rewrite qsum_cons, map_map. cbn [fst snd].
    rewrite (qsum_map_ext (fun w => - K y w * combined_cov c a [(1, w)]) (fun w => - (K y w * combined_cov c a [(1, w)]))) by (intros; ring).
    rewrite qsum_map_opp. ring.
  Qed.
  Lemma residual_with zs K y z : combined_cov c (residual zs K y) [(1, z)] = c y z - qsum (map (fun w => K y w * c w z) zs).
  Proof. rewrite ccov_residual_l, ccov_one. f_equal. apply qsum_map_ext. intros. rewrite ccov_one. reflexivity. Qed.
  (** once the coefficients are right only one side needs correcting *)
  Lemma residual_one_side ys zs K y b : regression c ys zs K -> In y ys ->
    combined_cov c (residual zs K y) (residual zs K b) = combined_cov c (residual zs K y) [(1, b)].
  Proof.
    intros R Hy. rewrite ccov_residual_r. rewrite (qsum_map_zero (fun w => _)); [ring|].
    intros w Hw. rewrite (R y w Hy Hw). ring.
  Qed.
End Cov.

(** ** an inverse gives the coefficients *)
Section Regress.
  Context (c B : string -> string -> Qc) (zs : list string) (ND : NoDup zs).
  Context (BL : forall u v, In u zs -> In v zs -> qsum (map (fun w => B u w * c w v) zs) = if string_dec u v then 1 else 0).
  Definition coef (y w : string) : Qc := qsum (map (fun u => c y u * B u w) zs).
  Lemma coef_regression ys : regression c ys zs coef.
  Proof using ND BL.
    intros y z _ Hz. rewrite (residual_with c). unfold coef.
    rewrite (qsum_map_ext (fun w => qsum (map (fun u => c y u * B u w) zs) * c w z) (fun w => qsum (map (fun u => c y u * (B u w * c w z)) zs))).
    2:{ intros w _. rewrite <- qsum_map_mult_r. apply qsum_map_ext. intros. ring. }
    rewrite qsum_swap.
    rewrite (qsum_map_ext (fun u => qsum (map (fun w => c y u * (B u w * c w z)) zs)) (fun u => c y u * (if string_dec u z then 1 else 0))).
    2:{ intros u Hu. rewrite qsum_map_mult, BL by auto. reflexivity. }
    rewrite qsum_delta by auto. ring.
  Qed.
End Regress.
Lemma coef_unique c B zs K y w : NoDup zs -> In w zs ->
  (forall u v, In u zs -> In v zs -> qsum (map (fun x => c u x * B x v) zs) = if string_dec u v then 1 else 0) ->
  (forall z, In z zs -> c y z - qsum (map (fun x => K y x * c x z) zs) = 0) -> K y w = coef c B zs y w.
Proof.
  intros ND Hw BR R. unfold coef.
  rewrite (qsum_map_ext (fun u => c y u * B u w) (fun u => qsum (map (fun x => K y x * (c x u * B u w)) zs))).
  2:{ intros u Hu. specialize (R u Hu). assert (E : c y u = qsum (map (fun x => K y x * c x u) zs)).
      { transitivity (c y u - qsum (map (fun x => K y x * c x u) zs) + qsum (map (fun x => K y x * c x u) zs)); [ring|rewrite R; ring]. }
      rewrite E, <- qsum_map_mult_r. apply qsum_map_ext. intros. ring. }
  rewrite qsum_swap.
  rewrite (qsum_map_ext (fun x => qsum (map (fun u => K y x * (c x u * B u w)) zs)) (fun x => K y x * (if string_dec x w then 1 else 0))).
  2:{ intros x Hx. rewrite qsum_map_mult, BR by auto. reflexivity. }
  rewrite qsum_delta by auto. reflexivity.
Qed.

(** the conditional covariance does not depend on the choice of coefficients *)
Lemma conditional_cov_unique c ys zs K K' y y' : (forall s t, In s (ys ++ zs) -> In t (ys ++ zs) -> c s t = c t s) ->
  regression c ys zs K -> regression c ys zs K' -> In y ys -> In y' ys ->
  combined_cov c (residual zs K y) (residual zs K y') = combined_cov c (residual zs K' y) (residual zs K' y').
Proof.
  intros S R R' Hy Hy'. rewrite (residual_one_side c ys zs K) by auto.
  transitivity (combined_cov c (residual zs K y) (residual zs K' y')).
  - rewrite ccov_residual_r. rewrite (qsum_map_zero (fun w => _)); [ring|]. intros w Hw. rewrite (R y w) by auto. ring.
  - rewrite ccov_residual_l, (ccov_residual_l c zs K' y). f_equal.
    assert (Z : forall w, In w zs -> combined_cov c [(1, w)] (residual zs K' y') = 0).
    { intros w Hw. rewrite <- (R' y' w) by auto. rewrite ccov_residual_r, ccov_residual_l, !ccov_one.
      rewrite (S w y') by (apply in_or_app; auto). f_equal. apply qsum_map_ext. intros u Hu. rewrite !ccov_one.
      rewrite (S w u) by (apply in_or_app; auto). reflexivity. }
    rewrite !(qsum_map_zero (fun w => _)); [reflexivity| |]; intros w Hw; rewrite (Z w Hw); ring.
Qed.

(** ** observing in two stages *)
Section Stages.
  Context (c c1 : string -> string -> Qc) (ys1 zs1 ys2 zs2 : list string) (K1 K2 : string -> string -> Qc).
  Context (R1 : regression c ys1 zs1 K1) (C1 : conditional_cov c ys1 zs1 K1 c1).
  Context (R2 : regression c1 ys2 zs2 K2) (I2 : incl ys2 ys1) (J2 : incl zs2 ys1).
  Context (D : forall w, In w zs1 -> ~ In w zs2).
  Definition both_stages (y w : string) : Qc :=
    if in_dec string_dec w zs2 then K2 y w else K1 y w - qsum (map (fun v => K2 y v * K1 v w) zs2).
  Lemma both_residual_l y b : combined_cov c (residual (zs1 ++ zs2) both_stages y) b =
    combined_cov c (residual zs1 K1 y) b - qsum (map (fun v => K2 y v * combined_cov c (residual zs1 K1 v) b) zs2).
  Proof using D.
    rewrite ccov_residual_l, map_app, qsum_app.
    rewrite (qsum_map_ext (fun w => both_stages y w * combined_cov c [(1, w)] b)
      (fun w => K1 y w * combined_cov c [(1, w)] b + - qsum (map (fun v => K2 y v * (K1 v w * combined_cov c [(1, w)] b)) zs2)) zs1).
    2:{ intros w Hw. unfold both_stages. destruct (in_dec string_dec w zs2) as [J|J]; [exfalso; eapply D; eauto|].
        rewrite (qsum_map_ext (fun v => K2 y v * (K1 v w * combined_cov c [(1, w)] b)) (fun v => K2 y v * K1 v w * combined_cov c [(1, w)] b)) by (intros; ring).
        rewrite qsum_map_mult_r. ring. }
    rewrite qsum_map_plus, qsum_map_opp, qsum_swap.
    rewrite (qsum_map_ext (fun w => both_stages y w * combined_cov c [(1, w)] b) (fun w => K2 y w * combined_cov c [(1, w)] b) zs2).
    2:{ intros w Hw. unfold both_stages. destruct (in_dec string_dec w zs2) as [J|J]; [reflexivity|tauto]. }
    rewrite (ccov_residual_l c zs1 K1 y).
    rewrite (qsum_map_ext (fun v => K2 y v * combined_cov c (residual zs1 K1 v) b)
      (fun v => K2 y v * combined_cov c [(1, v)] b + - qsum (map (fun w => K2 y v * (K1 v w * combined_cov c [(1, w)] b)) zs1))).
    2:{ intros v _. rewrite ccov_residual_l, qsum_map_mult. ring. }
    rewrite qsum_map_plus, qsum_map_opp. ring.
  Qed.
  Lemma both_residual_r y a : combined_cov c a (residual (zs1 ++ zs2) both_stages y) =
    combined_cov c a (residual zs1 K1 y) - qsum (map (fun v => K2 y v * combined_cov c a (residual zs1 K1 v)) zs2).
  Proof using D.
    rewrite ccov_residual_r, map_app, qsum_app.
    rewrite (qsum_map_ext (fun w => both_stages y w * combined_cov c a [(1, w)])
      (fun w => K1 y w * combined_cov c a [(1, w)] + - qsum (map (fun v => K2 y v * (K1 v w * combined_cov c a [(1, w)])) zs2)) zs1).
    2:{ intros w Hw. unfold both_stages. destruct (in_dec string_dec w zs2) as [J|J]; [exfalso; eapply D; eauto|].
        rewrite (qsum_map_ext (fun v => K2 y v * (K1 v w * combined_cov c a [(1, w)])) (fun v => K2 y v * K1 v w * combined_cov c a [(1, w)])) by (intros; ring).
        rewrite qsum_map_mult_r. ring. }
    rewrite qsum_map_plus, qsum_map_opp, qsum_swap.
    rewrite (qsum_map_ext (fun w => both_stages y w * combined_cov c a [(1, w)]) (fun w => K2 y w * combined_cov c a [(1, w)]) zs2).
    2:{ intros w Hw. unfold both_stages. destruct (in_dec string_dec w zs2) as [J|J]; [reflexivity|tauto]. }
    rewrite (ccov_residual_r c zs1 K1 y).
    rewrite (qsum_map_ext (fun v => K2 y v * combined_cov c a (residual zs1 K1 v))
      (fun v => K2 y v * combined_cov c a [(1, v)] + - qsum (map (fun w => K2 y v * (K1 v w * combined_cov c a [(1, w)])) zs1))).
    2:{ intros v _. rewrite ccov_residual_r, qsum_map_mult. ring. }
    rewrite qsum_map_plus, qsum_map_opp. ring.
  Qed.
  (** a residual of the second stage, as a combination at the first *)
  Lemma second_stage y t : In y ys1 -> In t ys1 ->
    combined_cov c1 (residual zs2 K2 y) [(1, t)] = combined_cov c (residual (zs1 ++ zs2) both_stages y) (residual zs1 K1 t).
  Proof using D C1 J2.
    intros Hy Ht. rewrite both_residual_l, (residual_with c1). rewrite C1 by auto. f_equal.
    apply qsum_map_ext. intros v Hv. rewrite C1 by auto. reflexivity.
  Qed.
  Lemma second_both y t : In y ys1 -> In t ys1 ->
    combined_cov c1 (residual zs2 K2 y) (residual zs2 K2 t) = combined_cov c (residual (zs1 ++ zs2) both_stages y) (residual (zs1 ++ zs2) both_stages t).
  Proof using D C1 J2.
    intros Hy Ht. rewrite both_residual_r, ccov_residual_r, second_stage by auto. f_equal.
    apply qsum_map_ext. intros v Hv. rewrite second_stage by auto. reflexivity.
  Qed.
  Lemma stages_regression : regression c ys2 (zs1 ++ zs2) both_stages.
  Proof using D C1 J2 R1 R2 I2.
    assert (Z1 : forall y z, In y ys2 -> In z zs1 -> combined_cov c (residual (zs1 ++ zs2) both_stages y) [(1, z)] = 0).
    { intros y z Hy Hz. rewrite both_residual_l, (R1 y z) by auto. rewrite qsum_map_zero; [ring|]. intros v Hv. rewrite (R1 v z) by auto. ring. }
    intros y z Hy Hz. apply in_app_or in Hz. destruct Hz as [Hz|Hz]; [auto|].
    specialize (R2 y z Hy Hz). rewrite second_stage in R2 by auto. rewrite ccov_residual_r in R2.
    rewrite (qsum_map_zero (fun w => _)) in R2. 2:{ intros w Hw. rewrite Z1 by auto. ring. }
    rewrite <- R2. ring.
  Qed.
  Lemma stages_cov c2 : conditional_cov c1 ys2 zs2 K2 c2 -> conditional_cov c ys2 (zs1 ++ zs2) both_stages c2.
  Proof using D C1 J2 I2. intros C2 y y' Hy Hy'. rewrite C2 by auto. apply second_both; auto. Qed.
End Stages.
