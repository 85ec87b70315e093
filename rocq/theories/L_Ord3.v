(** Certain values in orderly arithmetic. *)
From Verif Require Import Py M_Graph M_Node M_Pptc M_Round Spec SpecNet SpecEv L_Base L_Apply L_Build L_Net L_Hist L_P1 L_Claims L_Round L_Round4 L_Round5 L_Size L_Steady L_Ord1 L_Ord2 SpecRound SpecStored SpecOrderly.
Open Scope nat_scope.
Open Scope Qc_scope.

Lemma sum_one (f : string -> Qc) l y : NoDup l -> In y l -> (forall x, In x l -> 0 <= f x) -> qsum (map f l) = f y -> forall x, In x l -> x <> y -> f x = 0.
Proof.
  intros ND Hy H0 E x Hx Hn. apply in_split in Hy. destruct Hy as [l1 [l2 ->]]. rewrite map_app, qsum_app in E. simpl in E. rewrite qsum_cons in E.
  assert (Z : qsum (map f l1) + qsum (map f l2) = 0). { replace (qsum (map f l1) + qsum (map f l2)) with (qsum (map f l1) + (f y + qsum (map f l2)) - f y) by ring. rewrite E. ring. }
  assert (P : forall l, (forall x, In x l -> 0 <= f x) -> 0 <= qsum (map f l)). { intros l Hl. apply qsum_nonneg. intros q Hq. apply in_map_iff in Hq. destruct Hq as [z [<- Hz]]. auto. }
  assert (P1 : forall x, In x l1 -> 0 <= f x) by (intros z Hz; apply H0, in_app_iff; auto). assert (P2 : forall x, In x l2 -> 0 <= f x) by (intros z Hz; apply H0, in_app_iff; simpl; auto).
  destruct (plus_zero_nonneg _ _ (P l1 P1) (P l2 P2) Z) as [Z1 Z2]. assert (G : forall l, (forall x, In x l -> 0 <= f x) -> qsum (map f l) = 0 -> In x l -> f x = 0).
  { clear - P. induction l as [|z l IH]; intros Hl E Hx; [destruct Hx|]. simpl in E. rewrite qsum_cons in E. assert (Hl' : forall x, In x l -> 0 <= f x) by (intros w Hw; apply Hl; right; auto). destruct (plus_zero_nonneg _ _ (Hl z (or_introl eq_refl)) (P l Hl') E) as [E1 E2]. destruct Hx as [<-|Hx]; auto. }
  apply in_app_iff in Hx. destruct Hx as [Hx|[Hx|Hx]]; [apply (G l1)|congruence|apply (G l2)]; auto.
Qed.

Theorem c110_certain ops o h r a : well_shaped ops -> connected ops -> ord_ok o -> valid_history (net_of ops) h -> Forall hard_call (calls h) -> orderly r a ->
  let N := net_of ops in let L := in_force N (calls h) in
  exists j t, session_r a o ops h = Ok j /\ get_posteriors_r a j = Ok t /\
    forall i y, In i (vars N) -> In y (dom N i) -> exact_posterior N L i y = 1 -> dget t (net_name ops i) = Some (map (fun x => (x, if String.eqb x y then 1 else 0)) (dom N i)).
Proof.
  intros HW Hc Ho Hh Hd OD N L. destruct (c110_range ops o h r a HW Ho Hh OD) as [j [t [A1 [A2 [A3 A4]]]]]. exists j, t. split; auto. split; auto. intros i y Hi Hy E.
  destruct (c80_spread ops o h HW Hc Ho Hh Hd r a (od_acc _ _ OD)) as [j2 [t2 [B1 [B2 [_ B3]]]]]. rewrite A1 in B1. inversion B1; subst j2. rewrite A2 in B2. inversion B2; subst t2. fold N L in B3.
  destruct (A4 i Hi) as [qs [Q1 [Q2 [_ [_ Q5]]]]]. destruct (B3 i Hi) as [row [R1 R2]]. fold N in Q2. rewrite Q2 in R1. assert (Er0 : combine (dom N i) qs = row) by congruence. subst row. clear R1. rewrite Q2. f_equal.
  assert (HP : possible N L). { unfold exact_posterior in E. unfold possible. destruct (Qc_eq_dec (total N L) 0); auto. discriminate. }
  change (net_of ops) with N in R2, Q1, Q2. assert (NN : forall x, In x (dom N i) -> 0 <= exact_posterior N L i x). { clear - R2. unfold row_within in R2. induction R2 as [|x q l l2 [_ W] F IH]; [intros z []|intros z [Hz|Hz]]; auto. subst z. apply W. }
  pose proof (net_shape ops HW) as HN. change (net_of ops) with N in HN. destruct (ns_dom _ HN i Hi) as [ND _].
  assert (Z : forall x, In x (dom N i) -> x <> y -> exact_posterior N L i x = 0). { apply sum_one; auto. rewrite E. apply posterior_sum; auto. }
  unfold row_within in R2. fold N in Q1. clear - Q1 Q5 R2 Z Hy E ND. apply in_split in Hy. destruct Hy as [l1 [l2 Ed]]. rewrite Ed in *.
  assert (T : exists k1 q k2, qs = k1 ++ q :: k2 /\ List.length k1 = List.length l1 /\ List.length k2 = List.length l2).
  { exists (firstn (List.length l1) qs). destruct (skipn (List.length l1) qs) as [|q k2] eqn:S.
    - exfalso. apply (f_equal (@List.length Qc)) in S. rewrite skipn_length, Q1, app_length in S. simpl in S. lia.
    - exists q, k2. assert (W : qs = firstn (List.length l1) qs ++ q :: k2) by (rewrite <- S; symmetry; apply firstn_skipn). split; auto. assert (F : List.length (firstn (List.length l1) qs) = List.length l1). { apply firstn_length_le. rewrite Q1, app_length. lia. } split; auto.
      apply (f_equal (@List.length Qc)) in W. rewrite !app_length, F, Q1, app_length in W. simpl in W. lia. }
  destruct T as [k1 [q [k2 [-> [K1 K2]]]]].
  assert (CA : forall (u : list string) (v : list Qc) u' v', List.length v = List.length u -> combine (u ++ u') (v ++ v') = combine u v ++ combine u' v'). { clear. induction u as [|x u IH]; intros [|w v] u' v' H; simpl in *; try discriminate; auto. rewrite IH; auto. }
  rewrite CA in R2 |- * by auto. simpl combine in *. rewrite map_app. simpl map. rewrite String.eqb_refl.
  assert (ND1 : forall x, In x l1 \/ In x l2 -> x <> y). { intros x Hx ->. apply NoDup_remove_2 in ND. apply ND. apply in_app_iff. tauto. }
  apply Forall2_app_inv_l in R2. destruct R2 as [r1 [r2 [F1 [F2 Er]]]]. assert (Lr : List.length r1 = List.length (combine l1 k1)). { rewrite combine_length, K1, Nat.min_id. clear - F1. induction F1; simpl; auto. }
  assert (r1 = combine l1 k1 /\ r2 = (y, q) :: combine l2 k2) as [-> ->]. { clear - Er Lr. revert r1 Lr Er. induction (combine l1 k1) as [|x u IH]; intros [|z r1] Lr Er; simpl in *; try discriminate; auto. inversion Er; subst. destruct (IH r1) as [-> ->]; auto. }
  inversion F2 as [|? ? ? ? [_ Wq] F3]; subst. cbn [snd] in Wq.
  assert (G : forall u v, (forall x, In x u -> x <> y /\ exact_posterior N L i x = 0) -> List.length v = List.length u -> Forall2 (fun y0 q0 => fst q0 = y0 /\ within r (spread_of ops) (exact_posterior N L i y0) (snd q0)) u (combine u v) ->
     Forall (fun z => z = 0) v /\ combine u v = map (fun x => (x, if String.eqb x y then 1 else 0)) u).
  { clear. induction u as [|x u IH]; intros [|w v] H Lv F; simpl in *; try discriminate; auto. inversion F as [|? ? ? ? [_ W] F']; subst. destruct (H x (or_introl eq_refl)) as [H1 H2]. cbn [snd] in W. rewrite H2 in W. apply within_0 in W. assert (w = 0) by (apply W; auto). subst w.
    destruct (IH v) as [I1 I2]; auto. split; [constructor; auto|]. rewrite I2. destruct (String.eqb_spec x y); [congruence|auto]. }
  destruct (G l1 k1) as [G1 G2]; auto. { intros x Hx. split; [auto|]. apply Z; auto. rewrite in_app_iff; auto. }
  destruct (G l2 k2) as [G3 G4]; auto. { intros x Hx. split; [auto|]. apply Z; auto. rewrite in_app_iff; simpl; auto. }
  rewrite G2, G4. f_equal. f_equal. f_equal. apply (Q5 k1 q k2); auto. { apply Forall_app; auto. } intros ->. rewrite E in Wq. apply within_0 in Wq. assert (X : 1 = 0) by (apply Wq; auto). discriminate X.
Qed.
