(** What is reported is linear in each table, up to normalisation. *)
From Verif Require Import Py M_Graph M_Node M_Pptc Spec SpecNet SpecEv SpecPot SpecRe SpecCohere SpecMix L_Base L_PD L_Sums L_Table L_Tree L_Exact L_Apply L_Net L_Claims L_P1 L_P4 L_Hist L_Shown L_Reapply L_Cohere.
Open Scope Qc_scope.

Lemma mixed_nth t A B k : (k < List.length A)%nat -> (k < List.length B)%nat -> nth k (mixed t A B) 0 = t * nth k A 0 + (1 - t) * nth k B 0.
Proof.
  revert B k. induction A as [|x A IH]; intros B k HA HB; simpl in HA; [lia|]. destruct B as [|z B]; simpl in HB; [lia|]. destruct k as [|k]; [reflexivity|]. apply (IH B k); simpl in *; lia.
Qed.
Lemma mixed_length t A B n : (n <= List.length A)%nat -> (n <= List.length B)%nat -> (n <= List.length (mixed t A B))%nat.
Proof. intros H1 H2. unfold mixed. rewrite map_length, combine_length. lia. Qed.
Lemma mixed_pos t A B : 0 <= t -> t <= 1 -> Forall (Qcle 0) A -> Forall (Qcle 0) B -> Forall (Qcle 0) (mixed t A B).
Proof.
  intros H0 H1 HA HB. apply Forall_forall. intros q Hq. unfold mixed in Hq. apply in_map_iff in Hq. destruct Hq as ([x z] & <- & Hp). simpl.
  rewrite Forall_forall in HA, HB. specialize (HA x (in_combine_l _ _ _ _ Hp)). specialize (HB z (in_combine_r _ _ _ _ Hp)).
  replace 0 with (0 + 0) by ring. apply Qcplus_le_compat; apply Qcle_0_mult; auto. replace (1 - t) with (1 + - t) by ring. replace 0 with (t + - t) by ring. apply Qcplus_le_compat; auto. apply Qcle_refl.
Qed.
Lemma sums_lin dm vs f g s t : forall a, sums dm vs (fun b => s * f b + t * g b) a = s * sums dm vs f a + t * sums dm vs g a.
Proof.
  induction vs as [|v vs IH]; intros a; [reflexivity|]. cbn [sums]. rewrite (qsum_map_ext _ (fun x => s * sums dm vs f (upd a v x) + t * sums dm vs g (upd a v x))) by (intros; apply IH).
  rewrite qsum_map_plus, !qsum_map_mult. reflexivity.
Qed.

Section Mix.
  Context (N : net) (HN : nshape N) (i : Z) (Hi : In i (vars N)) (A B : list Qc) (FA : fitting N [(i, A)]) (FB : fitting N [(i, B)]).
  Context (t : Qc) (H0 : 0 <= t) (H1 : t <= 1) (L : likelihood) (HL : forall i v, In i (vars N) -> In v (dom N i) -> 0 <= L i v).
  Let NA := replaced N [(i, A)].
  Let NB := replaced N [(i, B)].
  Let NM := replaced N [(i, mixed t A B)].
  Lemma mix_fits : fitting N [(i, mixed t A B)].
  Proof using FA FB H0 H1.
    split; [repeat constructor; intros []|]. intros k c [E|[]] Hk. injection E as <- <-. destruct (proj2 FA i A (or_introl eq_refl) Hk) as [A1 A2]. destruct (proj2 FB i B (or_introl eq_refl) Hk) as [B1 B2].
    split; [apply mixed_length; auto|apply mixed_pos; auto].
  Qed.
  Lemma mix_entry a : okon (dom N) (vars N) a -> cpt_entry NM i a = t * cpt_entry NA i a + (1 - t) * cpt_entry NB i a.
  Proof using HN Hi FA FB.
    intros Ha. unfold cpt_entry, NM, NA, NB. cbn [replaced dom par cpt dget]. rewrite !eqb_refl. destruct (proj2 FA i A (or_introl eq_refl) Hi) as [A1 _]. destruct (proj2 FB i B (or_introl eq_refl) Hi) as [B1 _].
    assert (K : (row_index (dom N) (par N i ++ [i]) a < size (dom N) (par N i ++ [i]))%nat).
    { apply row_index_lt. intros v Hv. apply Ha. apply in_app_or in Hv. destruct Hv as [Hv|[<-|[]]]; auto. apply (ns_ends _ HN v i Hv). }
    apply mixed_nth; lia.
  Qed.
  Lemma other_entry C D k a : k <> i -> cpt_entry (replaced N [(i, C)]) k a = cpt_entry (replaced N [(i, D)]) k a.
  Proof using. intros Hk. unfold cpt_entry. cbn [replaced dom par cpt dget]. destruct (eqb_spec k i); [contradiction|]. reflexivity. Qed.
  Lemma mix_weight a : okon (dom N) (vars N) a -> weight NM L a = t * weight NA L a + (1 - t) * weight NB L a.
  Proof using HN Hi FA FB.
    intros Ha. unfold weight. change (vars NM) with (vars N). change (vars NA) with (vars N). change (vars NB) with (vars N).
    assert (G : qprod (map (fun v => cpt_entry NM v a) (vars N)) = t * qprod (map (fun v => cpt_entry NA v a) (vars N)) + (1 - t) * qprod (map (fun v => cpt_entry NB v a) (vars N))); [|rewrite G; ring].
    pose proof (ns_nd _ HN) as HV. pose proof Hi as Hi2. revert Hi2 HV. generalize (vars N) at 1 2 3 4 5 as V. induction V as [|v V IH]; intros Hv HV; [destruct Hv|]. inversion HV as [|? ? N1 N2]; subst. cbn [map]. rewrite !qprod_cons.
    destruct (Z.eq_dec v i) as [->|Hne].
    - rewrite mix_entry by auto. assert (E : forall C D, map (fun v => cpt_entry (replaced N [(i, C)]) v a) V = map (fun v => cpt_entry (replaced N [(i, D)]) v a) V).
      { intros C D. apply map_ext_in. intros x Hx. apply other_entry. intros ->. contradiction. }
      unfold NM, NA, NB. rewrite (E (mixed t A B) A), (E B A). ring.
    - destruct Hv as [Hv|Hv]; [congruence|]. rewrite IH by auto. unfold NM, NA, NB in *. rewrite (other_entry (mixed t A B) A v a Hne), (other_entry B A v a Hne). ring.
  Qed.
  Lemma mix_total : total NM L = t * total NA L + (1 - t) * total NB L.
  Proof using HN Hi FA FB. unfold total. rewrite <- (sums_lin (dom N) (vars N) (weight NA L) (weight NB L)). apply sums_ext_gen. intros b _ Hb. apply mix_weight; auto. Qed.
  Lemma mix_mass k y : mass_of NM L k y = t * mass_of NA L k y + (1 - t) * mass_of NB L k y.
  Proof using HN Hi FA FB.
    unfold mass_of. change (sums (dom NA) (vars NA)) with (sums (dom N) (vars N)). change (sums (dom NB) (vars NB)) with (sums (dom N) (vars N)). rewrite <- sums_lin. apply sums_ext_gen. intros b _ Hb. cbv beta.
    destruct (string_dec (b k) y); [apply mix_weight; auto|ring].
  Qed.
End Mix.

Lemma unit_shown N cs : unitL N (shown N cs).
Proof.
  unfold shown. assert (G : forall cs p, unitL N (fst p) -> unitL N (snd p) -> unitL N (fst (fold_left (step N) cs p)) /\ unitL N (snd (fold_left (step N) cs p))).
  { clear cs. induction cs as [|c cs IH]; intros p U1 U2; [split; auto|]. cbn [fold_left]. apply IH; unfold step; cbn [fst snd]; [apply unit_effect; auto|]. destruct (forallb _ _); auto. apply unit_effect; auto. }
  apply (G cs (no_evidence, no_evidence)); apply unit_none.
Qed.
Lemma mass_le N L k y : nshape N -> (forall i v, In i (vars N) -> In v (dom N i) -> 0 <= L i v) -> In k (vars N) -> In y (dom N k) -> total N L = 0 -> mass_of N L k y = 0.
Proof.
  intros HN HL Hk Hy Z. rewrite <- (mass_total N L HN k Hk) in Z. apply (qsum_zero_nonneg (map (mass_of N L k) (dom N k))); auto.
  - intros x Hx. apply in_map_iff in Hx. destruct Hx as (z & <- & _). apply L_Claims.mass_nonneg; auto.
  - apply in_map; auto.
Qed.

(** one weight does for every variable and value *)
Theorem mix_posterior N i A B t L : nshape N -> In i (vars N) -> fitting N [(i, A)] -> fitting N [(i, B)] -> 0 <= t -> t <= 1 ->
  (forall i v, In i (vars N) -> In v (dom N i) -> 0 <= L i v) ->
  exists w, 0 <= w /\ w <= 1 /\ (total (replaced N [(i, A)]) L = total (replaced N [(i, B)]) L -> total (replaced N [(i, A)]) L <> 0 -> w = t) /\
    forall k y, In k (vars N) -> In y (dom N k) ->
      exact_posterior (replaced N [(i, mixed t A B)]) L k y = w * exact_posterior (replaced N [(i, A)]) L k y + (1 - w) * exact_posterior (replaced N [(i, B)]) L k y.
Proof.
  intros HN Hi FA FB H0 H1 HL. pose proof (mix_total N HN i Hi A B FA FB t L) as ET. pose proof (mix_mass N HN i Hi A B FA FB t L) as EM.
  pose proof (replaced_shape _ _ HN FA) as SA. pose proof (replaced_shape _ _ HN FB) as SB.
  pose proof (total_nonneg _ L SA HL) as PA. pose proof (total_nonneg _ L SB HL) as PB.
  pose proof (fun k y Hk Hy => mass_le _ L k y SA HL Hk Hy) as ZA. pose proof (fun k y Hk Hy => mass_le _ L k y SB HL Hk Hy) as ZB.
  unfold exact_posterior. cbn [replaced vars dom] in ZA, ZB.
  set (NA := replaced N [(i, A)]) in *. set (NB := replaced N [(i, B)]) in *. set (NM := replaced N [(i, mixed t A B)]) in *. clearbody NA NB NM.
  assert (H1' : 0 <= 1 - t). { unfold Qcminus. replace 0 with (t + - t) by ring. apply Qcplus_le_compat; auto. apply Qcle_refl. }
  pose proof (Qcle_0_mult _ _ H0 PA) as QA. pose proof (Qcle_0_mult _ _ H1' PB) as QB.
  destruct (Qc_eq_dec (total NM L) 0) as [Z|Z].
  - rewrite ET in Z. destruct (plus_zero_nonneg _ _ QA QB Z) as [Z1 Z2]. apply Qcmult_integral in Z1. apply Qcmult_integral in Z2.
    assert (D : t = 0 \/ t = 1 \/ (total NA L = 0 /\ total NB L = 0)). { destruct Z1 as [Z1|Z1]; auto. destruct Z2 as [Z2|Z2]; auto. right. left. replace t with (1 - (1 - t)) by ring. rewrite Z2. ring. }
    exists t. split; auto. split; auto. split; auto. intros k y Hk Hy.
    destruct D as [->|[->|[D1 D2]]].
    + destruct Z2 as [Z2|Z2]; [discriminate|]. rewrite Z2. destruct (Qc_eq_dec 0 0); [|contradiction]. ring.
    + destruct Z1 as [Z1|Z1]; [discriminate|]. rewrite Z1. destruct (Qc_eq_dec 0 0); [|contradiction]. ring.
    + rewrite D1, D2. destruct (Qc_eq_dec 0 0); [|contradiction]. ring.
  - pose proof (Qcle_0_plus _ _ QA QB) as PM. rewrite <- ET in PM. exists (t * total NA L / total NM L). split; [apply qdiv_nonneg; auto|].
    assert (EB : 1 - t * total NA L / total NM L = (1 - t) * total NB L / total NM L). { replace ((1 - t) * total NB L) with (total NM L - t * total NA L) by (rewrite ET; ring). field; auto. }
    split. { replace (t * total NA L / total NM L) with (1 - (1 - t) * total NB L / total NM L) by (rewrite <- EB; ring). pose proof (qdiv_nonneg _ _ QB PM) as G.
      revert G. generalize ((1 - t) * total NB L / total NM L). intros q G. unfold Qcminus. replace 1 with (1 + 0) at 2 by ring. apply Qcplus_le_compat; [apply Qcle_refl|]. change 0 with (- 0). apply Qcopp_le_compat; auto. }
    split. { intros E Hz. rewrite ET, <- E in *. field. replace (t * total NA L + (1 - t) * total NA L) with (total NA L) by ring. auto. }
    intros k y Hk Hy. rewrite EB, EM. specialize (ZA k y Hk Hy). specialize (ZB k y Hk Hy).
    destruct (Qc_eq_dec (total NA L) 0) as [EA|EA]; destruct (Qc_eq_dec (total NB L) 0) as [EB'|EB'].
    + exfalso. apply Z. rewrite ET, EA, EB'. ring.
    + rewrite ZA by auto. rewrite EA. field; auto.
    + rewrite ZB by auto. rewrite EB'. field; auto.
    + field; auto.
Qed.

Lemma replaced_reported ops c L j t k y : well_shaped ops -> get_posteriors j = Ok t -> exact_table (replaced (net_of ops) c) (net_name ops) L t -> In k (vars (net_of ops)) -> In y (dom (net_of ops) k) ->
  reported j (net_name ops k) y = Some (exact_posterior (replaced (net_of ops) c) L k y).
Proof.
  intros HW E [_ T] Hk Hy. unfold reported. rewrite E, (T k Hk). destruct (ws_dom _ HW k Hk) as [Hd _]. change (net_dom ops k) with (dom (net_of ops) k) in Hd.
  revert Hy Hd. change (dom (replaced (net_of ops) c) k) with (dom (net_of ops) k). generalize (dom (net_of ops) k) as l. induction l as [|z l IH]; intros Hy Hd; [destruct Hy|]. inversion Hd; subst. cbn [map dget]. destruct (eqb_spec y z) as [->|]; [reflexivity|].
  apply IH; auto. destruct Hy; [congruence|auto].
Qed.
Lemma retold_exact ops o h o' cpts h' k y : well_shaped ops -> connected ops -> ord_ok o -> ord_ok o' -> valid_history (net_of ops) h -> fitting (net_of ops) cpts -> valid_history (net_of ops) h' ->
  In k (vars (net_of ops)) -> In y (dom (net_of ops) k) ->
  retold o ops h o' cpts h' k y (exact_posterior (replaced (net_of ops) cpts) (shown (net_of ops) (calls h')) k y).
Proof.
  intros HW Hc Ho Ho' Hh HF Hh' Hk Hy. destruct (c18 ops o h o' cpts h' HW Hc Ho Ho' Hh HF Hh') as (j & j1 & j2 & t' & t2 & A1 & A2 & _ & _ & A3 & A4 & A5).
  exists j, j1, j2. repeat (split; auto). eapply replaced_reported; eauto.
Qed.

Theorem c101_between ops o h o' h' i A B t : well_shaped ops -> connected ops -> ord_ok o -> ord_ok o' -> valid_history (net_of ops) h -> valid_history (net_of ops) h' ->
  In i (vars (net_of ops)) -> fitting (net_of ops) [(i, A)] -> fitting (net_of ops) [(i, B)] -> 0 <= t -> t <= 1 ->
  exists w, 0 <= w /\ w <= 1 /\ forall k y, In k (vars (net_of ops)) -> In y (dom (net_of ops) k) ->
    exists p q, retold o ops h o' [(i, A)] h' k y p /\ retold o ops h o' [(i, B)] h' k y q /\ retold o ops h o' [(i, mixed t A B)] h' k y (w * p + (1 - w) * q).
Proof.
  intros HW Hc Ho Ho' Hh Hh' Hi FA FB H0 H1. pose proof (net_shape ops HW) as HN. pose proof (mix_fits (net_of ops) i A B FA FB t H0 H1) as FM.
  destruct (mix_posterior (net_of ops) i A B t (shown (net_of ops) (calls h')) HN Hi FA FB H0 H1) as (w & W1 & W2 & _ & W3). { intros k v Hk Hv. apply (unit_shown _ _ k v Hk Hv). }
  exists w. split; auto. split; auto. intros k y Hk Hy. specialize (W3 k y Hk Hy).
  do 2 eexists. split; [apply retold_exact; auto|]. split; [apply retold_exact; auto|]. rewrite <- W3. apply retold_exact; auto.
Qed.
Theorem c101_prior ops o h o' i A B t : well_shaped ops -> connected ops -> ord_ok o -> ord_ok o' -> valid_history (net_of ops) h -> acyclic (is_parent (net_of ops)) ->
  In i (vars (net_of ops)) -> fitting (net_of ops) [(i, A)] -> fitting (net_of ops) [(i, B)] -> stochastic (replaced (net_of ops) [(i, A)]) -> stochastic (replaced (net_of ops) [(i, B)]) -> 0 <= t -> t <= 1 ->
  forall k y, In k (vars (net_of ops)) -> In y (dom (net_of ops) k) ->
    exists p q, retold o ops h o' [(i, A)] [] k y p /\ retold o ops h o' [(i, B)] [] k y q /\ retold o ops h o' [(i, mixed t A B)] [] k y (t * p + (1 - t) * q).
Proof.
  intros HW Hc Ho Ho' Hh HA Hi FA FB SA SB H0 H1 k y Hk Hy. pose proof (net_shape ops HW) as HN. pose proof (mix_fits (net_of ops) i A B FA FB t H0 H1) as FM.
  assert (V : valid_history (net_of ops) []) by (split; constructor).
  destruct (mix_posterior (net_of ops) i A B t no_evidence HN Hi FA FB H0 H1) as (w & W1 & W2 & W & W3). { intros a v Ha Hv. apply (unit_none (net_of ops) a v Ha Hv). }
  rewrite W in W3.
  - specialize (W3 k y Hk Hy). do 2 eexists. split; [apply retold_exact; auto|]. split; [apply retold_exact; auto|]. change (shown (net_of ops) (calls [])) with no_evidence. rewrite <- W3. apply (retold_exact ops o h o' _ []); auto.
  - rewrite !total_prior; auto; apply replaced_shape; auto.
  - rewrite total_prior; auto; [discriminate|]. apply replaced_shape; auto.
Qed.
