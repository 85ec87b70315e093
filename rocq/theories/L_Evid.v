(** Validation, change detection and storing of evidence. *)
From Verif Require Import Py M_Node M_Pptc Spec SpecEv L_Base L_Sums L_Table L_Init.

Open Scope Qc_scope.

(** ** validate *)
Lemma fill_missing_ok d m : NoDup d -> NoDup (dkeys m) ->
  fill_missing d m = m ++ map (fun v => (v, 0)) (filter (fun v => negb (mem v (dkeys m))) d).
Proof.
  unfold fill_missing. revert m. induction d as [|v d IH]; intros m Hd Hm; simpl. rewrite app_nil_r; auto. inv Hd.
  destruct (mem_spec v (dkeys m)) as [Hv|Hv]; simpl.
  - rewrite (proj2 (dmem_In m v) Hv). apply IH; auto.
  - rewrite (proj2 (dmem_false m v) Hv). rewrite dkeys_dset_notin by auto. rewrite IH; auto.
    + rewrite <- app_assoc. simpl. do 3 f_equal. apply filter_ext_in. intros w Hw. f_equal. unfold dkeys. rewrite map_app. simpl.
      assert (Hne : w <> v) by (intros ->; tauto). unfold mem. rewrite existsb_app. simpl. destruct (String.eqb_spec w v); [congruence|]. simpl. rewrite ?orb_false_r. auto.
    + unfold dkeys. rewrite map_app. simpl. apply NoDup_app_intro; auto. constructor; [intros []|constructor]. intros x Hx [<-|[]]. auto.
Qed.
Lemma fill_missing_keys e : NoDup (ev_dom e) -> NoDup (dkeys (ev_values e)) -> dkeys (fill_missing (ev_dom e) (ev_values e)) = considered e.
Proof. intros H1 H2. rewrite fill_missing_ok by auto. unfold dkeys, considered. rewrite map_app, map_map. simpl. rewrite map_id. auto. Qed.
Lemma considered_NoDup e : NoDup (ev_dom e) -> NoDup (dkeys (ev_values e)) -> NoDup (considered e).
Proof.
  intros H1 H2. apply NoDup_app_intro; auto. apply NoDup_filter; auto. intros x Hx Hf. apply filter_In in Hf. destruct Hf as [_ Hf].
  rewrite (proj2 (mem_In _ _) Hx) in Hf. discriminate.
Qed.
Lemma considered_In e v : In v (considered e) <-> In v (dkeys (ev_values e)) \/ In v (ev_dom e).
Proof.
  unfold considered. rewrite in_app_iff, filter_In. destruct (mem_spec v (dkeys (ev_values e))); simpl; intuition discriminate.
Qed.
Lemma fill_missing_get e v : NoDup (ev_dom e) -> NoDup (dkeys (ev_values e)) -> In v (considered e) ->
  dget (fill_missing (ev_dom e) (ev_values e)) v = Some (supplied e v).
Proof.
  intros H1 H2 Hv. rewrite fill_missing_ok by auto. rewrite dget_app. unfold supplied. destruct (dget (ev_values e) v) eqn:E; auto.
  apply dget_None in E. apply In_dget.
  - unfold dkeys. rewrite map_map. simpl. rewrite map_id. apply NoDup_filter; auto.
  - apply in_map_iff. exists v. split; auto. unfold considered in Hv. apply in_app_or in Hv. tauto.
Qed.

(** overwriting the value of every element of [d] *)
Lemma upd_loop (f : list (string * Qc) -> string -> Qc) (g : string -> Qc) d : NoDup d ->
  forall m, incl d (dkeys m) -> (forall m' v, In v d -> dget m' v = dget m v -> f m' v = g v) ->
  let m' := fold_left (fun m v => dset m v (f m v)) d m in
  dkeys m' = dkeys m /\ (forall v, dget m' v = if mem v d then Some (g v) else dget m v).
Proof.
  induction d as [|w d IH]; intros Hd m Hi Hf; simpl; auto. inv Hd.
  assert (K : dkeys (dset m w (f m w)) = dkeys m) by (apply dkeys_dset_in; apply Hi; left; auto).
  destruct (IH H2 (dset m w (f m w))) as [I1 I2].
  - rewrite K. intros x Hx; apply Hi; right; auto.
  - intros m' v Hv E. apply Hf; [right; auto|]. rewrite E. apply dget_dset_neq. intros ->. auto.
  - split; [congruence|]. intros v. rewrite I2. unfold mem in *. simpl. destruct (String.eqb_spec v w) as [->|Hne]; simpl.
    + destruct (existsb (String.eqb w) d) eqn:E; auto. rewrite dget_dset_eq. f_equal. apply Hf; [left; auto|auto].
    + destruct (existsb (String.eqb v) d) eqn:E; auto. apply dget_dset_neq; auto.
Qed.

Lemma best_head f l : forall k q t, isort (fun a b : string * Qc => qleb (snd b) (snd a)) (map (fun v => (v, f v)) l) = (k, q) :: t ->
  k = best f l /\ q = f k.
Proof.
  induction l as [|x l IH]; intros k q t H; [discriminate|]. simpl in H. destruct (isort _ (map _ l)) as [|[k' q'] t'] eqn:E.
  - destruct l as [|y l']. simpl in H. inversion H; subst. auto. exfalso. apply (f_equal (@List.length _)) in E. rewrite isort_length in E. discriminate.
  - destruct (IH k' q' t' eq_refl) as [E1 E2]. subst q'. destruct l as [|y l']; [discriminate|].
    simpl in H. change (best f (x :: y :: l')) with (if qleb (f (best f (y :: l'))) (f x) then x else best f (y :: l')). rewrite <- E1.
    destruct (qleb (f k') (f x)); inversion H; subst; auto.
Qed.
Lemma best_In f l : l <> [] -> In (best f l) l.
Proof.
  induction l as [|x l IH]; [congruence|]. intros _. destruct l as [|y l']; [left; auto|].
  change (best f (x :: y :: l')) with (if qleb (f (best f (y :: l'))) (f x) then x else best f (y :: l')).
  destruct (qleb _ _); [left; auto|right; apply IH; discriminate].
Qed.
Lemma best_max f l v : In v l -> f v <= f (best f l).
Proof.
  induction l as [|x l IH]; [intros []|]. intros Hv. destruct l as [|y l'].
  - destruct Hv as [->|[]]. apply Qcle_refl.
  - change (best f (x :: y :: l')) with (if qleb (f (best f (y :: l'))) (f x) then x else best f (y :: l')).
    destruct (qleb (f (best f (y :: l'))) (f x)) eqn:E.
    + apply qleb_le in E. destruct Hv as [->|Hv]; [apply Qcle_refl|]. eapply Qcle_trans; [apply IH; exact Hv|auto].
    + apply qleb_false in E. destruct Hv as [->|Hv]; [apply Qclt_le_weak; auto|apply IH; exact Hv].
Qed.
(** earlier elements are strictly smaller *)
Lemma best_first f l : NoDup l -> forall b l1 l2, b = best f l -> l = l1 ++ b :: l2 -> forall v, In v l1 -> f v < f b.
Proof.
  induction l as [|x l IH]; intros HN b l1 l2 Eb E v Hv; [destruct l1; discriminate|]. destruct l1 as [|z l1]; [destruct Hv|].
  simpl in E. injection E as E1 E2. subst z. apply NoDup_cons_iff in HN. destruct HN as [H1 H2]. destruct l as [|y l']. { destruct l1; discriminate. }
  change (best f (x :: y :: l')) with (if qleb (f (best f (y :: l'))) (f x) then x else best f (y :: l')) in Eb.
  destruct (qleb (f (best f (y :: l'))) (f x)) eqn:Eq.
  - exfalso. apply H1. rewrite E2, Eb. apply in_or_app. right; left; auto.
  - apply qleb_false in Eq. rewrite <- Eb in Eq. destruct Hv as [Hv|Hv]; [subst; exact Eq|]. eapply (IH H2 b l1 l2); eauto.
Qed.

Lemma assoc_map_get (m : list (string * Qc)) f : NoDup (dkeys m) -> (forall v, In v (dkeys m) -> dget m v = Some (f v)) -> m = map (fun v => (v, f v)) (dkeys m).
Proof.
  intros HN H. unfold dkeys. rewrite map_map. transitivity (map (fun p => p) m); [symmetry; apply map_id|]. apply map_ext_in. intros [k q] Hk. simpl. f_equal.
  assert (E : dget m k = Some q) by (apply In_dget; auto). rewrite H in E by (unfold dkeys; apply in_map_iff; exists (k, q); auto). congruence.
Qed.

(** what validate leaves: the likelihoods [like_of e] on every value of the variable *)
Theorem validate_ok e : NoDup (ev_dom e) -> ev_dom e <> [] -> NoDup (dkeys (ev_values e)) ->
  exists m, validate e = Ok (mkEv (ev_node e) (ev_dom e) (ev_type e) m) /\ dkeys m = considered e /\
    (forall v, In v (ev_dom e) -> dget m v = Some (match ev_type e with
       | FINDING => if qeqb 0 (qsum (map (fun w => if mem w (ev_dom e) then zero_or_one (supplied e w) else supplied e w) (considered e))) then 1 else zero_or_one (supplied e v)
       | _ => like_of e v end)) /\
    (forall v, ~ In v (ev_dom e) -> dget m v = dget (ev_values e) v).
Proof.
  intros Hd Hne Hk. pose proof (fill_missing_keys e Hd Hk) as K. pose proof (fun v => fill_missing_get e v Hd Hk) as G.
  assert (Hi : incl (ev_dom e) (dkeys (fill_missing (ev_dom e) (ev_values e)))). { rewrite K. intros v Hv. apply considered_In; auto. }
  assert (Ho : forall v, ~ In v (ev_dom e) -> dget (fill_missing (ev_dom e) (ev_values e)) v = dget (ev_values e) v).
  { intros v Hv. rewrite fill_missing_ok by auto. rewrite dget_app. destruct (dget (ev_values e) v); auto. apply dget_None. unfold dkeys. rewrite map_map. simpl. rewrite map_id. rewrite filter_In. tauto. }
  assert (Fin : forall m g, dkeys m = considered e -> (forall v, dget m v = if mem v (ev_dom e) then Some (g v) else dget (fill_missing (ev_dom e) (ev_values e)) v) ->
     (forall v, In v (ev_dom e) -> dget m v = Some (g v)) /\ (forall v, ~ In v (ev_dom e) -> dget m v = dget (ev_values e) v)).
  { intros m g _ H. split; intros v Hv; rewrite H. rewrite (proj2 (mem_In _ _) Hv); auto. rewrite (proj2 (mem_false _ _) Hv). apply Ho; auto. }
  unfold validate. set (m0 := fill_missing (ev_dom e) (ev_values e)) in *. destruct (ev_type e) eqn:Et.
  - destruct (upd_loop (fun m v => clamp01 (evget m v)) (fun v => clamp01 (supplied e v)) (ev_dom e) Hd m0 Hi) as [U1 U2].
    { intros m' v Hv E. unfold evget. rewrite E, G; auto. apply considered_In; auto. }
    eexists. split; [reflexivity|]. split; [congruence|].
    destruct (Fin _ (fun v => clamp01 (supplied e v)) ltac:(rewrite U1; exact K) U2) as [F1 F2]. split; auto.
    intros v Hv. rewrite F1 by auto. f_equal. unfold clamp01, like_of. rewrite Et.
    destruct (qltb (supplied e v) 0) eqn:E1.
    + apply qltb_lt in E1. destruct (qleb 0 (supplied e v)) eqn:E2; [|simpl; rewrite ?E1; auto]. apply qleb_le in E2. exfalso. eapply Qclt_not_le; eauto.
    + apply qltb_false in E1. rewrite (proj2 (qleb_le 0 _) E1). simpl. destruct (qltb 1 (supplied e v)) eqn:E3.
      * apply qltb_lt in E3. destruct (qleb (supplied e v) 1) eqn:E4; auto. apply qleb_le in E4. exfalso. eapply Qclt_not_le; eauto.
      * apply qltb_false in E3. rewrite (proj2 (qleb_le _ 1) E3). auto.
  - destruct (upd_loop (fun m v => zero_or_one (evget m v)) (fun v => zero_or_one (supplied e v)) (ev_dom e) Hd m0 Hi) as [U1 U2].
    { intros m' v Hv E. unfold evget. rewrite E, G; auto. apply considered_In; auto. }
    set (m1 := fold_left (fun m v => dset m v (zero_or_one (evget m v))) (ev_dom e) m0) in *.
    assert (Es : dvals m1 = map (fun w => if mem w (ev_dom e) then zero_or_one (supplied e w) else supplied e w) (considered e)).
    { unfold dvals. rewrite (assoc_map_get m1 (fun w => if mem w (ev_dom e) then zero_or_one (supplied e w) else supplied e w)).
      - rewrite map_map. simpl. rewrite U1, K. auto.
      - rewrite U1, K. apply considered_NoDup; auto.
      - intros v Hv. rewrite U1, K in Hv. rewrite U2. destruct (mem v (ev_dom e)); auto. }
    rewrite Es. set (sm := qsum _). destruct (qeqb 0 sm) eqn:E0.
    + destruct (upd_loop (fun _ _ => 1) (fun _ => 1) (ev_dom e) Hd m1) as [V1 V2]. { rewrite U1; auto. } { auto. }
      eexists. split; [reflexivity|]. split; [congruence|].
      destruct (Fin _ (fun _ => 1) ltac:(rewrite V1, U1; exact K) ltac:(intros v; rewrite V2, U2; destruct (mem v (ev_dom e)); auto)) as [F1 F2]. split; auto.
    + eexists. split; [reflexivity|]. split; [congruence|].
      destruct (Fin _ (fun v => zero_or_one (supplied e v)) ltac:(rewrite U1; exact K) U2) as [F1 F2]. split; auto.
  - assert (Em : m0 = map (fun v => (v, supplied e v)) (considered e)).
    { rewrite <- K. apply assoc_map_get. rewrite K. apply considered_NoDup; auto. intros v Hv. rewrite K in Hv. apply G; auto. }
    destruct (isort (fun a b : string * Qc => qleb (snd b) (snd a)) m0) as [|[key q] t] eqn:E.
    { exfalso. apply (f_equal (@List.length _)) in E. rewrite isort_length in E. destruct (ev_dom e) as [|v0 d0]; [congruence|]. assert (Hv : In v0 (dkeys m0)) by (apply Hi; left; auto). unfold dkeys in Hv. destruct m0; [destruct Hv|discriminate]. }
    pose proof E as E'. rewrite Em in E'. apply best_head in E'. destruct E' as [E1 _].
    destruct (upd_loop (fun _ v => if eqb key v then 1 else 0) (fun v => if eqb key v then 1 else 0) (ev_dom e) Hd m0 Hi) as [U1 U2]. { auto. }
    eexists. split; [reflexivity|]. split; [congruence|].
    destruct (Fin _ (fun v => if eqb key v then 1 else 0) ltac:(rewrite U1; exact K) U2) as [F1 F2]. split; auto.
    intros v Hv. rewrite F1 by auto. f_equal. unfold like_of. rewrite Et, <- E1. rewrite eqb_sym. auto.
  - destruct (upd_loop (fun _ _ => 1) (fun _ => 1) (ev_dom e) Hd m0 Hi) as [U1 U2]. { auto. }
    eexists. split; [reflexivity|]. split; [congruence|].
    destruct (Fin _ (fun _ => 1) ltac:(rewrite U1; exact K) U2) as [F1 F2]. split; auto. intros v Hv. rewrite F1 by auto. unfold like_of. rewrite Et. auto.
Qed.

(** evidence that mentions only values of its variable *)
Lemma validate_known N e : (forall i, In i (vars N) -> NoDup (dom N i) /\ dom N i <> []) -> known N e ->
  exists m, validate e = Ok (mkEv (ev_node e) (ev_dom e) (ev_type e) m) /\ NoDup (dkeys m) /\
    (forall v, In v (dkeys m) <-> In v (dom N (ev_node e))) /\ (forall v, In v (dom N (ev_node e)) -> dget m v = Some (like_of e v)).
Proof.
  intros HD [H1 [H2 [H3 H4]]]. destruct (HD _ H1) as [D1 D2]. rewrite <- H2 in *.
  destruct (validate_ok e D1 D2 H3) as [m [E1 [E2 [E3 E4]]]]. exists m. split; auto.
  split; [rewrite E2; apply considered_NoDup; auto|]. split.
  - intros v. rewrite E2, considered_In. split; [intros [Hv|Hv]; auto|auto].
  - intros v Hv. rewrite E3 by auto. f_equal. destruct (ev_type e) eqn:Et; auto. unfold like_of. rewrite Et.
    assert (P : Permutation (considered e) (ev_dom e)). { apply NoDup_Permutation; auto using considered_NoDup. intros w. rewrite considered_In. split; [intros [Hw|Hw]; auto|auto]. }
    assert (Es : qsum (map (fun w => if mem w (ev_dom e) then zero_or_one (supplied e w) else supplied e w) (considered e)) = qsum (map (fun w => zero_or_one (supplied e w)) (ev_dom e))).
    { rewrite (qsum_perm _ _ (Permutation_map _ P)). apply qsum_map_ext. intros w Hw. rewrite (proj2 (mem_In _ _) Hw). auto. }
    clear E3. rewrite Es. destruct (existsb (fun w => qltb 0 (supplied e w)) (ev_dom e)) eqn:Ex.
    + apply existsb_exists in Ex. destruct Ex as [w [Hw Ew]]. destruct (qeqb 0 _) eqn:E0; [|reflexivity]. exfalso. rewrite ?Es in E0. apply qeqb_true in E0. symmetry in E0.
      assert (Hz : zero_or_one (supplied e w) = 0). { eapply qsum_zero_nonneg; [|exact E0|]. intros x Hx. apply in_map_iff in Hx. destruct Hx as [z [<- _]]. unfold zero_or_one. destruct (qltb 0 (supplied e z)); unfold Qcle, Qle, Z.le; simpl; discriminate. apply in_map_iff. exists w; auto. }
      unfold zero_or_one in Hz. rewrite Ew in Hz. discriminate.
    + rewrite (qsum_map_zero (fun w => zero_or_one (supplied e w))). reflexivity. intros w Hw. unfold zero_or_one. destruct (qltb 0 (supplied e w)) eqn:Ew; auto.
      exfalso. assert (existsb (fun w => qltb 0 (supplied e w)) (ev_dom e) = true) by (apply existsb_exists; exists w; auto). congruence.
Qed.

Lemma like_range e v : 0 <= like_of e v /\ like_of e v <= 1.
Proof.
  unfold like_of. assert (A1 : 0 <= 0) by (apply Qcle_refl). assert (A2 : 0 <= 1) by (unfold Qcle, Qle, Z.le; simpl; discriminate). assert (A3 : 1 <= 1) by (apply Qcle_refl).
  destruct (ev_type e).
  - destruct (qltb (supplied e v) 0) eqn:E; [auto|]. apply qltb_false in E. destruct (qltb 1 (supplied e v)) eqn:E'; [auto|]. apply qltb_false in E'. auto.
  - destruct (existsb _ _); [|auto]. destruct (qltb 0 (supplied e v)); auto.
  - destruct (String.eqb _ _); auto.
  - auto.
Qed.
Lemma like_hard e v : hard e -> like_of e v = 0 \/ like_of e v = 1.
Proof.
  unfold hard, like_of. destruct (ev_type e); intros H; try congruence; auto.
  - destruct (existsb _ _); auto. destruct (qltb _ _); auto.
  - destruct (String.eqb _ _); auto.
Qed.

(** ** comparing *)
Lemma convert_evmap i d L : convert (evmap i d L) = Ok (map (fun v => (v, L i v)) d).
Proof.
  unfold convert, evmap. induction d as [|v d IH]; simpl; auto. rewrite IH. auto.
Qed.

(** a map that holds [f] on the values [d] *)
Definition holds (d : list string) (f : string -> Qc) (m : list (string * Qc)) : Prop :=
  NoDup (dkeys m) /\ (forall v, In v (dkeys m) <-> In v d) /\ (forall v, In v d -> dget m v = Some (f v)).
Lemma holds_map d f : NoDup d -> holds d f (map (fun v => (v, f v)) d).
Proof.
  intros H. assert (K : dkeys (map (fun v => (v, f v)) d) = d) by (unfold dkeys; rewrite map_map; simpl; apply map_id).
  split; [rewrite K; auto|]. split; [rewrite K; tauto|]. intros v Hv. apply In_dget. rewrite K; auto. apply in_map_iff. exists v; auto.
Qed.
Lemma holds_perm d f m : NoDup d -> holds d f m -> Permutation m (map (fun v => (v, f v)) d).
Proof.
  intros Hd [H1 [H2 H3]]. rewrite (assoc_map_get m f); auto. apply Permutation_map. apply NoDup_Permutation; auto. intros v Hv. apply H3, H2; auto.
Qed.

Lemma q_of_nat_S n : q_of_nat (S n) = 1 + q_of_nat n.
Proof.
  unfold q_of_nat. apply Qc_is_canon. unfold Qcplus, Q2Qc, this. rewrite !Qred_correct, Nat2Z.inj_succ. unfold Z.succ. rewrite inject_Z_plus, Qplus_comm. reflexivity.
Qed.
Lemma sum_le_count (f : string -> Qc) d : (forall v, In v d -> f v <= 1) -> qsum (map f d) <= q_of_nat (List.length d) /\
  (qsum (map f d) = q_of_nat (List.length d) -> forall v, In v d -> f v = 1).
Proof.
  induction d as [|x d IH]; intros H. { simpl. split; [discriminate|intros _ v []]. }
  destruct IH as [I1 I2]. { intros; apply H; right; auto. }
  cbn [map]. rewrite qsum_cons. cbn [List.length]. rewrite q_of_nat_S. assert (Hx : f x <= 1) by (apply H; left; auto). split.
  - apply Qcplus_le_compat; auto.
  - intros E. assert (Ex : f x = 1 /\ qsum (map f d) = q_of_nat (List.length d)).
    { assert (Ez : (1 - f x) + (q_of_nat (List.length d) - qsum (map f d)) = 0). { replace (1 - f x + (q_of_nat (List.length d) - qsum (map f d))) with (1 + q_of_nat (List.length d) - (f x + qsum (map f d))) by ring. rewrite E. ring. }
      apply plus_zero_nonneg in Ez; [|apply Qcle_minus_iff in Hx; auto|apply Qcle_minus_iff in I1; auto]. destruct Ez as [Z1 Z2]. split.
      - apply (f_equal (fun z => 1 - z)) in Z1. replace (1 - (1 - f x)) with (f x) in Z1 by ring. rewrite Z1. ring.
      - apply (f_equal (fun z => q_of_nat (List.length d) - z)) in Z2. replace (q_of_nat (List.length d) - (q_of_nat (List.length d) - qsum (map f d))) with (qsum (map f d)) in Z2 by ring. rewrite Z2. ring. }
    destruct Ex as [E1 E2]. intros v [<-|Hv]; auto.
Qed.

Lemma unobserved_holds d f m : NoDup d -> (forall v, In v d -> f v <= 1) -> holds d f m -> (is_unobserved m = true <-> forall v, In v d -> f v = 1).
Proof.
  intros Hd Hf H. apply holds_perm in H; auto. unfold is_unobserved. rewrite qeqb_true. unfold dvals.
  rewrite (qsum_perm _ _ (Permutation_map snd H)), map_map. simpl. rewrite (Permutation_length H), map_length.
  split; [apply sum_le_count; auto|]. intros E. clear - E. induction d as [|x d IH]; auto. cbn [map List.length]. rewrite qsum_cons, q_of_nat_S, IH, E; auto. left; auto. intros; apply E; right; auto.
Qed.

Lemma filter_perm_len {A} (p : A -> bool) l l' : Permutation l l' -> Permutation (filter p l) (filter p l').
Proof. induction 1 as [|x l l' P IH|x y l|l l' l'' P1 IH1 P2 IH2]; simpl; auto. destruct (p x); auto. destruct (p x), (p y); auto. constructor. eapply Permutation_trans; eauto. Qed.
Lemma filter_len {A} (p : A -> bool) l : (List.length (filter p l) + List.length (filter (fun x => negb (p x)) l) = List.length l)%nat.
Proof. induction l as [|x l IH]; simpl; auto. destruct (p x); simpl; lia. Qed.

Definition ones (f : string -> Qc) (d : list string) : list string := filter (fun v => qeqb 1 (f v)) d.
Lemma ones_In f d v : In v (ones f d) <-> In v d /\ f v = 1.
Proof. unfold ones. rewrite filter_In, qeqb_true. intuition. Qed.
Lemma observed_holds d f m : NoDup d -> holds d f m -> (is_observed m = true <-> exists y, ones f d = [y]) /\
  forall y, ones f d = [y] -> observed_value m = Ok y.
Proof.
  intros Hd H. apply holds_perm in H; auto.
  assert (Q : Permutation (filter (fun p => qeqb 1 (snd p)) m) (map (fun v => (v, f v)) (ones f d))).
  { rewrite (filter_perm_len _ _ _ H). unfold ones. clear. induction d as [|x d IH]; simpl; auto. destruct (qeqb 1 (f x)); simpl; auto. }
  split.
  - unfold is_observed. pose proof (filter_len (fun p => qeqb 1 (snd p)) m) as Hl. pose proof (Permutation_length Q) as HQ. rewrite map_length in HQ.
    rewrite andb_true_iff, !Nat.eqb_eq. split.
    + intros [E1 E2]. rewrite HQ in E1. destruct (ones f d) as [|y [|z l]]; simpl in E1; try discriminate. eauto.
    + intros [y E]. rewrite E in HQ. simpl in HQ. split; [congruence|lia].
  - intros y E. rewrite E in Q. simpl in Q. unfold observed_value. apply Permutation_sym, Permutation_length_1_inv in Q. rewrite Q. auto.
Qed.

Lemma only_one_ones N f i y : NoDup (dom N i) -> (only_one N f i y <-> ones f (dom N i) = [y]).
Proof.
  intros Hd. assert (HN : NoDup (ones f (dom N i))) by (apply NoDup_filter; auto). split.
  - intros [H1 [H2 H3]]. assert (P : Permutation (ones f (dom N i)) [y]).
    { apply NoDup_Permutation; auto. constructor; [intros []|constructor]. intros v. rewrite ones_In. simpl. split; [intros [A B]; left; symmetry; auto|intros [<-|[]]; auto]. }
    apply Permutation_sym, Permutation_length_1_inv in P. auto.
  - intros E. assert (Hy : In y (ones f (dom N i))) by (rewrite E; left; auto). apply ones_In in Hy. destruct Hy as [A B]. split; auto. split; auto.
    intros v Hv Ev. assert (Hv' : In v (ones f (dom N i))) by (apply ones_In; auto). rewrite E in Hv'. destruct Hv' as [<-|[]]; auto.
Qed.

(** comparing stored likelihoods [f] with new ones [g] *)
Lemma compare_ok (e : evidence) i d (L : likelihood) g : NoDup d -> (forall v, In v d -> L i v <= 1) -> (forall v, In v d -> g v <= 1) ->
  holds d g (ev_values e) ->
  exists c, compare_ev e (evmap i d L) = Ok c /\ (c = CRetraction \/ c = CNone) /\
    (c = CNone -> (forall v, In v d -> L i v = g v) \/ exists y, ones (L i) d = [y] /\ ones g d = [y]).
Proof.
  intros Hd HL Hg Hh. unfold compare_ev. rewrite convert_evmap. cbn [rbind].
  pose proof (holds_map d (L i) Hd) as Ht.
  destruct (is_unobserved (map (fun v => (v, L i v)) d) && is_unobserved (ev_values e)) eqn:E1.
  - apply andb_true_iff in E1. destruct E1 as [A B]. rewrite (unobserved_holds d (L i)) in A by auto. rewrite (unobserved_holds d g) in B by auto.
    exists CNone. split; auto. split; auto. intros _. left. intros v Hv. rewrite A, B; auto.
  - destruct (is_observed (map (fun v => (v, L i v)) d) && is_observed (ev_values e)) eqn:E2.
    + apply andb_true_iff in E2. destruct E2 as [A B]. destruct (observed_holds d (L i) _ Hd Ht) as [A1 A2]. destruct (observed_holds d g _ Hd Hh) as [B1 B2].
      apply A1 in A. apply B1 in B. destruct A as [y Ey]. destruct B as [z Ez]. rewrite (A2 y Ey), (B2 z Ez). cbn [rbind].
      destruct (eqb_spec y z) as [->|Hn]; [|eauto]. exists CNone. split; auto. split; auto. intros _. right. eauto.
      exists CRetraction. split; auto. split; auto. discriminate.
    + exists CRetraction. split; auto. split; auto. discriminate.
Qed.

(** ** storing *)
Lemma dset_evmap i d L k q : NoDup d -> In k d ->
  dset (evmap i d L) k [mkPE [(i, k)] q] = evmap i d (fun j v => if Z.eqb j i then (if String.eqb v k then q else L j v) else L j v).
Proof.
  unfold evmap. induction d as [|v d IH]; intros Hd Hk; [destruct Hk|]. inv Hd. cbn [map dset]. destruct (eqb_spec k v) as [->|Hn].
  - rewrite Z.eqb_refl, String.eqb_refl. f_equal. apply map_ext_in. intros w Hw. rewrite ?Z.eqb_refl. destruct (String.eqb_spec w v); [subst; tauto|auto].
  - rewrite Z.eqb_refl. destruct (String.eqb_spec v k); [congruence|]. f_equal. rewrite IH; [|auto|destruct Hk; [congruence|auto]]. apply map_ext. intros w. rewrite ?Z.eqb_refl. reflexivity.
Qed.
Lemma evmap_ext i d L L' : (forall v, In v d -> L i v = L' i v) -> evmap i d L = evmap i d L'.
Proof. intros H. unfold evmap. apply map_ext_in. intros v Hv. rewrite H; auto. Qed.
Lemma dget_evmap i d L k : In k d -> NoDup d -> dget (evmap i d L) k = Some [mkPE [(i, k)] (L i k)].
Proof.
  intros Hk Hd. apply In_dget. unfold evmap, dkeys. rewrite map_map. simpl. rewrite map_id; auto. unfold evmap. apply in_map_iff. exists k; auto.
Qed.
Lemma store_values_ok i d : NoDup d -> forall vs L, NoDup (dkeys vs) -> incl (dkeys vs) d ->
  store_values (evmap i d L) vs = (evmap i d (fun j v => if Z.eqb j i then match dget vs v with Some q => q | None => L j v end else L j v), None).
Proof.
  intros Hd. induction vs as [|[k q] vs IH]; intros L HN Hi; simpl.
  - f_equal. apply evmap_ext. intros v _. rewrite Z.eqb_refl. auto.
  - inv HN. assert (Hk : In k d) by (apply Hi; left; auto). rewrite dget_evmap by auto. cbn [pe_map]. rewrite dset_evmap by auto.
    rewrite IH; auto. 2:{ intros x Hx; apply Hi; right; auto. }
    f_equal. apply evmap_ext. intros v Hv. rewrite !Z.eqb_refl. destruct (String.eqb_spec v k) as [->|Hn]; auto.
    destruct (dget vs k) eqn:E; auto. exfalso. apply H1. eapply dget_Some_key; eauto.
Qed.
