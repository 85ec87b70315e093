(** Vertex elimination: the cliques it creates, the maximal ones among them and a junction forest on those. *)
From Verif Require Import Py Spec L_Base L_PD L_Sums L_Forest L_Table.
From Verif Require Import M_Graph M_Node M_Pptc.

Inductive elim : list Z -> (Z -> Z -> Prop) -> list (list Z) -> Prop :=
| elim_nil adj : elim [] adj []
| elim_cons V V' v N adj Ks :
    Permutation V (v :: V') -> NoDup N -> (forall x, In x N <-> In x V' /\ adj v x) ->
    elim V' (fun x y => adj x y \/ (In x N /\ In y N /\ x <> y)) Ks -> elim V adj ((N ++ [v]) :: Ks).

Definition complete (adj : Z -> Z -> Prop) (C : list Z) : Prop := forall x y, In x C -> In y C -> x <> y -> adj x y.

Lemma elim_sub V adj Ks : elim V adj Ks -> forall K, In K Ks -> incl K V /\ K <> [].
Proof.
  induction 1 as [adj|V V' v N adj Ks HP HN HNs He IH]; [intros K []|]. intros K [<-|HK].
  - split; [|destruct N; discriminate]. intros x Hx. apply (Permutation_in _ (Permutation_sym HP)). apply in_app_or in Hx. destruct Hx as [Hx|[<-|[]]].
    + right. apply HNs in Hx. tauto.
    + left; auto.
  - destruct (IH K HK) as [I1 I2]. split; auto. intros x Hx. apply (Permutation_in _ (Permutation_sym HP)). right. auto.
Qed.
Lemma elim_nd V adj Ks : elim V adj Ks -> NoDup V -> forall K, In K Ks -> NoDup K.
Proof.
  induction 1 as [adj|V V' v N adj Ks HP HN HNs He IH]; [intros _ K []|]. intros HV K HK. assert (HV' : NoDup (v :: V')) by (eapply Permutation_NoDup; eauto).
  inversion HV' as [|? ? N1 N2]; subst. destruct HK as [<-|HK]; auto. apply NoDup_app_intro; auto.
  - constructor; auto. constructor.
  - intros x Hx [<-|[]]. apply N1. apply HNs in Hx. tauto.
Qed.

Lemma elim_cover V adj Ks : elim V adj Ks -> (forall x y, adj x y -> adj y x) -> forall C, incl C V -> C <> [] -> complete adj C ->
  exists K, In K Ks /\ incl C K.
Proof.
  induction 1 as [adj|V V' v N adj Ks HP HN HNs He IH]; intros Hs C HC Hne Hcomp.
  - exfalso. destruct C as [|x C]; auto. apply (HC x); left; auto.
  - destruct (in_dec Z.eq_dec v C) as [Hv|Hv].
    + exists (N ++ [v]). split; [left; auto|]. intros x Hx. apply in_or_app. destruct (Z.eq_dec x v) as [->|Hn]; [right; left; auto|]. left. apply HNs. split.
      * destruct (Permutation_in _ HP (HC x Hx)) as [E|]; auto. congruence.
      * apply Hcomp; auto.
    + destruct (IH) with (C := C) as [K [HK HKi]]; auto.
      * intros x y [Ha|[A [B D]]]; auto.
      * intros x Hx. destruct (Permutation_in _ HP (HC x Hx)) as [E|]; auto. subst; tauto.
      * intros x y Hx Hy Hn. left. apply Hcomp; auto.
      * exists K. split; auto. right; auto.
Qed.

(** ** the cliques that are kept *)
Fixpoint keep (acc : list (list Z)) (Ks : list (list Z)) : list (list Z) :=
  match Ks with [] => acc | K :: t => keep (if existsb (fun A => subset K A) acc then acc else acc ++ [K]) t end.
Notation kept := (keep []).

Lemma keep_eq Ks : forall acc, keep acc Ks = acc ++ filter (fun K => negb (existsb (fun A => subset K A) acc)) (kept Ks).
Proof.
  induction Ks as [|K Ks IH]; intros acc; simpl. rewrite app_nil_r; auto.
  rewrite (IH [K]). rewrite IH. destruct (existsb (fun A => subset K A) acc) eqn:E.
  - simpl. rewrite E. simpl. f_equal. apply existsb_exists in E. destruct E as [A [HA HK]]. rewrite subset_spec in HK.
    clear IH. induction (kept Ks) as [|B l IHl]; auto. simpl. rewrite orb_false_r. destruct (subset B K) eqn:EB; simpl.
    + rewrite <- IHl. rewrite (proj2 (existsb_exists _ _)); auto. exists A. split; auto. rewrite subset_spec in *. eapply incl_tran; eauto.
    + rewrite <- IHl. auto.
  - rewrite <- app_assoc. simpl. rewrite E. simpl. f_equal. f_equal.
    clear IH E. induction (kept Ks) as [|B l IHl]; auto. simpl. rewrite existsb_app. simpl. rewrite orb_false_r. destruct (subset B K) eqn:EB; simpl.
    + rewrite orb_true_r. simpl. auto.
    + rewrite orb_false_r. destruct (existsb _ acc); simpl; rewrite IHl; auto.
Qed.

Lemma kept_cons K Ks : kept (K :: Ks) = K :: filter (fun B => negb (subset B K)) (kept Ks).
Proof.
  simpl. rewrite keep_eq. simpl. f_equal. apply filter_ext. intros B. rewrite orb_false_r. auto.
Qed.
Lemma kept_sub Ks : incl (kept Ks) Ks.
Proof. induction Ks as [|K Ks IH]. intros x Hx; auto. rewrite kept_cons. intros B [<-|HB]; [left; auto|]. apply filter_In in HB. right. apply IH. tauto. Qed.
Lemma kept_cover Ks K : In K Ks -> exists B, In B (kept Ks) /\ incl K B.
Proof.
  induction Ks as [|K1 Ks IH]; [intros []|]. rewrite kept_cons. intros [<-|HK].
  - exists K1. split; [left; auto|apply incl_refl].
  - destruct (IH HK) as [B [HB Hi]]. destruct (subset B K1) eqn:E.
    + exists K1. split; [left; auto|]. rewrite subset_spec in E. eapply incl_tran; eauto.
    + exists B. split; auto. right. apply filter_In. rewrite E. auto.
Qed.

Lemma elim_kept_in V V' v (N : list Z) Ks : NoDup (v :: V') -> (forall K, In K Ks -> incl K V') -> Permutation V (v :: V') -> forall K, In K (kept Ks) -> ~ In v K.
Proof. intros H1 H2 _ K HK Hv. inversion H1; subst. apply kept_sub in HK. specialize (H2 K HK v Hv). tauto. Qed.

(** no kept clique is inside another *)
Lemma kept_antichain V adj Ks : elim V adj Ks -> NoDup V ->
  NoDup (kept Ks) /\ forall A B, In A (kept Ks) -> In B (kept Ks) -> incl A B -> A = B.
Proof.
  induction 1 as [adj|V V' v N adj Ks HP HN HNs He IH]; intros HV. { split; [constructor|intros A B []]. }
  assert (HV' : NoDup (v :: V')) by (eapply Permutation_NoDup; eauto). pose proof HV' as HV2. inversion HV2 as [|? ? N1 N2]; subst.
  destruct (IH N2) as [D1 D2]. rewrite kept_cons.
  assert (Hv : forall K, In K (kept Ks) -> ~ In v K). { intros K HK Hi. apply N1. apply (elim_sub _ _ _ He K (kept_sub _ _ HK)). auto. }
  split.
  - constructor; [|apply NoDup_filter'; auto]. intros Hi. apply filter_In in Hi. apply (Hv (N ++ [v])); [tauto|]. apply in_or_app; right; left; auto.
  - intros A B [<-|HA] [<-|HB] Hi; auto.
    + exfalso. apply filter_In in HB. apply (Hv B); [tauto|]. apply Hi, in_or_app; right; left; auto.
    + exfalso. apply filter_In in HA. destruct HA as [_ HA]. apply negb_true_iff in HA. apply subset_false in HA. auto.
    + apply filter_In in HA. apply filter_In in HB. apply D2; tauto.
Qed.

(** ** the junction forest *)
Definition meet (A B : list Z) : list Z := filter (fun x => mem x B) A.
Lemma meet_In A B x : In x (meet A B) <-> In x A /\ In x B.
Proof. unfold meet. rewrite filter_In, mem_In. reflexivity. Qed.
Definition ew (e : list Z * list Z) : nat := List.length (meet (fst e) (snd e)).

Lemma same_len (A B : list Z) : NoDup A -> NoDup B -> (forall x, In x A <-> In x B) -> List.length A = List.length B.
Proof. intros H1 H2 H. apply Permutation_length, NoDup_Permutation; auto. Qed.
Lemma meet_len A B A' B' : NoDup A -> NoDup A' -> (forall x, In x A /\ In x B <-> In x A' /\ In x B') ->
  List.length (meet A B) = List.length (meet A' B').
Proof. intros H1 H2 H. apply same_len; try (apply NoDup_filter'; auto). intros x. rewrite !meet_In. auto. Qed.

Lemma conn_no_end {K} (es : list (K * K)) x y : (forall u v, In (u, v) es -> u <> x /\ v <> x) -> conn es x y -> x = y.
Proof. intros H Hc. inversion Hc as [|? z ? Hs Hp]; subst; auto. exfalso. destruct Hs as [Hs|Hs]; destruct (H _ _ Hs); congruence. Qed.

Lemma forest_map {K K'} (f : K -> K') V (es : list (K * K)) :
  (forall x y, In x V -> In y V -> f x = f y -> x = y) -> (forall u v, In (u, v) es -> In u V /\ In v V) ->
  forest es -> forest (map (fun e => (f (fst e), f (snd e))) es).
Proof.
  intros Hinj. induction es as [|[u v] es IH]; intros HV Hf; simpl; [constructor|]. apply forest_inv in Hf. destruct Hf as [Hf Hn]. constructor.
  - apply IH; auto. intros a b Hi. apply HV; right; auto.
  - intros Hc. apply Hn. destruct (HV u v) as [Hu Hv]; [left; auto|].
    destruct (conn_map_inj f V es Hinj (fun a b Hi => HV a b (or_intror Hi)) u (f v) Hc Hu) as [y [Hy [E Hc']]]. apply Hinj in E; auto. subst; auto.
Qed.

Lemma forallb_filter_id {A} (p : A -> bool) l : forallb p l = true -> filter p l = l.
Proof. induction l as [|x l IH]; simpl; auto. destruct (p x); simpl; [|discriminate]. intros H. rewrite IH; auto. Qed.
Definition lsum (l : list (list Z)) : nat := list_sum (map (@List.length Z) l).
Lemma lsum_filter_one (P : list Z) (p : list Z -> bool) l : NoDup l -> In P l -> (forall B, In B l -> p B = false <-> B = P) ->
  lsum (filter p l) + List.length P = lsum l.
Proof.
  intros HN HP Hp. induction l as [|B l IH]; [destruct HP|]. inversion HN as [|? ? N1 N2]; subst. simpl. destruct HP as [->|HP].
  - rewrite (proj2 (Hp P (or_introl eq_refl)) eq_refl). assert (E : filter p l = l).
    { apply forallb_filter_id. apply forallb_forall. intros C HC. destruct (p C) eqn:E; auto. apply Hp in E; [|right; auto]. subst; tauto. }
    rewrite E. unfold lsum. simpl. lia.
  - assert (E : p B = true). { destruct (p B) eqn:E; auto. apply Hp in E; [|left; auto]. subst; tauto. }
    rewrite E. unfold lsum in *. simpl. rewrite <- (IH N2 HP). lia. intros C HC. apply Hp; right; auto.
Qed.

Theorem junction V adj Ks : elim V adj Ks -> NoDup V -> (forall x y, adj x y -> adj y x) ->
  exists T, forest T /\ (forall a b, In (a, b) T -> In a (kept Ks) /\ In b (kept Ks) /\ meet a b <> []) /\
    lsum (kept Ks) = list_sum (map ew T) + List.length V.
Proof.
  induction 1 as [adj|V V' v N adj Ks HP HN HNs He IH]; intros HV Hs.
  { exists []. split; [constructor|]. split; [intros a b []|reflexivity]. }
  assert (HV' : NoDup (v :: V')) by (eapply Permutation_NoDup; eauto). inversion HV' as [|? ? N1 N2]; subst.
  destruct IH as [T [T1 [T2 T3]]]; auto. { intros x y [Ha|[A [B D]]]; auto. }
  destruct (kept_antichain _ _ _ He N2) as [KD KA].
  assert (Hv : forall K, In K (kept Ks) -> ~ In v K). { intros K HK Hi. apply N1. apply (elim_sub _ _ _ He K (kept_sub _ _ HK)). auto. }
  assert (Hnd : forall K, In K (kept Ks) -> NoDup K). { intros K HK. apply (elim_nd _ _ _ He N2). apply kept_sub; auto. }
  assert (Hin : forall K, In K (kept Ks) -> incl K (N ++ [v]) -> incl K N).
  { intros K HK Hi x Hx. specialize (Hi x Hx). apply in_app_or in Hi. destruct Hi as [|[<-|[]]]; auto. exfalso. apply (Hv K HK Hx). }
  assert (HlV : List.length V = S (List.length V')) by (rewrite (Permutation_length HP); auto).
  assert (HvN : ~ In v N) by (intros Hi; apply HNs in Hi; tauto).
  rewrite kept_cons. set (K1 := N ++ [v]) in *.
  assert (HK1 : NoDup K1). { apply NoDup_app_intro; auto. constructor; auto. constructor. intros x Hx [<-|[]]. auto. }
  assert (HlK : List.length K1 = S (List.length N)) by (unfold K1; rewrite app_length; simpl; lia).
  assert (Hv1 : In v K1) by (apply in_or_app; right; left; auto).
  assert (Hk1 : ~ In K1 (kept Ks)) by (intros Hi; apply (Hv K1); auto).
  assert (Keep : (forall K, In K (kept Ks) -> ~ incl K K1) -> filter (fun B => negb (subset B K1)) (kept Ks) = kept Ks).
  { intros H. apply forallb_filter_id. apply forallb_forall. intros B HB. apply negb_true_iff. apply subset_false. auto. }
  assert (HNd : N = [] \/ N <> []) by (clear; destruct N; [left|right]; auto; discriminate). destruct HNd as [EN|HNe].
  { rewrite Keep.
    - exists T. split; auto. split. { intros a b Hi. destruct (T2 a b Hi) as [A [B C]]. split; [right; auto|]. split; auto. right; auto. }
      unfold lsum in *. simpl. rewrite EN in HlK. simpl in HlK. lia.
    - intros K HK Hi. apply (Hin K HK) in Hi. apply (elim_sub _ _ _ He K (kept_sub _ _ HK)). destruct K as [|x K]; auto. rewrite EN in Hi. destruct (Hi x); left; auto. }
  destruct (elim_cover _ _ _ He) with (C := N) as [P0 [HP0 HNP0]]; auto.
  { intros x y [Ha|[A [B D]]]; auto. }
  { intros x Hx. apply HNs in Hx; tauto. }
  { intros x y Hx Hy Hn. right. auto. }
  destruct (kept_cover Ks P0 HP0) as [P [HPk HP0P]]. assert (HNP : incl N P) by (eapply incl_tran; eauto). clear P0 HP0 HNP0 HP0P.
  destruct (subset P K1) eqn:EP.
  - rewrite subset_spec in EP. apply (Hin P HPk) in EP.
    set (f := fun x : list Z => if list_eq_dec Z.eq_dec x P then K1 else x).
    assert (Hf : forall x y, In x (kept Ks) -> In y (kept Ks) -> f x = f y -> x = y).
    { intros x y Hx Hy. unfold f. destruct (list_eq_dec Z.eq_dec x P), (list_eq_dec Z.eq_dec y P); subst; auto; intros E; exfalso; subst; auto. }
    assert (Hfi : forall x, In x (kept Ks) -> In (f x) (K1 :: filter (fun B => negb (subset B K1)) (kept Ks))).
    { intros x Hx. unfold f. destruct (list_eq_dec Z.eq_dec x P) as [->|Hn]; [left; auto|]. right. apply filter_In. split; auto.
      apply negb_true_iff, subset_false. intros Hi. apply Hn. apply KA; auto. eapply incl_tran; [apply (Hin x Hx Hi)|auto]. }
    assert (Hfm : forall a b, In a (kept Ks) -> In b (kept Ks) -> a <> b -> forall x, In x (f a) /\ In x (f b) <-> In x a /\ In x b).
    { intros a b Ha Hb Hn x. unfold f. destruct (list_eq_dec Z.eq_dec a P) as [->|], (list_eq_dec Z.eq_dec b P) as [->|]; try congruence; try tauto; unfold K1; rewrite in_app_iff; simpl; split.
      - intros [[H1|[H1|[]]] H2]; auto. subst. exfalso. apply (Hv b); auto.
      - intros [H1 H2]; auto.
      - intros [H2 [H1|[H1|[]]]]; auto. subst. exfalso. apply (Hv a); auto.
      - intros [H1 H2]; auto. }
    assert (Hne : forall a b, In (a, b) T -> a <> b).
    { intros a b Hi Hq. subst. clear - T1 Hi. induction T1 as [|u w es Hf IH Hn]; [destruct Hi|]. destruct Hi as [E|Hi]; auto. inversion E; subst. apply Hn, conn_refl. }
    exists (map (fun e => (f (fst e), f (snd e))) T). split; [|split].
    + apply forest_map with (kept Ks); auto. intros a b Hi. destruct (T2 a b Hi); tauto.
    + intros a b Hi. apply in_map_iff in Hi. destruct Hi as [[a0 b0] [E Hi]]. inversion E; subst. simpl. destruct (T2 a0 b0 Hi) as [A [B C]].
      split; [apply Hfi; auto|]. split; [apply Hfi; auto|]. intros E0. destruct (meet a0 b0) as [|x l] eqn:Em; auto.
      assert (Hx : In x (meet a0 b0)) by (rewrite Em; left; auto). apply meet_In in Hx. apply Hfm in Hx; auto. apply meet_In in Hx. rewrite E0 in Hx. destruct Hx.
    + rewrite map_map.
      assert (Ew : list_sum (map (fun e => ew (f (fst e), f (snd e))) T) = list_sum (map ew T)).
      { f_equal. apply map_ext_in. intros [a b] Hi. unfold ew. simpl. destruct (T2 a b Hi) as [A [B C]]. apply meet_len.
        - unfold f. destruct (list_eq_dec Z.eq_dec a P); auto.
        - auto.
        - apply Hfm; eauto. }
      rewrite Ew. pose proof (lsum_filter_one P (fun B => negb (subset B K1)) (kept Ks) KD HPk) as HF.
      assert (EPl : List.length P = List.length N). { apply same_len; auto. intros x. split; auto. }
      unfold lsum in *. simpl. rewrite HlK. rewrite HlV. rewrite <- HF in T3. lia.
      intros B HB. rewrite negb_false_iff, subset_spec. split.
      * intros Hi. apply KA; auto. eapply incl_tran; [apply (Hin B HB Hi)|auto].
      * intros ->. unfold K1. intros x Hx. apply in_or_app; left; auto.
  - apply subset_false in EP. rewrite Keep.
    2:{ intros K HK Hi. assert (K = P). { apply KA; auto. eapply incl_tran; [apply (Hin K HK Hi)|auto]. } subst. auto. }
    exists ((K1, P) :: T). split; [|split].
    + constructor; auto. intros Hc. apply conn_no_end in Hc.
      * rewrite Hc in Hk1. auto.
      * intros a b Hi. destruct (T2 a b Hi) as [A [B C]]. split; intros ->; auto.
    + intros a b [E|Hi].
      * inversion E; subst. split; [left; auto|]. split; [right; auto|]. intros E0. destruct N as [|x N]; auto.
        assert (Hx : In x (meet K1 b)). { apply meet_In. split; [left; auto|apply HNP; left; auto]. } unfold K1 in *. simpl in *. rewrite E0 in Hx. destruct Hx.
      * destruct (T2 a b Hi) as [A [B C]]. split; [right; auto|]. split; auto. right; auto.
    + unfold lsum in *. simpl. rewrite HlK. assert (El : ew (K1, P) = List.length N).
      { unfold ew. simpl. apply same_len; auto. apply NoDup_filter'; auto. intros x. rewrite meet_In. unfold K1. rewrite in_app_iff. simpl. split; [|auto].
        intros [[H1|[H1|[]]] H2]; auto. subst. exfalso. apply (Hv P); auto. }
      rewrite El. lia.
Qed.
