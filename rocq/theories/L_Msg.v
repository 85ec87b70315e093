(** One propagation is a sequence of messages in an order that suits the tree. *)
From Verif Require Import Py M_Graph M_Node M_Pptc Spec SpecNet SpecEv SpecMsg L_Base L_PD L_Sums L_Table L_Tree L_Walk L_Forest L_Root L_Good L_Prop L_Exact L_Shape L_Net L_P1.
Open Scope nat_scope.

Lemma rbind_assoc {A B C} (r : res A) (f : A -> res B) (g : B -> res C) : (y <- (x <- r ;; f x) ;; g y) = (x <- r ;; y <- f x ;; g y).
Proof. destruct r; auto. Qed.
Lemma rbind_ext {A B} (r : res A) (f g : A -> res B) : (forall x, f x = g x) -> (x <- r ;; f x) = (x <- r ;; g x).
Proof. destruct r; simpl; auto. Qed.

Section Walks.
  Context (o : Ord) (j : jtree).
  Notation h := (jt_heap j).
  Notation krt := L_Walk.krt.

  Lemma collect_folds (W : pstate -> clique -> sepset -> clique -> res pstate) y kids :
    (forall s t, In (s, t) kids -> forall m, NoDup (cids t) -> In (cl_id y) m -> In (cl_id (root t)) m ->
        (forall i, In i (cids t) -> i <> cl_id (root t) -> ~ In i m) ->
        exists m', (forall ps, W (ps, m) y s (root t) = (ps' <- collectT h ps y s t ;; Ok (ps', m'))) /\ (forall i, In i m' -> In i m \/ In i (cids t)) /\ incl m m') ->
    forall l m1, incl l kids -> NoDup (cidsL l) -> In (cl_id y) m1 -> incl (roots l) m1 ->
      (forall i, In i (cidsL l) -> ~ In i (roots l) -> ~ In i m1) ->
      exists m2, (forall ps, foldM (fun st p => W st y (fst p) (snd p)) (map krt l) (ps, m1) = (ps1 <- collectL h y l ps ;; Ok (ps1, m2))) /\
        (forall i, In i m2 -> In i m1 \/ In i (cidsL l)) /\ incl m1 m2.
  Proof.
    intros IH. induction l as [|[s t] l IHl]; intros m1 Hincl HN Hy Hr Hm1.
    - exists m1. split; [reflexivity|]. split; auto using incl_refl.
    - rewrite cidsL_cons in HN, Hm1. apply NoDup_app_iff in HN. destruct HN as [N1 [N2 N3]].
      assert (Hin : In (s, t) kids) by (apply Hincl; left; auto).
      destruct (IH s t Hin m1) as [m' [A1 [A2 A3]]]; auto.
      { apply Hr. left; auto. }
      { intros i Hi Hne. apply Hm1. apply in_or_app; auto. simpl. intros [Hc|Hc]; [congruence|]. apply roots_in in Hc. apply (N3 i); auto. }
      destruct (IHl m') as [m2 [B1 [B2 B3]]]; auto.
      { intros p Hp; apply Hincl; right; auto. }
      { intros i Hi. apply A3, Hr. right; auto. }
      { intros i Hi Hri Hc. destruct (A2 i Hc) as [Hc'|Hc'].
        - revert Hc'. apply Hm1. apply in_or_app; auto. simpl. intros [Hc''|Hc'']; auto. apply (N3 i); auto. rewrite <- Hc''. apply cids_root.
        - apply (N3 i); auto. }
      exists m2. split; [|split].
      + intros ps. unfold collectL in *. cbn [map foldM L_Walk.krt fst snd]. rewrite A1. destruct (collectT h ps y s t) as [ps'|e]; auto. cbn [rbind]. apply B1.
      + intros i Hi. rewrite cidsL_cons, in_app_iff. destruct (B2 i Hi) as [Hi'|Hi']; auto. destruct (A2 i Hi'); auto.
      + eapply incl_tran; eauto.
  Qed.

  Lemma collect_walks t : forall fuel m x s, wT o j [cl_id x] t -> NoDup (cids t) ->
    List.length (cliques_of t) <= fuel ->
    In (cl_id x) m -> In (cl_id (root t)) m -> (forall i, In i (cids t) -> i <> cl_id (root t) -> ~ In i m) ->
    exists m', (forall ps, collect_walk o j fuel (ps, m) x s (root t) = (ps' <- collectT h ps x s t ;; Ok (ps', m'))) /\ (forall i, In i m' -> In i m \/ In i (cids t)) /\ incl m m'.
  Proof.
    induction t as [y kids IH] using rt_ind'. intros fuel m x s Hw HN Hf Hx Hr Hm.
    destruct fuel as [|fuel]. { simpl in Hf; lia. }
    apply wT_inv in Hw. destruct Hw as [nb [E1 [E2 Hk]]]. rewrite cids_eq in *. inversion HN as [|? ? HN1 HN2]; subst.
    simpl root in *. cbn [collect_walk]. rewrite E1. cbn [rbind fst snd].
    destruct (mark_new_spec _ _ _ m E2) as [m1 [F1 F2]].
    { intros i [<-|[]]; auto. }
    { intros i Hi. apply roots_in in Hi. apply Hm; simpl; auto. intros ->. auto. }
    { apply roots_NoDup; auto. }
    rewrite F1.
    destruct (collect_folds (collect_walk o j fuel) y kids) with (l := kids) (m1 := m1) as [m2 [A1 [A2 A3]]]; auto using incl_refl.
    { intros s' t' Hin m' H1 H2 H3 H4. eapply IH; eauto. pose proof (length_kid s' t' kids Hin). simpl in Hf. lia. }
    { apply F2; auto. }
    { intros i Hi. apply F2; auto. }
    { intros i Hi Hri Hc. apply F2 in Hc. destruct Hc as [Hc|Hc]; auto. revert Hc. apply Hm; simpl; auto. intros ->; auto. }
    exists m2. split.
    { intros ps. rewrite A1. rewrite (collectT_eq h ps x s y kids). destruct (collectL h y kids ps); auto. }
    split.
    + intros i Hi. destruct (A2 i Hi) as [Hi'|Hi']; [|simpl; auto]. apply F2 in Hi'. destruct Hi' as [Hi'|Hi']; auto. right. right. apply roots_in; auto.
    + intros i Hi. apply A3, F2; auto.
  Qed.

  Lemma collects x kids : wT o j [] (RN x kids) -> NoDup (cids (RN x kids)) ->
    List.length (cliques_of (RN x kids)) <= walk_fuel j ->
    exists m', forall ps, collect o j (ps, []) x = (ps' <- collectL h x kids ps ;; Ok (ps', m')).
  Proof.
    intros Hw HN Hf. apply wT_inv in Hw. destruct Hw as [nb [E1 [E2 Hk]]]. rewrite cids_eq in *. inversion HN as [|? ? HN1 HN2]; subst.
    rewrite filter_all in E2 by auto. subst nb. unfold collect. rewrite E1. simpl.
    destruct (collect_folds (collect_walk o j (walk_fuel j)) x kids) with (l := kids) (m1 := mark_all [cl_id x] (map krt kids)) as [m2 [A1 _]]; auto using incl_refl.
    - intros s' t' Hin m' H1 H2 H3 H4. eapply collect_walks; eauto. pose proof (length_kid s' t' kids Hin). simpl in Hf. lia.
    - apply mark_all_In; left; left; auto.
    - intros i Hi. apply mark_all_In. right. rewrite roots_krt. auto.
    - intros i Hi Hr Hc. apply mark_all_In in Hc. rewrite roots_krt in Hc. destruct Hc as [[<-|[]]|Hc]; auto.
    - eauto.
  Qed.

  Lemma dist_folds (W : pstate -> clique -> res pstate) y kids :
    (forall s t, In (s, t) kids -> forall m, NoDup (cids t) -> In (cl_id y) m -> In (cl_id (root t)) m ->
        (forall i, In i (cids t) -> i <> cl_id (root t) -> ~ In i m) ->
        exists m', (forall ps, W (ps, m) (root t) = (ps' <- distT h ps t ;; Ok (ps', m'))) /\ (forall i, In i m' -> In i m \/ In i (cids t)) /\ incl m m') ->
    forall l m1, incl l kids -> NoDup (cidsL l) -> In (cl_id y) m1 -> incl (roots l) m1 ->
      (forall i, In i (cidsL l) -> ~ In i (roots l) -> ~ In i m1) ->
      exists m2, (forall ps, foldM (fun st p => ps <- pass_message h (fst st) y (fst p) (snd p) ;; W (ps, snd st) (snd p)) (map krt l) (ps, m1) = (ps1 <- distL h y l ps ;; Ok (ps1, m2))) /\
        (forall i, In i m2 -> In i m1 \/ In i (cidsL l)) /\ incl m1 m2.
  Proof.
    intros IH. induction l as [|[s t] l IHl]; intros m1 Hincl HN Hy Hr Hm1.
    - exists m1. split; [reflexivity|]. split; auto using incl_refl.
    - rewrite cidsL_cons in HN, Hm1. apply NoDup_app_iff in HN. destruct HN as [N1 [N2 N3]].
      assert (Hin : In (s, t) kids) by (apply Hincl; left; auto).
      destruct (IH s t Hin m1) as [m' [A1 [A2 A3]]]; auto.
      { apply Hr. left; auto. }
      { intros i Hi Hne. apply Hm1. apply in_or_app; auto. simpl. intros [Hc|Hc]; [congruence|]. apply roots_in in Hc. apply (N3 i); auto. }
      destruct (IHl m') as [m2 [B1 [B2 B3]]]; auto.
      { intros p Hp; apply Hincl; right; auto. }
      { intros i Hi. apply A3, Hr. right; auto. }
      { intros i Hi Hri Hc. destruct (A2 i Hc) as [Hc'|Hc'].
        - revert Hc'. apply Hm1. apply in_or_app; auto. simpl. intros [Hc''|Hc'']; auto. apply (N3 i); auto. rewrite <- Hc''. apply cids_root.
        - apply (N3 i); auto. }
      exists m2. split; [|split].
      + intros ps. unfold distL in *. cbn [map foldM L_Walk.krt fst snd]. destruct (pass_message h ps y s (root t)) as [ps0|e]; auto. cbn [rbind].
        rewrite A1. destruct (distT h ps0 t) as [ps'|e]; auto. cbn [rbind]. apply B1.
      + intros i Hi. rewrite cidsL_cons, in_app_iff. destruct (B2 i Hi) as [Hi'|Hi']; auto. destruct (A2 i Hi'); auto.
      + eapply incl_tran; eauto.
  Qed.

  Lemma dist_walks t : forall fuel m x, wT o j [x] t -> NoDup (cids t) ->
    List.length (cliques_of t) <= fuel ->
    In x m -> In (cl_id (root t)) m -> (forall i, In i (cids t) -> i <> cl_id (root t) -> ~ In i m) ->
    exists m', (forall ps, distribute_walk o j fuel (ps, m) (root t) = (ps' <- distT h ps t ;; Ok (ps', m'))) /\ (forall i, In i m' -> In i m \/ In i (cids t)) /\ incl m m'.
  Proof.
    induction t as [y kids IH] using rt_ind'. intros fuel m x Hw HN Hf Hx Hr Hm.
    destruct fuel as [|fuel]. { simpl in Hf; lia. }
    apply wT_inv in Hw. destruct Hw as [nb [E1 [E2 Hk]]]. rewrite cids_eq in *. inversion HN as [|? ? HN1 HN2]; subst.
    simpl root in *. cbn [distribute_walk]. rewrite E1. cbn [rbind fst snd].
    destruct (mark_new_spec _ _ _ m E2) as [m1 [F1 F2]].
    { intros i [<-|[]]; auto. }
    { intros i Hi. apply roots_in in Hi. apply Hm; simpl; auto. intros ->. auto. }
    { apply roots_NoDup; auto. }
    rewrite F1.
    destruct (dist_folds (distribute_walk o j fuel) y kids) with (l := kids) (m1 := m1) as [m2 [A1 [A2 A3]]]; auto using incl_refl.
    { intros s' t' Hin m' H1 H2 H3 H4. eapply IH; eauto. pose proof (length_kid s' t' kids Hin). simpl in Hf. lia. }
    { apply F2; auto. }
    { intros i Hi. apply F2; auto. }
    { intros i Hi Hri Hc. apply F2 in Hc. destruct Hc as [Hc|Hc]; auto. revert Hc. apply Hm; simpl; auto. intros ->; auto. }
    exists m2. split.
    { intros ps. rewrite A1. rewrite (distT_eq h ps y kids). auto. }
    split.
    + intros i Hi. destruct (A2 i Hi) as [Hi'|Hi']; [|simpl; auto]. apply F2 in Hi'. destruct Hi' as [Hi'|Hi']; auto. right. right. apply roots_in; auto.
    + intros i Hi. apply A3, F2; auto.
  Qed.

  Lemma distributes x kids : wT o j [] (RN x kids) -> NoDup (cids (RN x kids)) ->
    List.length (cliques_of (RN x kids)) <= walk_fuel j ->
    exists m', forall ps, distribute o j (ps, []) x = (ps' <- distL h x kids ps ;; Ok (ps', m')).
  Proof.
    intros Hw HN Hf. apply wT_inv in Hw. destruct Hw as [nb [E1 [E2 Hk]]]. rewrite cids_eq in *. inversion HN as [|? ? HN1 HN2]; subst.
    rewrite filter_all in E2 by auto. subst nb. unfold distribute. rewrite E1. simpl.
    destruct (dist_folds (distribute_walk o j (walk_fuel j)) x kids) with (l := kids) (m1 := mark_all [cl_id x] (map krt kids)) as [m2 [A1 _]]; auto using incl_refl.
    - intros s' t' Hin m' H1 H2 H3 H4. eapply dist_walks; eauto. pose proof (length_kid s' t' kids Hin). simpl in Hf. lia.
    - apply mark_all_In; left; left; auto.
    - intros i Hi. apply mark_all_In. right. rewrite roots_krt. auto.
    - intros i Hi Hr Hc. apply mark_all_In in Hc. rewrite roots_krt in Hc. destruct Hc as [[<-|[]]|Hc]; auto.
    - eauto.
  Qed.
End Walks.

(** ** The messages of a rooted tree *)
Fixpoint upT (x : clique) (s : sepset) (t : rt) : list msg :=
  match t with RN y kids => flat_map (fun k => upT y (fst k) (snd k)) kids ++ [(y, s, x)] end.
Definition upL (y : clique) (kids : list kid) : list msg := flat_map (fun k => upT y (fst k) (snd k)) kids.
Fixpoint downT (t : rt) : list msg :=
  match t with RN y kids => flat_map (fun k => (y, fst k, root (snd k)) :: downT (snd k)) kids end.
Definition downL (y : clique) (kids : list kid) : list msg := flat_map (fun k => (y, fst k, root (snd k)) :: downT (snd k)) kids.

Lemma foldM_app {A B} (f : A -> B -> res A) l1 : forall l2 a, foldM f (l1 ++ l2) a = (a' <- foldM f l1 a ;; foldM f l2 a').
Proof. induction l1 as [|b l1 IH]; intros l2 a; simpl; auto. destruct (f a b); simpl; auto. Qed.

Lemma collect_sends h t : forall ps x s, collectT h ps x s t = foldM (send h) (upT x s t) ps.
Proof.
  induction t as [y kids IH] using rt_ind'. intros ps x s. rewrite collectT_eq. simpl. rewrite foldM_app.
  replace (collectL h y kids ps) with (foldM (send h) (flat_map (fun k : kid => upT y (fst k) (snd k)) kids) ps).
  - apply rbind_ext. intros p. unfold send. simpl. destruct (pass_message h p y s x); auto.
  - unfold collectL. revert ps. induction kids as [|[s' t'] kids IHk]; intros ps; auto. simpl. rewrite foldM_app.
    rewrite <- (IH s' t') by (left; auto). apply rbind_ext. intros p. apply IHk. intros; eapply IH; right; eauto.
Qed.
Lemma collectL_sends h y kids : forall ps, collectL h y kids ps = foldM (send h) (upL y kids) ps.
Proof.
  induction kids as [|[s t] kids IH]; intros ps; auto. unfold collectL, upL in *. simpl. rewrite foldM_app, <- collect_sends.
  apply rbind_ext. intros p. apply IH.
Qed.
Lemma dist_sends h t : forall ps, distT h ps t = foldM (send h) (downT t) ps.
Proof.
  induction t as [y kids IH] using rt_ind'. intros ps. rewrite distT_eq. simpl. unfold distL.
  revert ps. induction kids as [|[s t] kids IHk]; intros ps; auto. simpl. unfold send at 1. simpl. rewrite rbind_assoc.
  apply rbind_ext. intros p. rewrite foldM_app, <- (IH s t) by (left; auto). apply rbind_ext. intros p'. apply IHk. intros; eapply IH; right; eauto.
Qed.
Lemma distL_sends h y kids ps : distL h y kids ps = foldM (send h) (downL y kids) ps.
Proof. rewrite <- distT_eq. apply (dist_sends h (RN y kids)). Qed.

Lemma up_across t : forall x s, Permutation (map across (upT x s t)) (s :: seps_of t).
Proof.
  induction t as [y kids IH] using rt_ind'. intros x s. simpl upT. rewrite map_app. simpl. rewrite Permutation_app_comm. simpl. apply perm_skip.
  induction kids as [|[s' t'] kids IHk]; auto. simpl. rewrite map_app. rewrite (IH s' t') by (left; auto). simpl. apply perm_skip.
  apply Permutation_app_head. apply IHk. intros; eapply IH; right; eauto.
Qed.
Lemma upL_across y kids : Permutation (map across (upL y kids)) (sepsL kids).
Proof.
  induction kids as [|[s t] kids IH]; auto. change (sepsL ((s, t) :: kids)) with ((s :: seps_of t) ++ sepsL kids).
  unfold upL in *. cbn [flat_map fst snd]. rewrite map_app. apply Permutation_app; auto. apply up_across.
Qed.
Lemma down_across t : map across (downT t) = seps_of t.
Proof.
  induction t as [y kids IH] using rt_ind'. simpl. induction kids as [|[s t] kids IHk]; auto. simpl. rewrite map_app. f_equal. f_equal.
  - apply (IH s t). left; auto.
  - apply IHk. intros; eapply IH; right; eauto.
Qed.

Lemma down_up t : forall m x s, In m (downT t) \/ m = (x, s, root t) <-> In (back m) (upT x s t).
Proof.
  induction t as [y kids IH] using rt_ind'. intros m x s. simpl. rewrite in_app_iff, !in_flat_map. simpl. split.
  - intros [[[s' t'] [Hk Hm]]|E].
    + left. exists (s', t'). split; auto. simpl in *. apply (IH s' t' Hk). destruct Hm; auto.
    + right. left. subst m. reflexivity.
  - intros [[[s' t'] [Hk Hm]]|[E|[]]].
    + left. exists (s', t'). split; auto. simpl in *. apply (IH s' t' Hk) in Hm. destruct Hm; auto.
    + right. destruct m as [[a b] c]. unfold back in E. simpl in E. inversion E; auto.
Qed.
Lemma downL_upL y kids m : In m (downL y kids) <-> In (back m) (upL y kids).
Proof.
  unfold downL, upL. rewrite !in_flat_map. split; intros [[s t] [Hk Hm]]; exists (s, t); split; auto; simpl in *.
  - apply down_up. destruct Hm; auto.
  - apply down_up in Hm. destruct Hm; auto.
Qed.

(** ** order of the messages inwards *)
Fixpoint gathers (ss : list sepset) (sent ms : list msg) : Prop :=
  match ms with
  | [] => True
  | m :: l => (forall s' z, In s' ss -> s' <> across m -> between s' z (fst (fst m)) -> In (z, s', fst (fst m)) sent) /\ gathers ss (sent ++ [m]) l
  end.
Lemma gathers_mono ss ms : forall sent sent', incl sent sent' -> gathers ss sent ms -> gathers ss sent' ms.
Proof.
  induction ms as [|m l IH]; intros sent sent' Hi; simpl; auto. intros [H1 H2]. split.
  - intros; apply Hi; eapply H1; eauto.
  - eapply IH; [|exact H2]. intros x Hx. apply in_app_or in Hx. apply in_or_app. destruct Hx; auto.
Qed.
Lemma gathers_app ss a b : forall sent, gathers ss sent a -> gathers ss (sent ++ a) b -> gathers ss sent (a ++ b).
Proof.
  induction a as [|m l IH]; intros sent; simpl. { rewrite app_nil_r; auto. }
  intros [H1 H2] H3. split; auto. apply IH; auto. rewrite <- app_assoc. auto.
Qed.
Lemma gathers_split ss ms : forall sent, gathers ss sent ms -> forall l1 x s y l2, ms = l1 ++ (x, s, y) :: l2 ->
  forall s' z, In s' ss -> s' <> s -> between s' z x -> In (z, s', x) (sent ++ l1).
Proof.
  induction ms as [|m l IH]; intros sent H l1 x s y l2 E s' z Hs Hne Hb. { destruct l1; discriminate. }
  destruct H as [H1 H2]. destruct l1 as [|m' l1]; simpl in E; inversion E; subst.
  - rewrite app_nil_r. apply H1; auto.
  - specialize (IH _ H2 l1 x s y l2 eq_refl s' z Hs Hne Hb). rewrite <- app_assoc in IH. exact IH.
Qed.

Lemma between_other s x y z : between s x y -> between s z x -> x <> y -> z = y.
Proof. unfold between. intros [[A B]|[A B]] [[C D]|[C D]] H; congruence. Qed.
Lemma between_in s x y : between s x y -> (x = ss_left s \/ x = ss_right s) /\ (y = ss_left s \/ y = ss_right s).
Proof. unfold between. intros [[A B]|[A B]]; auto. Qed.

Definition locked (ss : list sepset) (s : sepset) (t : rt) : Prop :=
  forall a s' z, In a (cliques_of t) -> In s' ss -> between s' z a -> In s' (s :: seps_of t).

Section Order.
  Context (ss : list sepset).

  Lemma kid_locked c kids s t : (forall s t, In (s, t) kids -> joins s c (root t) /\ joinsT t) -> NoDup (cl_id c :: cidsL kids) ->
    (forall a s' z, In a (cliquesL kids) -> In s' ss -> between s' z a -> In s' (sepsL kids)) -> In (s, t) kids -> locked ss s t.
  Proof.
    intros Hk HN Hl Hi a s' z Ha Hs Hb.
    assert (HaL : In a (cliquesL kids)) by (apply in_flat_map; exists (s, t); auto).
    pose proof (Hl a s' z HaL Hs Hb) as Hin.
    apply in_split in Hi. destruct Hi as [l1 [l2 El]].
    pose proof (touch_one kids s t a l1 l2 El c Hk HN Ha) as E.
    assert (Ht : touch a s' = true) by (apply (touch_joins s' z a Hb)).
    assert (Hf : In s' (filter (touch a) (sepsL kids))) by (apply filter_In; auto). rewrite E in Hf. apply filter_In in Hf. tauto.
  Qed.

  Lemma up_gathers t : forall x s, joinsT t -> NoDup (cl_id x :: cids t) -> joins s x (root t) -> locked ss s t -> gathers ss [] (upT x s t).
  Proof.
    induction t as [y kids IH] using rt_ind'. intros x s Hj HN Hs Hl. pose proof (joinsT_inv _ _ Hj) as Hk. simpl upT.
    rewrite cids_eq in HN. inversion HN as [|? ? Hx HN1]; subst. inversion HN1 as [|? ? Hy HN2]; subst.
    assert (HlL : forall a s' z, In a (cliquesL kids) -> In s' ss -> between s' z a -> In s' (sepsL kids)).
    { intros a s' z Ha Hs' Hb. destruct (Hl a s' z) as [E|E]; auto. { rewrite cliques_eq; right; auto. }
      subst s'. exfalso. simpl in Hs. assert (Hai : In (cl_id a) (cidsL kids)) by (apply in_map; auto).
      destruct (between_in _ _ _ Hb) as [_ Hab]. destruct Hs as [[E1 E2]|[E1 E2]]; destruct Hab as [Ea|Ea]; rewrite E1 in Ea || rewrite E2 in Ea; subst a; auto; apply Hx; simpl; auto. }
    apply gathers_app.
    - assert (G : forall l, incl l kids -> gathers ss [] (upL y l)).
      { induction l as [|[s' t'] l IHl]; intros Hincl; [exact I|]. unfold upL in *. simpl. apply gathers_app.
        - assert (Hin : In (s', t') kids) by (apply Hincl; left; auto). destruct (Hk s' t' Hin) as [J1 J2].
          apply (IH s' t' Hin); auto.
          + constructor.
            * intros Hc. apply Hy. eapply cidsL_in; eauto.
            * clear - HN2 Hin. apply in_split in Hin. destruct Hin as [l1 [l2 ->]]. unfold cidsL in HN2. rewrite flat_map_app, map_app in HN2. simpl in HN2. rewrite map_app in HN2.
              apply NoDup_app_iff in HN2. destruct HN2 as [_ [H _]]. apply NoDup_app_iff in H. tauto.
          + eapply kid_locked; eauto.
        - eapply gathers_mono; [|apply IHl; intros k Hk'; apply Hincl; right; auto]. intros m []. }
      apply G, incl_refl.
    - simpl. split; auto. intros s' z Hs' Hne Hb. destruct (Hl y s' z) as [E|E]; auto. { rewrite cliques_eq; left; auto. } { exfalso. apply Hne. symmetry. exact E. }
      rewrite seps_eq in E. assert (Ht : touch y s' = true) by (apply (touch_joins s' z y Hb)).
      assert (Hf : In s' (filter (touch y) (sepsL kids))) by (apply filter_In; auto). rewrite (touch_kids kids y Hk Hy) in Hf.
      apply in_map_iff in Hf. destruct Hf as [[s2 t2] [E2 Hk2]]. simpl in E2. subst s2. destruct (Hk s' t2 Hk2) as [J1 J2].
      assert (Ez : z = root t2).
      { eapply between_other; eauto. intros Ec. apply Hy. rewrite Ec. eapply cidsL_in; eauto. apply cids_root. }
      subst z. apply in_flat_map. exists (s', t2). split; auto. destruct t2 as [y2 kids2]. simpl. apply in_or_app; right; left; auto.
  Qed.

  Lemma upL_gathers c kids : joinsT (RN c kids) -> NoDup (cids (RN c kids)) ->
    (forall a s' z, In a (cliquesL kids) -> In s' ss -> between s' z a -> In s' (sepsL kids)) -> gathers ss [] (upL c kids).
  Proof.
    intros Hj HN HlL. pose proof (joinsT_inv _ _ Hj) as Hk. rewrite cids_eq in HN. inversion HN as [|? ? Hy HN2]; subst.
    assert (G : forall l, incl l kids -> gathers ss [] (upL c l)).
    { induction l as [|[s' t'] l IHl]; intros Hincl; [exact I|]. unfold upL in *. simpl. apply gathers_app.
      - assert (Hin : In (s', t') kids) by (apply Hincl; left; auto). destruct (Hk s' t' Hin) as [J1 J2]. apply up_gathers; auto.
        + constructor.
          * intros Hc. apply Hy. eapply cidsL_in; eauto.
          * clear - HN2 Hin. apply in_split in Hin. destruct Hin as [l1 [l2 ->]]. unfold cidsL in HN2. rewrite flat_map_app, map_app in HN2. simpl in HN2. rewrite map_app in HN2.
            apply NoDup_app_iff in HN2. destruct HN2 as [_ [H _]]. apply NoDup_app_iff in H. tauto.
        + eapply kid_locked; eauto.
      - eapply gathers_mono; [|apply IHl; intros k Hk'; apply Hincl; right; auto]. intros m []. }
    apply G, incl_refl.
  Qed.
End Order.

(** ** order outwards *)
Fixpoint spreads (r : clique) (sent ms : list msg) : Prop :=
  match ms with
  | [] => True
  | m :: l => (fst (fst m) = r \/ exists z s, In (z, s, fst (fst m)) sent) /\ spreads r (sent ++ [m]) l
  end.
Lemma spreads_mono r ms : forall sent sent', incl sent sent' -> spreads r sent ms -> spreads r sent' ms.
Proof.
  induction ms as [|m l IH]; intros sent sent' Hi; simpl; auto. intros [H1 H2]. split.
  - destruct H1 as [H1|[z [s H1]]]; auto. right. exists z, s. auto.
  - eapply IH; [|exact H2]. intros x Hx. apply in_app_or in Hx. apply in_or_app. destruct Hx; auto.
Qed.
Lemma spreads_app r a b : forall sent, spreads r sent a -> spreads r (sent ++ a) b -> spreads r sent (a ++ b).
Proof.
  induction a as [|m l IH]; intros sent; simpl. { rewrite app_nil_r; auto. }
  intros [H1 H2] H3. split; auto. apply IH; auto. rewrite <- app_assoc. auto.
Qed.
Lemma spreads_split r ms : forall sent, spreads r sent ms -> forall l1 x s y l2, ms = l1 ++ (x, s, y) :: l2 ->
  x = r \/ exists z s', In (z, s', x) (sent ++ l1).
Proof.
  induction ms as [|m l IH]; intros sent H l1 x s y l2 E. { destruct l1; discriminate. }
  destruct H as [H1 H2]. destruct l1 as [|m' l1]; simpl in E; inversion E; subst.
  - rewrite app_nil_r. auto.
  - specialize (IH _ H2 l1 x s y l2 eq_refl). rewrite <- app_assoc in IH. exact IH.
Qed.
Lemma down_spreads r t : forall sent, (root t = r \/ exists z s, In (z, s, root t) sent) -> spreads r sent (downT t).
Proof.
  induction t as [y kids IH] using rt_ind'. intros sent Hr. simpl in *.
  revert sent Hr. induction kids as [|[s t] kids IHk]; intros sent Hr; [exact I|]. simpl. split; auto.
  apply spreads_app.
  - apply (IH s t); [left; auto|]. right. exists y, s. apply in_or_app; right; left; auto.
  - apply IHk. { intros; eapply IH; eauto. right; eauto. }
    destruct Hr as [Hr|[z [s' Hr]]]; auto. right. exists z, s'. apply in_or_app; left. apply in_or_app; auto.
Qed.

(** senders inwards lie below the root *)
Lemma up_between t : forall x s, joinsT t -> joins s x (root t) -> forall a s' b, In (a, s', b) (upT x s t) -> between s' a b /\ In a (cliques_of t).
Proof.
  induction t as [y kids IH] using rt_ind'. intros x s Hj Hs a s' b Hm. simpl in Hm. apply in_app_or in Hm. pose proof (joinsT_inv _ _ Hj) as Hk.
  destruct Hm as [Hm|[E|[]]].
  - apply in_flat_map in Hm. destruct Hm as [[s2 t2] [Hi Hm]]. destruct (Hk s2 t2 Hi) as [J1 J2].
    destruct (IH s2 t2 Hi y s2 J2 J1 a s' b Hm). split; auto. rewrite cliques_eq. right. apply in_flat_map. exists (s2, t2); auto.
  - inversion E; subst. split; [|left; auto]. apply joins_sym in Hs. exact Hs.
Qed.

(** ** propagate *)
Lemma wT_pots o j j' : (forall c, neighboring o j' c = neighboring o j c) -> forall P t, wT o j P t -> wT o j' P t.
Proof. intros H P t Hw. induction Hw as [P c kids nb E1 E2 _ IH]. econstructor; eauto. rewrite H; eauto. Qed.

Section Msgs.
  Context (o : Ord) (j : jtree) (x : clique) (t : rt) (ts : list rt) (HJ : JG j) (HT : trees o j x t ts).

  Lemma tree_nodup : NoDup (cids t) /\ forall i, In i (cids t) -> In i (map cl_id (tcliques ts)) -> False.
  Proof using HJ HT.
    assert (HNc : NoDup (map cl_id (tcliques (t :: ts)))).
    { eapply Permutation_NoDup; [symmetry; apply Permutation_map, (tr_cl _ _ _ _ _ HT)|]. pose proof (jg_ids_NoDup j HJ) as H. apply NoDup_app_iff in H. tauto. }
    unfold tcliques in HNc. simpl in HNc. rewrite map_app in HNc. apply NoDup_app_iff in HNc. destruct HNc as [A [B C]]. split; auto.
  Qed.

  Lemma sep_inside s a b : In s (jt_sepsets j) -> between s a b -> In a (cliques_of t) -> In s (seps_of t).
  Proof using HJ HT.
    intros Hs Hb Ha. pose proof (Permutation_in _ (Permutation_sym (tr_ss _ _ _ _ _ HT)) Hs) as Hin.
    unfold tseps in Hin. simpl in Hin. apply in_app_or in Hin. destruct Hin as [Hin|Hin]; auto. exfalso.
    apply in_flat_map in Hin. destruct Hin as [t' [Ht' Hin]]. pose proof (tr_j _ _ _ _ _ HT) as HjT. inversion HjT as [|? ? J1 J2]; subst.
    rewrite Forall_forall in J2. destruct (seps_ends t' (J2 _ Ht') s Hin) as [E1 E2].
    destruct (between_in _ _ _ Hb) as [Hab _]. apply (proj2 tree_nodup (cl_id a)); [apply in_map; auto|].
    apply in_map. apply in_flat_map. exists t'. split; auto. destruct Hab; subst a; auto.
  Qed.
  Lemma reached_inside c : reached j x c <-> In c (cliques_of t).
  Proof using HJ HT.
    pose proof (tr_j _ _ _ _ _ HT) as HjT. inversion HjT as [|? ? J1 J2]; subst. split.
    - induction 1 as [|s a b Ha IH Hs Hb]. { rewrite <- (tr_root _ _ _ _ _ HT). apply root_In. }
      pose proof (sep_inside s a b Hs Hb IH) as Hin. destruct (seps_ends t J1 s Hin) as [E1 E2].
      destruct (between_in _ _ _ Hb) as [_ [-> | ->]]; auto.
    - assert (Hsub : incl (seps_of t) (jt_sepsets j)).
      { intros s Hs. apply (Permutation_in _ (tr_ss _ _ _ _ _ HT)). simpl. apply in_or_app; auto. }
      assert (G : forall u, joinsT u -> incl (seps_of u) (jt_sepsets j) -> reached j x (root u) -> forall c, In c (cliques_of u) -> reached j x c).
      { clear - x. induction u as [y kids IH] using rt_ind'. intros Hj Hsub Hr c Hc. rewrite cliques_eq in Hc. destruct Hc as [<-|Hc]; auto.
        apply in_flat_map in Hc. destruct Hc as [[s u] [Hi Hc]]. destruct (joinsT_inv _ _ Hj s u Hi) as [K1 K2]. simpl in Hc.
        apply (IH s u Hi K2); auto.
        - intros s' Hs'. apply Hsub. rewrite seps_eq. apply in_flat_map. exists (s, u); simpl; auto.
        - eapply reached_over; eauto. apply Hsub. rewrite seps_eq. apply in_flat_map. exists (s, u); simpl; auto. }
      apply G; auto. rewrite (tr_root _ _ _ _ _ HT). constructor.
  Qed.

  Definition ups := upL (root t) (kids_of t).
  Definition downs := downT t.

  Lemma ups_inward : inward j x ups.
  Proof using HJ HT.
    pose proof (tr_j _ _ _ _ _ HT) as HjT. inversion HjT as [|? ? J1 J2]; subst. pose proof (tr_root _ _ _ _ _ HT) as Er.
    destruct tree_nodup as [HN _]. unfold ups. destruct t as [c kids] eqn:Et. simpl root in *. simpl kids_of. subst c.
    assert (Ps : Permutation (map across (upL x kids)) (seps_of t)) by (rewrite Et, seps_eq; apply upL_across). rewrite <- Et in *.
    assert (HNs : NoDup (jt_sepsets j)).
    { pose proof (jg_ids_NoDup j HJ) as H. apply NoDup_app_iff in H. destruct H as [_ [H _]]. eapply NoDup_map_inv; eauto. }
    constructor.
    - intros a s b Hm. unfold upL in Hm. apply in_flat_map in Hm. destruct Hm as [[s2 t2] [Hi Hm]]. rewrite Et in J1. destruct (joinsT_inv _ _ J1 s2 t2 Hi) as [K1 K2].
      destruct (up_between t2 x s2 K2 K1 a s b Hm) as [B1 B2]. split; auto. intros ->. rewrite Et, cids_eq in HN. inversion HN as [|? ? Hy HN2]; subst.
      apply Hy. eapply cidsL_in; eauto. apply in_map; auto.
    - eapply Permutation_NoDup; [symmetry; exact Ps|]. 
      eapply Permutation_NoDup in HNs; [|symmetry; exact (tr_ss _ _ _ _ _ HT)]. simpl in HNs. apply NoDup_app_iff in HNs. tauto.
    - intros s. rewrite reached_inside. split.
      + intros Hs. apply (Permutation_in _ Ps) in Hs. split. { apply (Permutation_in _ (tr_ss _ _ _ _ _ HT)). simpl. apply in_or_app; auto. }
        apply (seps_ends t J1 s Hs).
      + intros [Hs Hl]. apply (Permutation_in _ (Permutation_sym Ps)). apply (sep_inside s (ss_left s) (ss_right s)); auto. left; auto.
    - intros l1 a s b l2 E s' z Hs Hne Hb. change l1 with ([] ++ l1). eapply gathers_split; eauto. rewrite Et in J1, HN. apply upL_gathers; auto.
      intros a' s2 z' Ha' Hs2 Hb'. rewrite <- (seps_eq x), <- Et. apply (sep_inside s2 a' z'); auto.
      + destruct Hb' as [[B1 B2]|[B1 B2]]; [right|left]; auto.
      + rewrite Et, cliques_eq. right; auto.
  Qed.
  Lemma downs_outward : outward x ups downs.
  Proof using HJ HT.
    pose proof (tr_root _ _ _ _ _ HT) as Er. constructor.
    - intros m. unfold ups, downs. destruct t as [c kids]. apply (downL_upL c kids).
    - unfold downs. rewrite down_across. pose proof ups_inward as [_ H _ _]. eapply Permutation_NoDup; [|exact H]. unfold ups. destruct t as [c kids]. apply upL_across.
    - intros l1 a s b l2 E. change l1 with ([] ++ l1). eapply spreads_split; eauto. apply down_spreads. auto.
  Qed.

  Lemma propagate_sends : first_clique j x -> forall ps,
    propagate o (set_jpots j ps) = (ps' <- foldM (send (jt_heap j)) (ups ++ downs) ps ;; Ok (set_jpots j ps')).
  Proof using HJ HT.
    intros [l El] ps. pose proof (tr_root _ _ _ _ _ HT) as Er. pose proof (tr_w _ _ _ _ _ HT) as Hw. destruct tree_nodup as [HN _].
    assert (Hf : List.length (cliques_of t) <= walk_fuel j).
    { unfold walk_fuel. pose proof (Permutation_length (jg_all_ids j HJ)) as E. rewrite app_length, !map_length in E. unfold dkeys in E. rewrite map_length in E.
      pose proof (Permutation_length (tr_cl _ _ _ _ _ HT)) as E2. unfold tcliques in E2. simpl in E2. rewrite app_length in E2. lia. }
    unfold ups, downs. destruct t as [c kids]. simpl root in *. simpl kids_of. subst c. set (j' := set_jpots j ps).
    assert (Hw' : wT o j' [] (RN x kids)) by (eapply wT_pots; [|exact Hw]; reflexivity).
    destruct (collects o j' x kids Hw' HN Hf) as [m1 C1]. destruct (distributes o j' x kids Hw' HN Hf) as [m2 C2].
    unfold propagate. change (jt_cliques j') with (jt_cliques j). rewrite El. change (jt_pots j') with ps. unfold pots in *. rewrite C1, rbind_assoc.
    rewrite foldM_app, rbind_assoc. change (jt_heap j') with (jt_heap j) in *. rewrite collectL_sends. apply rbind_ext. intros ps1. cbn [rbind fst].
    rewrite C2, rbind_assoc, distL_sends. apply rbind_ext. intros ps2. cbn [rbind fst]. reflexivity.
  Qed.
End Msgs.

Lemma c66 ops o h o' : well_shaped ops -> ord_ok o -> valid_history (net_of ops) h -> ord_ok o' ->
  exists j r up down, session o ops h = Ok j /\ In r (jt_cliques j) /\ (forall c, In c (jt_cliques j) -> str_leb (cl_id r) (cl_id c) = true) /\
    inward j r up /\ outward r up down /\
    (connected ops -> forall s, In s (jt_sepsets j) -> In s (map across up)) /\
    forall ps, propagate o' (set_jpots j ps) = (ps' <- foldM (send (jt_heap j)) (up ++ down) ps ;; Ok (set_jpots j ps')).
Proof.
  intros HW Ho Hh Ho'. destruct (session_live ops o h HW Ho Hh) as [j [ev [A1 [A2 A3]]]]. set (j1 := set_jevid j ev) in *.
  destruct (lv_net _ _ _ _ A2) as [HJ1 _ Hcnt1 _ _ Hne].
  assert (HJ : JG j) by (destruct HJ1; constructor; auto). assert (Hcnt : jcount j) by exact Hcnt1.
  destruct (first_clique_ex j Hne) as [x Hx]. destruct (first_clique_min _ _ Hx) as [Hin Hmin].
  destruct (trees_exist o' j x Ho' HJ Hcnt Hin) as [t [ts HT]].
  pose proof (ups_inward o' j x t ts HJ HT) as HU.
  exists j, x, (ups t), (downs t). split; auto. split; auto. split; auto. split; auto. split; [apply (downs_outward o' j x t ts HJ HT)|]. split.
  - intros Hc s Hs. assert (Hjc : jconn j) by exact (A3 Hc). apply (in_all _ _ _ HU). split; auto. apply (reached_inside o' j x t ts HJ HT).
    rewrite (trees_single o' j x t ts HJ Hjc Hin HT) in HT. pose proof (tr_cl _ _ _ _ _ HT) as Pc. unfold tcliques in Pc. simpl in Pc. rewrite app_nil_r in Pc.
    apply (Permutation_in _ (Permutation_sym Pc)). apply (jg_ends _ HJ s Hs).
  - intros ps. apply (propagate_sends o' j x t ts HJ HT Hx).
Qed.
