(** [small_sort] sorts whenever the comparison is a strict total order on the list. *)
From Verif Require Import Py M_Sampling L_Base L_Table.
Open Scope nat_scope.

Definition pairwise {A} (R : A -> A -> Prop) (l : list A) : Prop := forall a x b y c, l = a ++ x :: b ++ y :: c -> R x y.
Lemma pairwise_nil {A} (R : A -> A -> Prop) : pairwise R [].
Proof. intros a x b y c E. destruct a; discriminate. Qed.
Lemma pairwise_cons {A} (R : A -> A -> Prop) x l : pairwise R (x :: l) <-> (forall y, In y l -> R x y) /\ pairwise R l.
Proof.
  split.
  - intros H. split. intros y Hy. apply in_split in Hy as (b & c & ->). apply (H [] x b y c); auto.
    intros a y b z c E. apply (H (x :: a) y b z c). rewrite E; auto.
  - intros [H1 H2] a y b z c E. destruct a as [|a0 a]; injection E as -> E.
    + apply H1. rewrite E. apply in_or_app; right; simpl; auto.
    + apply (H2 a y b z c); auto.
Qed.
Lemma pairwise_app {A} (R : A -> A -> Prop) l m : pairwise R (l ++ m) <-> pairwise R l /\ pairwise R m /\ (forall x y, In x l -> In y m -> R x y).
Proof.
  induction l as [|x l IH]; simpl.
  - split; [intros H; repeat split; auto; [apply pairwise_nil|tauto]|tauto].
  - rewrite !pairwise_cons, IH. split.
    + intros (H1 & H2 & H3 & H4). repeat split; auto; try (intros; apply H1; apply in_or_app; auto). intros a b [<-|Ha] Hb; auto. apply H1, in_or_app; auto.
    + intros ((H1 & H2) & H3 & H4). repeat split; auto. intros y Hy. apply in_app_or in Hy as [|]; auto.
Qed.

Section S.
  Context {A : Type} (lt : A -> A -> bool).
  Notation ord := (pairwise (fun x y => lt x y = true)).

  Lemma insert_at_perm k (x : A) l : Permutation (insert_at k x l) (x :: l).
  Proof. unfold insert_at. rewrite <- (firstn_skipn k l) at 3. symmetry. apply Permutation_middle. Qed.
  Lemma take_asc_app l : forall x a b, take_asc lt x l = (a, b) -> l = a ++ b.
  Proof. induction l as [|y l IH]; simpl; intros x a b E. injection E as <- <-; auto. destruct (lt y x); [injection E as <- <-; auto|].
    destruct (take_asc lt y l) as [a' b'] eqn:E'. injection E as <- <-. simpl. f_equal. eapply IH; eauto. Qed.
  Lemma take_desc_app l : forall x a b, take_desc lt x l = (a, b) -> l = a ++ b.
  Proof. induction l as [|y l IH]; simpl; intros x a b E. injection E as <- <-; auto. destruct (lt y x); [|injection E as <- <-; auto].
    destruct (take_desc lt y l) as [a' b'] eqn:E'. injection E as <- <-. simpl. f_equal. eapply IH; eauto. Qed.
  Lemma first_run_perm l a b : first_run lt l = (a, b) -> Permutation (a ++ b) l.
  Proof.
    destruct l as [|x [|y t]]; simpl; intros E; try (injection E as <- <-; simpl; auto).
    destruct (lt y x).
    - destruct (take_desc lt y t) as [a' b'] eqn:E'. injection E as <- <-. apply take_desc_app in E' as ->.
      change (x :: y :: a' ++ b') with ((x :: y :: a') ++ b'). apply Permutation_app_tail. symmetry. apply (Permutation_rev (x :: y :: a')).
    - destruct (take_asc lt y t) as [a' b'] eqn:E'. injection E as <- <-. apply take_asc_app in E' as ->. simpl; auto.
  Qed.
  Lemma fold_insert_perm (f : list A -> A -> nat) b : forall a, Permutation (fold_left (fun acc x => insert_at (f acc x) x acc) b a) (a ++ b).
  Proof.
    induction b as [|x b IH]; intros a; simpl. rewrite app_nil_r; auto.
    rewrite IH. etransitivity; [apply Permutation_app_tail, insert_at_perm|]. simpl. apply Permutation_middle.
  Qed.
  Lemma small_sort_perm l : Permutation (small_sort lt l) l.
  Proof.
    unfold small_sort. destruct (first_run lt l) as [a b] eqn:E.
    rewrite (fold_insert_perm (fun acc x => bin_pos lt (List.length acc) acc x 0 (List.length acc))). apply first_run_perm; auto.
  Qed.

  Variable L : list A.
  Hypothesis anti : forall x y, In x L -> In y L -> lt x y = true -> lt y x = false.
  Hypothesis tot : forall x y, In x L -> In y L -> x <> y -> lt x y = true \/ lt y x = true.
  Hypothesis trans : forall x y z, In x L -> In y L -> In z L -> lt x y = true -> lt y z = true -> lt x z = true.

  Lemma asc_ord l : forall x a b, In x L -> incl l L -> NoDup (x :: l) -> take_asc lt x l = (a, b) -> ord (x :: a).
  Proof.
    induction l as [|y l IH]; simpl; intros x a b Hx Hl HN E.
    - injection E as <- <-. apply pairwise_cons. split; [simpl; tauto|apply pairwise_nil].
    - destruct (lt y x) eqn:Eyx. { injection E as <- <-. apply pairwise_cons. split; [simpl; tauto|apply pairwise_nil]. }
      destruct (take_asc lt y l) as [a' b'] eqn:E'. injection E as <- <-.
      assert (Hy : In y L) by (apply Hl; simpl; auto). assert (Hl' : incl l L) by (intros z Hz; apply Hl; simpl; auto).
      inversion_clear HN. assert (O : ord (y :: a')) by (eapply IH; eauto). apply pairwise_cons. split; auto.
      assert (Hxy : lt x y = true). { destruct (tot x y) as [|C]; auto. intros ->. simpl in *. tauto. congruence. }
      intros z [<-|Hz]; auto. apply trans with y; auto. apply Hl'. apply take_asc_app in E' as ->. apply in_or_app; auto.
      apply pairwise_cons in O as [O _]; auto.
  Qed.
  Lemma desc_ord l : forall x a b, In x L -> incl l L -> take_desc lt x l = (a, b) -> pairwise (fun u v => lt v u = true) (x :: a).
  Proof.
    induction l as [|y l IH]; simpl; intros x a b Hx Hl E.
    - injection E as <- <-. apply pairwise_cons. split; [simpl; tauto|apply pairwise_nil].
    - destruct (lt y x) eqn:Eyx. 2:{ injection E as <- <-. apply pairwise_cons. split; [simpl; tauto|apply pairwise_nil]. }
      destruct (take_desc lt y l) as [a' b'] eqn:E'. injection E as <- <-.
      assert (Hy : In y L) by (apply Hl; simpl; auto). assert (Hl' : incl l L) by (intros z Hz; apply Hl; simpl; auto).
      assert (O : pairwise (fun u v => lt v u = true) (y :: a')) by (eapply IH; eauto). apply pairwise_cons. split; auto.
      intros z [<-|Hz]; auto. apply trans with y; auto. apply Hl'. apply take_desc_app in E' as ->. apply in_or_app; auto.
      apply pairwise_cons in O as [O _]; auto.
  Qed.
  Lemma pairwise_rev (R : A -> A -> Prop) l : pairwise (fun u v => R v u) l -> pairwise R (rev l).
  Proof.
    induction l as [|x l IH]; intros H; simpl; [apply pairwise_nil|]. apply pairwise_cons in H as [H1 H2]. apply pairwise_app. split; [auto|]. split.
    - apply pairwise_cons. split; [simpl; tauto|apply pairwise_nil].
    - intros a b Ha [<-|[]]. apply H1. apply in_rev; auto.
  Qed.
  Lemma first_run_ord l a b : incl l L -> NoDup l -> first_run lt l = (a, b) -> ord a.
  Proof.
    intros Hl HN E. destruct l as [|x [|y t]]; simpl in E; try (injection E as <- <-).
    - apply pairwise_nil.
    - apply pairwise_cons. split; [simpl; tauto|apply pairwise_nil].
    - assert (Hx : In x L) by (apply Hl; simpl; auto). assert (Hy : In y L) by (apply Hl; simpl; auto). assert (Ht : incl t L) by (intros z Hz; apply Hl; simpl; auto).
      destruct (lt y x) eqn:Eyx.
      + destruct (take_desc lt y t) as [a' b'] eqn:E'. injection E as <- <-. apply (pairwise_rev (fun u v => lt u v = true) (x :: y :: a')).
        apply (desc_ord (y :: t) x (y :: a') b'); auto. intros z [<-|]; auto. simpl. rewrite Eyx, E'. auto.
      + destruct (take_asc lt y t) as [a' b'] eqn:E'. injection E as <- <-.
        apply (asc_ord (y :: t) x (y :: a') b'); auto. intros z [<-|]; auto. simpl. rewrite Eyx, E'. auto.
  Qed.

  Lemma ord_nth l i j x y : ord l -> nth_error l i = Some x -> nth_error l j = Some y -> i < j -> lt x y = true.
  Proof.
    intros H Ex Ey Hij. apply nth_error_split in Ex as (a & m & -> & Ha).
    rewrite nth_error_app2 in Ey by lia. replace (j - List.length a) with (S (j - S i)) in Ey by lia. simpl in Ey.
    apply nth_error_split in Ey as (b & c & -> & _). apply (H a x b y c); auto.
  Qed.
  Lemma bin_pos_ok l p : incl l L -> In p L -> ~ In p l -> ord l -> forall f lo hi, lo <= hi -> hi <= List.length l -> hi - lo <= f ->
    (forall i y, i < lo -> nth_error l i = Some y -> lt y p = true) -> (forall i y, hi <= i -> nth_error l i = Some y -> lt p y = true) ->
    let k := bin_pos lt f l p lo hi in
    k <= List.length l /\ (forall i y, i < k -> nth_error l i = Some y -> lt y p = true) /\ (forall i y, k <= i -> nth_error l i = Some y -> lt p y = true).
  Proof.
    intros Hl Hp Hn Ho. induction f as [|f IH]; intros lo hi H1 H2 H3 Hlo Hhi; simpl.
    - repeat split; auto; [lia|]. intros i y Hi. apply Hhi; lia.
    - destruct (Nat.ltb_spec lo hi) as [Hlt|Hge].
      2:{ repeat split; auto; [lia|]. intros i y Hi. apply Hhi; lia. }
      set (m := lo + Nat.div2 (hi - lo)).
      assert (Hm : lo <= m < hi). { unfold m. rewrite Nat.div2_div. split; [lia|]. assert ((hi - lo) / 2 < hi - lo) by (apply Nat.div_lt; lia). lia. }
      destruct (nth_error l m) as [z|] eqn:E; [|apply nth_error_None in E; lia].
      assert (HzL : In z L) by (apply Hl; eapply nth_error_In; eauto).
      destruct (lt p z) eqn:Epz.
      + apply IH; try lia; auto. intros i y Hi Ey. destruct (Nat.eq_dec i m) as [->|]; [congruence|].
        apply trans with z; auto. apply Hl; eapply nth_error_In; eauto. apply (ord_nth l m i); auto; lia.
      + assert (Ezp : lt z p = true). { destruct (tot z p) as [|C]; auto. intros ->. apply Hn. eapply nth_error_In; eauto. congruence. }
        apply IH; try lia; auto. intros i y Hi Ey. destruct (Nat.eq_dec i m) as [->|]; [congruence|].
        apply trans with z; auto. apply Hl; eapply nth_error_In; eauto. apply (ord_nth l i m); auto; lia.
  Qed.
  Lemma firstn_nth (l : list A) k x : In x (firstn k l) -> exists i, i < k /\ nth_error l i = Some x.
  Proof. revert k. induction l as [|y l IH]; intros [|k] H; simpl in H; try tauto. destruct H as [<-|H]. exists 0; split; [lia|auto]. destruct (IH k H) as (i & ? & ?). exists (S i); split; [lia|auto]. Qed.
  Lemma skipn_nth (l : list A) k x : In x (skipn k l) -> exists i, k <= i /\ nth_error l i = Some x.
  Proof. revert k. induction l as [|y l IH]; intros [|k] H; cbn [skipn] in H; [destruct H| destruct H| |]. apply In_nth_error in H as [i H]. exists i. split; [lia|auto]. destruct (IH k H) as (i & ? & ?). exists (S i); split; [lia|auto]. Qed.
  Lemma insert_ord l p : incl l L -> In p L -> ~ In p l -> ord l -> ord (insert_at (bin_pos lt (List.length l) l p 0 (List.length l)) p l).
  Proof.
    intros Hl Hp Hn Ho. destruct (bin_pos_ok l p Hl Hp Hn Ho (List.length l) 0 (List.length l)) as (Hk & H1 & H2); try lia.
    { intros i y Hi E. exfalso. assert (nth_error l i = None) by (apply nth_error_None; lia). congruence. }
    set (k := bin_pos _ _ _ _ _ _) in *. unfold insert_at.
    assert (Ho' : ord (firstn k l ++ skipn k l)) by (rewrite firstn_skipn; auto). apply pairwise_app in Ho' as (O1 & O2 & O3).
    apply pairwise_app. split; [auto|]. split.
    - apply pairwise_cons. split; auto. intros y Hy. apply skipn_nth in Hy as (i & ? & ?). eapply H2; eauto.
    - intros x y Hx [<-|Hy]; auto. apply firstn_nth in Hx as (i & ? & ?). eapply H1; eauto.
  Qed.
  Lemma fold_insert_ord b : forall a, incl (a ++ b) L -> NoDup (a ++ b) -> ord a ->
    ord (fold_left (fun acc x => insert_at (bin_pos lt (List.length acc) acc x 0 (List.length acc)) x acc) b a).
  Proof.
    induction b as [|x b IH]; intros a Hi HN Ho; simpl; auto. set (a' := insert_at _ x a).
    assert (HP : Permutation (a' ++ b) (a ++ x :: b)). { unfold a'. etransitivity; [apply Permutation_app_tail, insert_at_perm|]. simpl. apply Permutation_middle. }
    apply IH.
    - intros z Hz. apply Hi. eapply Permutation_in; eauto.
    - eapply Permutation_NoDup; [symmetry; exact HP|auto].
    - apply insert_ord; auto. intros z Hz; apply Hi, in_or_app; auto. apply Hi, in_or_app; simpl; auto.
      apply NoDup_app_iff in HN as (_ & _ & H). intros Hx. apply (H x Hx). simpl; auto.
  Qed.
  Lemma small_sort_ord : NoDup L -> ord (small_sort lt L).
  Proof.
    intros HN. unfold small_sort. destruct (first_run lt L) as [a b] eqn:E. pose proof (first_run_perm _ _ _ E) as HP. apply fold_insert_ord.
    - intros z Hz. eapply Permutation_in; eauto.
    - eapply Permutation_NoDup; [symmetry; exact HP|auto].
    - eapply first_run_ord; eauto. apply incl_refl.
  Qed.
End S.

Lemma small_sorter_ok : sorter_ok (fun lt l => small_sort lt l).
Proof.
  split; [|split]; auto.
  - intros. apply small_sort_perm.
  - intros lt l a x b y c HN (H1 & H2 & H3) E. apply (small_sort_ord lt l H2 H3 HN a x b y c E).
Qed.
