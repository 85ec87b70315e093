(** [small_sort] is a stable sort whenever the comparison is a strict weak order on the list. *)
From Verif Require Import Py M_Sampling L_Base L_Sort SpecSort.
Open Scope nat_scope.

Section S.
  Context {A : Type} (lt : A -> A -> bool) (L : list A) (W : weak_order lt L).
  Notation le x y := (lt y x = false).
  Notation ord := (pairwise (fun x y => lt y x = false)).
  Notation dord := (pairwise (fun x y => lt y x = true)).

  Lemma le_trans x y z : In x L -> In y L -> In z L -> le x y -> le y z -> le x z.
  Proof. intros. destruct W as [_ T]. apply (T z y x); auto. Qed.
  Lemma lt_le x y : In x L -> In y L -> lt x y = true -> le x y.
  Proof. intros. destruct W as [T _]. auto. Qed.
  Lemma le_lt x y z : In x L -> In y L -> In z L -> le x y -> lt y z = true -> lt x z = true.
  Proof. intros Hx Hy Hz H1 H2. destruct (lt x z) eqn:E; auto. destruct W as [_ T]. pose proof (T y x z Hy Hx Hz H1 E). congruence. Qed.
  Lemma lt_le_lt x y z : In x L -> In y L -> In z L -> lt x y = true -> le y z -> lt x z = true.
  Proof. intros Hx Hy Hz H1 H2. destruct (lt x z) eqn:E; auto. destruct W as [_ T]. pose proof (T x z y Hx Hz Hy E H2). congruence. Qed.

  Lemma asc_in_order l : forall x a b, In x L -> incl l L -> take_asc lt x l = (a, b) -> ord (x :: a).
  Proof.
    induction l as [|y l IH]; simpl; intros x a b Hx Hl E.
    - injection E as <- <-. apply pairwise_cons. split; [simpl; tauto|apply pairwise_nil].
    - destruct (lt y x) eqn:Eyx. { injection E as <- <-. apply pairwise_cons. split; [simpl; tauto|apply pairwise_nil]. }
      destruct (take_asc lt y l) as [a' b'] eqn:E'. injection E as <- <-.
      assert (Hy : In y L) by (apply Hl; simpl; auto). assert (Hl' : incl l L) by (intros z Hz; apply Hl; simpl; auto).
      assert (O : ord (y :: a')) by (eapply IH; eauto). apply pairwise_cons. split; auto.
      intros z [<-|Hz]; auto. apply le_trans with y; auto. apply Hl'. apply take_asc_app in E' as ->. apply in_or_app; auto.
      apply pairwise_cons in O as [O _]; auto.
  Qed.
  Lemma desc_dord l : forall x a b, In x L -> incl l L -> take_desc lt x l = (a, b) -> dord (x :: a).
  Proof.
    induction l as [|y l IH]; simpl; intros x a b Hx Hl E.
    - injection E as <- <-. apply pairwise_cons. split; [simpl; tauto|apply pairwise_nil].
    - destruct (lt y x) eqn:Eyx. 2:{ injection E as <- <-. apply pairwise_cons. split; [simpl; tauto|apply pairwise_nil]. }
      destruct (take_desc lt y l) as [a' b'] eqn:E'. injection E as <- <-.
      assert (Hy : In y L) by (apply Hl; simpl; auto). assert (Hl' : incl l L) by (intros z Hz; apply Hl; simpl; auto).
      assert (O : dord (y :: a')) by (eapply IH; eauto). apply pairwise_cons. split; auto.
      intros z [<-|Hz]; auto. assert (In z L). { apply Hl'. apply take_desc_app in E' as ->. apply in_or_app; auto. }
      apply le_lt with y; auto. apply lt_le; auto. apply pairwise_cons in O as [O _]; auto.
  Qed.
  Lemma ties_app x a b : ties lt x (a ++ b) = ties lt x a ++ ties lt x b.
  Proof using. apply filter_app. Qed.
  Lemma ties_short x l : In x L -> incl l L -> dord l -> List.length (ties lt x l) <= 1.
  Proof.
    intros Hx. induction l as [|y l IH]; intros Hl O; simpl; auto. apply pairwise_cons in O as [O1 O2].
    assert (Hl' : incl l L) by (intros z Hz; apply Hl; simpl; auto). assert (Hy : In y L) by (apply Hl; simpl; auto).
    unfold ties in *; simpl. destruct (tied lt x y) eqn:E; [|apply IH; auto].
    replace (filter (tied lt x) l) with (@nil A); [simpl; lia|]. symmetry.
    destruct (filter (tied lt x) l) as [|z t] eqn:F; auto. exfalso.
    assert (Hz : In z (filter (tied lt x) l)) by (rewrite F; simpl; auto). apply filter_In in Hz as [Hz T].
    unfold tied in *. apply andb_prop in E as [E1 E2]. apply andb_prop in T as [T1 T2]. apply negb_true_iff in E1, E2, T1, T2.
    pose proof (O1 z Hz) as C. rewrite (le_trans y x z) in C; auto. discriminate.
  Qed.
  Lemma first_run_stable l a b : incl l L -> first_run lt l = (a, b) -> ord a /\ (forall x, In x L -> ties lt x (a ++ b) = ties lt x l).
  Proof.
    intros Hl E. destruct l as [|x [|y t]]; simpl in E; try (injection E as <- <-).
    - split; [apply pairwise_nil|auto].
    - split; [apply pairwise_cons; split; [simpl; tauto|apply pairwise_nil]|auto].
    - assert (Hx : In x L) by (apply Hl; simpl; auto). assert (Hy : In y L) by (apply Hl; simpl; auto). assert (Ht : incl t L) by (intros z Hz; apply Hl; simpl; auto).
      destruct (lt y x) eqn:Eyx.
      + destruct (take_desc lt y t) as [a' b'] eqn:E'. injection E as <- <-.
        assert (D : dord (x :: y :: a')). { apply (desc_dord (y :: t) x (y :: a') b'); auto. intros z [<-|]; auto. simpl. rewrite Eyx, E'. auto. }
        pose proof (take_desc_app lt _ _ _ _ E') as Et.
        assert (I : incl (x :: y :: a') L). { intros z [<-|[<-|Hz]]; auto. apply Ht. rewrite Et. apply in_or_app; auto. }
        split.
        * change (pairwise (fun x y => lt y x = false) (rev (x :: y :: a'))). apply pairwise_rev. intros p u q v r Ep.
          apply lt_le; [| |apply (D p u q v r Ep)]; apply I; rewrite Ep; apply in_or_app; right; simpl; auto. right. apply in_or_app; right; simpl; auto.
        * intros z Hz. change (rev a' ++ [y]) with (rev (y :: a')). change (rev (y :: a') ++ [x]) with (rev (x :: y :: a')).
          rewrite Et. change (x :: y :: a' ++ b') with ((x :: y :: a') ++ b'). rewrite !ties_app. f_equal.
          pose proof (ties_short z _ Hz I D) as S. revert S. generalize (x :: y :: a'). intros l S. unfold ties in *.
          assert (R : filter (tied lt z) (rev l) = rev (filter (tied lt z) l)).
          { clear. induction l as [|u l IH]; simpl; auto. rewrite filter_app, IH. simpl. destruct (tied lt z u); simpl; auto. rewrite app_nil_r; auto. }
          rewrite R. destruct (filter (tied lt z) l) as [|u [|v w]]; auto. simpl in S. lia.
      + destruct (take_asc lt y t) as [a' b'] eqn:E'. injection E as <- <-. split.
        * apply (asc_in_order (y :: t) x (y :: a') b'); auto. intros z [<-|]; auto. simpl. rewrite Eyx, E'. auto.
        * intros z Hz. apply take_asc_app in E' as ->. auto.
  Qed.

  Lemma ord_nth_le l i j x y : ord l -> nth_error l i = Some x -> nth_error l j = Some y -> i < j -> le x y.
  Proof.
    intros H Ex Ey Hij. apply nth_error_split in Ex as (a & m & -> & Ha).
    rewrite nth_error_app2 in Ey by lia. replace (j - List.length a) with (S (j - S i)) in Ey by lia. simpl in Ey.
    apply nth_error_split in Ey as (b & c & -> & _). apply (H a x b y c); auto.
  Qed.
  Lemma bin_pos_right l p : incl l L -> In p L -> ord l -> forall f lo hi, lo <= hi -> hi <= List.length l -> hi - lo <= f ->
    (forall i y, i < lo -> nth_error l i = Some y -> le y p) -> (forall i y, hi <= i -> nth_error l i = Some y -> lt p y = true) ->
    let k := bin_pos lt f l p lo hi in
    k <= List.length l /\ (forall i y, i < k -> nth_error l i = Some y -> le y p) /\ (forall i y, k <= i -> nth_error l i = Some y -> lt p y = true).
  Proof.
    intros Hl Hp Ho. induction f as [|f IH]; intros lo hi H1 H2 H3 Hlo Hhi; simpl.
    - repeat split; auto; [lia|]. intros i y Hi. apply Hhi; lia.
    - destruct (Nat.ltb_spec lo hi) as [Hlt|Hge].
      2:{ repeat split; auto; [lia|]. intros i y Hi. apply Hhi; lia. }
      set (m := lo + Nat.div2 (hi - lo)).
      assert (Hm : lo <= m < hi). { unfold m. rewrite Nat.div2_div. split; [lia|]. assert ((hi - lo) / 2 < hi - lo) by (apply Nat.div_lt; lia). lia. }
      destruct (nth_error l m) as [z|] eqn:E; [|apply nth_error_None in E; lia].
      assert (HzL : In z L) by (apply Hl; eapply nth_error_In; eauto).
      destruct (lt p z) eqn:Epz.
      + apply IH; try lia; auto. intros i y Hi Ey. destruct (Nat.eq_dec i m) as [->|]; [congruence|].
        apply lt_le_lt with z; auto. apply Hl; eapply nth_error_In; eauto. apply (ord_nth_le l m i); auto; lia.
      + apply IH; try lia; auto. intros i y Hi Ey. destruct (Nat.eq_dec i m) as [->|]; [congruence|].
        apply le_trans with z; auto. apply Hl; eapply nth_error_In; eauto. apply (ord_nth_le l i m); auto; lia.
  Qed.
  Lemma insert_stable l p : incl l L -> In p L -> ord l ->
    let r := insert_at (bin_pos lt (List.length l) l p 0 (List.length l)) p l in
    ord r /\ (forall x, In x L -> ties lt x r = ties lt x (l ++ [p])).
  Proof.
    intros Hl Hp Ho. destruct (bin_pos_right l p Hl Hp Ho (List.length l) 0 (List.length l)) as (Hk & H1 & H2); try lia.
    { intros i y Hi E. exfalso. assert (nth_error l i = None) by (apply nth_error_None; lia). congruence. }
    set (k := bin_pos _ _ _ _ _ _) in *. unfold insert_at.
    assert (G1 : forall y, In y (firstn k l) -> le y p). { intros y Hy. apply firstn_nth in Hy as (i & ? & ?). eapply H1; eauto. }
    assert (G2 : forall y, In y (skipn k l) -> lt p y = true). { intros y Hy. apply skipn_nth in Hy as (i & ? & ?). eapply H2; eauto. }
    assert (Es : l = firstn k l ++ skipn k l) by (symmetry; apply firstn_skipn).
    assert (I1 : incl (firstn k l) L). { intros z Hz. apply Hl. rewrite Es. apply in_or_app; auto. }
    assert (I2 : incl (skipn k l) L). { intros z Hz. apply Hl. rewrite Es. apply in_or_app; auto. }
    rewrite Es in Ho. clear Hk H1 H2. clearbody k.
    assert (Q : l ++ [p] = (firstn k l ++ skipn k l) ++ [p]) by (rewrite firstn_skipn; auto). cbv zeta. rewrite Q. clear Q Es Hl. generalize dependent (firstn k l). generalize dependent (skipn k l). clear l k.
    intros s G2 I2 f Ho G1 I1. apply pairwise_app in Ho as (O1 & O2 & O3). split.
    - apply pairwise_app. split; [auto|]. split.
      + apply pairwise_cons. split; auto. intros y Hy. apply lt_le; auto.
      + intros x y Hx [<-|Hy]; auto.
    - intros x Hx. change (p :: s) with ([p] ++ s). rewrite !ties_app, <- !app_assoc. f_equal.
      unfold ties at 1 4. simpl. destruct (tied lt x p) eqn:E; [|simpl; rewrite app_nil_r; auto].
      replace (ties lt x s) with (@nil A); auto. symmetry. unfold ties.
      destruct (filter (tied lt x) s) as [|z t] eqn:F; auto. exfalso.
      assert (Hz : In z (filter (tied lt x) s)) by (rewrite F; simpl; auto). apply filter_In in Hz as [Hz T].
      unfold tied in *. apply andb_prop in E as [E1 E2]. apply andb_prop in T as [T1 T2]. apply negb_true_iff in E1, E2, T1, T2.
      pose proof (G2 z Hz) as C. rewrite (le_trans z x p) in C; auto. discriminate.
  Qed.
  Lemma fold_insert_stable b : forall a, incl (a ++ b) L -> ord a ->
    let r := fold_left (fun acc x => insert_at (bin_pos lt (List.length acc) acc x 0 (List.length acc)) x acc) b a in
    ord r /\ (forall x, In x L -> ties lt x r = ties lt x (a ++ b)).
  Proof.
    induction b as [|p b IH]; intros a Hi Ho; simpl; [rewrite app_nil_r; auto|].
    destruct (insert_stable a p) as [O T]; auto. { intros z Hz; apply Hi, in_or_app; auto. } { apply Hi, in_or_app; simpl; auto. }
    set (a' := insert_at _ p a) in *.
    assert (HP : Permutation (a' ++ b) (a ++ p :: b)). { unfold a'. etransitivity; [apply Permutation_app_tail, insert_at_perm|]. simpl. apply Permutation_middle. }
    destruct (IH a') as [O' T']; auto. { intros z Hz. apply Hi. eapply Permutation_in; eauto. }
    split; auto. intros x Hx. rewrite T'; auto. rewrite ties_app, T, <- ties_app, <- app_assoc; auto.
  Qed.
  Lemma small_sort_stable : in_order lt (small_sort lt L) /\ (forall x, In x L -> ties lt x (small_sort lt L) = ties lt x L).
  Proof.
    unfold small_sort. destruct (first_run lt L) as [a b] eqn:E. pose proof (first_run_perm _ _ _ _ E) as HP.
    destruct (first_run_stable L a b (incl_refl _) E) as [O T]. destruct (fold_insert_stable b a) as [O' T']; auto.
    { intros z Hz. eapply Permutation_in; eauto. }
    split; [exact O'|]. intros x Hx. rewrite T'; auto.
  Qed.
End S.
Lemma c97 {A} (lt : A -> A -> bool) l : Permutation (small_sort lt l) l /\
  (weak_order lt l -> in_order lt (small_sort lt l) /\ forall x, In x l -> ties lt x (small_sort lt l) = ties lt x l).
Proof. split; [apply small_sort_perm|]. intros W. apply small_sort_stable; auto. Qed.

(** there is only one stable sort *)
Lemma stable_unique {A} (lt : A -> A -> bool) (L : list A) (W : weak_order lt L) l : forall l', incl l L -> Permutation l l' ->
  in_order lt l -> in_order lt l' -> (forall x, In x L -> ties lt x l = ties lt x l') -> l = l'.
Proof.
  assert (I : forall x, In x L -> tied lt x x = true).
  { intros x Hx. unfold tied. destruct (lt x x) eqn:E; auto. destruct W as [T _]. pose proof (T x x Hx Hx E). congruence. }
  induction l as [|x t IH]; intros [|y t'] Hi P O O' T; auto.
  - apply Permutation_nil in P; discriminate.
  - symmetry in P. apply Permutation_nil in P; discriminate.
  - assert (Hx : In x L) by (apply Hi; simpl; auto).
    assert (Hy : In y L). { apply Hi. eapply Permutation_in; [symmetry; exact P|simpl; auto]. }
    assert (E : x = y).
    { assert (Exy : tied lt x y = true).
      { assert (Hy' : In y (x :: t)) by (eapply Permutation_in; [symmetry; exact P|simpl; auto]).
        assert (Hx' : In x (y :: t')) by (eapply Permutation_in; [exact P|simpl; auto]).
        destruct Hy' as [->|Hy']; auto. destruct Hx' as [->|Hx']; auto.
        apply in_split in Hy' as (b & c & ->). apply in_split in Hx' as (b' & c' & ->).
        unfold tied. rewrite (O' [] y b' x c' eq_refl), (O [] x b y c eq_refl). auto. }
      pose proof (T x Hx) as E. unfold ties in E. cbn [filter] in E. rewrite I, Exy in E by auto. congruence. }
    subst y. f_equal. apply IH.
    + intros z Hz; apply Hi; simpl; auto.
    + eapply Permutation_cons_inv; eauto.
    + intros a u b v c E. apply (O (x :: a) u b v c). rewrite E; auto.
    + intros a u b v c E. apply (O' (x :: a) u b v c). rewrite E; auto.
    + intros z Hz. pose proof (T z Hz) as E. unfold ties in *. cbn [filter] in E. destruct (tied lt z x); congruence.
Qed.

Section I.
  Context {A : Type} (leb : A -> A -> bool) (L : list A) (W : preorder leb L).
  Definition before (x y : A) : bool := negb (leb y x).
  Lemma before_weak : weak_order before L.
  Proof.
    destruct W as [T R]. unfold before. split.
    - intros x y Hx Hy E. apply negb_true_iff in E. apply negb_false_iff. destruct (T x y); auto. congruence.
    - intros x y z Hx Hy Hz E1 E2. apply negb_false_iff in E1, E2. apply negb_false_iff. apply (R z y x); auto.
  Qed.
  Lemma insert_perm x l : Permutation (insert leb x l) (x :: l).
  Proof. induction l as [|y l IH]; simpl; auto. destruct (leb x y); auto. rewrite IH. apply perm_swap. Qed.
  Lemma insert_before x l : In x L -> incl l L -> in_order before l ->
    in_order before (insert leb x l) /\ forall z, In z L -> ties before z (insert leb x l) = ties before z (x :: l).
  Proof.
    intros Hx. pose proof W as [T R]. induction l as [|y l IH]; intros Hl O.
    - simpl. split; auto. apply pairwise_cons; split; [simpl; tauto|apply pairwise_nil].
    - assert (Hy : In y L) by (apply Hl; simpl; auto). assert (Hl' : incl l L) by (intros z Hz; apply Hl; simpl; auto).
      apply pairwise_cons in O as [O1 O2]. simpl insert. destruct (leb x y) eqn:E.
      + split; auto. apply pairwise_cons. split.
        * unfold before in *. intros z [<-|Hz]; apply negb_false_iff; auto. apply (R x y z); auto. apply negb_false_iff, O1; auto.
        * apply pairwise_cons; auto.
      + destruct (IH Hl' O2) as [O' T']. assert (Eyx : leb y x = true) by (destruct (T x y); auto; congruence). split.
        * apply pairwise_cons. split; auto. intros z Hz. eapply Permutation_in in Hz; [|apply insert_perm]. destruct Hz as [<-|Hz]; auto.
          unfold before. apply negb_false_iff; auto.
        * intros z Hz. unfold ties in *. cbn [filter]. rewrite T' by auto. cbn [filter].
          destruct (tied before z y) eqn:E1; auto. destruct (tied before z x) eqn:E2; auto. exfalso.
          unfold tied, before in E1, E2. rewrite !negb_involutive in E1, E2. apply andb_prop in E1 as [E1 E1'], E2 as [E2 E2'].
          pose proof (R x z y Hx Hz Hy). intuition congruence.
  Qed.
  Lemma isort_before l : incl l L -> in_order before (isort leb l) /\ (forall z, In z L -> ties before z (isort leb l) = ties before z l).
  Proof.
    induction l as [|x l IH]; intros Hl; simpl. split; auto. intros a x b y c E. destruct a; discriminate.
    assert (Hl' : incl l L) by (intros z Hz; apply Hl; simpl; auto). destruct (IH Hl') as [O T].
    destruct (insert_before x (isort leb l)) as [O' T']; auto. { apply Hl; simpl; auto. } { intros z Hz. apply Hl'. eapply Permutation_in; [apply isort_perm|exact Hz]. }
    split; auto. intros z Hz. rewrite T' by auto. unfold ties in *. cbn [filter]. rewrite T by auto. auto.
  Qed.
  Lemma c97_key : small_sort (fun x y => negb (leb y x)) L = isort leb L.
  Proof.
    destruct (small_sort_stable before L before_weak) as [O T]. destruct (isort_before L (incl_refl _)) as [O' T'].
    apply (stable_unique before L before_weak); auto.
    - intros z Hz. eapply Permutation_in; [apply small_sort_perm|exact Hz].
    - etransitivity; [apply small_sort_perm|]. symmetry; apply isort_perm.
    - intros x Hx. rewrite T, T'; auto.
  Qed.
End I.
Lemma c97_unique {A} (lt : A -> A -> bool) l r : weak_order lt l -> Permutation r l -> in_order lt r ->
  (forall x, In x l -> ties lt x r = ties lt x l) -> r = small_sort lt l.
Proof.
  intros W P O T. destruct (small_sort_stable lt l W) as [O' T']. apply (stable_unique lt l W); auto.
  - intros z Hz. eapply Permutation_in; eauto.
  - etransitivity; [exact P|]. symmetry. apply small_sort_perm.
  - intros x Hx. rewrite T, T'; auto.
Qed.
Lemma c97_meets : exists s, sorter_ok s.
Proof. exists (fun lt l => small_sort lt l). apply small_sorter_ok. Qed.
