(** Lemmas about the primitives of Py.v. *)
From Verif Require Import Py.
From Coq Require Import Sorting.Sorted.

Ltac inv H := inversion H; subst; clear H.

(** ** res *)
Lemma rbind_Ok {A B} (m : res A) (f : A -> res B) b : rbind m f = Ok b <-> exists a, m = Ok a /\ f a = Ok b.
Proof.
  destruct m as [a|e]; simpl; split; intros H.
  - eauto.
  - destruct H as [a' [H1 H2]]; congruence.
  - discriminate.
  - destruct H as [a' [H1 H2]]; congruence.
Qed.

Lemma mapM_Ok {A B} (f : A -> res B) l bs : mapM f l = Ok bs <-> Forall2 (fun a b => f a = Ok b) l bs.
Proof.
  revert bs; induction l as [|a l IH]; intros bs; simpl.
  - split; intros H; [inv H; constructor | inv H; reflexivity].
  - rewrite rbind_Ok; split.
    + intros [b [Hb H]]. apply rbind_Ok in H. destruct H as [bs' [H1 H2]]. inv H2. constructor; auto. apply IH; auto.
    + intros H; inv H. exists y; split; auto. apply rbind_Ok. exists l'; split; auto. apply IH; auto.
Qed.

Lemma mapM_all {A B} (f : A -> res B) (g : A -> B) l : (forall a, In a l -> f a = Ok (g a)) -> mapM f l = Ok (map g l).
Proof.
  induction l as [|a l IH]; simpl; intros H; auto.
  rewrite H by auto. simpl. rewrite IH; auto.
Qed.

Lemma mapM_ext {A B} (f g : A -> res B) l : (forall a, In a l -> f a = g a) -> mapM f l = mapM g l.
Proof. induction l as [|a l IH]; simpl; intros H; auto. rewrite H by auto. destruct (g a); simpl; auto. rewrite IH; auto. Qed.

Lemma mapM_total {A B} (f : A -> res B) l : (forall a, In a l -> exists b, f a = Ok b) -> exists bs, mapM f l = Ok bs.
Proof.
  induction l as [|a l IH]; simpl; intros H; eauto.
  destruct (H a) as [b Hb]; auto. rewrite Hb; simpl. destruct IH as [bs Hbs]; auto. rewrite Hbs; simpl; eauto.
Qed.

Lemma foldM_app {A B} (f : B -> A -> res B) l1 l2 b :
  foldM f (l1 ++ l2) b = rbind (foldM f l1 b) (foldM f l2).
Proof. revert b; induction l1 as [|a l IH]; intros b; simpl; auto. destruct (f b a); simpl; auto. Qed.

Lemma foldM_ext {A B} (f g : B -> A -> res B) l b : (forall b a, In a l -> f b a = g b a) -> foldM f l b = foldM g l b.
Proof. revert b; induction l as [|a l IH]; intros b H; simpl; auto. rewrite H by (left; auto). destruct (g b a); simpl; auto. apply IH; intros; apply H; right; auto. Qed.

Lemma foldM_pure {A B} (f : B -> A -> B) l b : foldM (fun b a => Ok (f b a)) l b = Ok (fold_left f l b).
Proof. revert b; induction l; intros b; simpl; auto. Qed.

Lemma foldM_inv {A B} (P : B -> Prop) (f : B -> A -> res B) l b b' :
  (forall b a b', In a l -> P b -> f b a = Ok b' -> P b') -> P b -> foldM f l b = Ok b' -> P b'.
Proof.
  revert b; induction l as [|a l IH]; simpl; intros b H Hb He.
  - inv He; auto.
  - apply rbind_Ok in He. destruct He as [b1 [H1 H2]]. eapply IH; [| |eauto]; eauto.
Qed.

(** ** membership *)
Section Mem.
  Context {K : Type} `{EqB K}.
  Lemma eqb_true (x y : K) : eqb x y = true <-> x = y.
  Proof. destruct (eqb_spec x y); split; congruence. Qed.
  Lemma eqb_false (x y : K) : eqb x y = false <-> x <> y.
  Proof. destruct (eqb_spec x y); split; congruence. Qed.
  Lemma eqb_refl (x : K) : eqb x x = true.
  Proof. apply eqb_true; reflexivity. Qed.
  Lemma eqb_sym (x y : K) : eqb x y = eqb y x.
  Proof. destruct (eqb_spec x y), (eqb_spec y x); congruence. Qed.
  Lemma eq_dec_K (x y : K) : {x = y} + {x <> y}.
  Proof. destruct (eqb_spec x y); auto. Qed.
  Lemma mem_In (x : K) l : mem x l = true <-> In x l.
  Proof.
    unfold mem. rewrite existsb_exists. split.
    - intros [y [H1 H2]]. apply eqb_true in H2; subst; auto.
    - intros H1; exists x; split; auto. apply eqb_refl.
  Qed.
  Lemma mem_false (x : K) l : mem x l = false <-> ~ In x l.
  Proof. rewrite <- mem_In. destruct (mem x l); split; congruence. Qed.
  Lemma mem_spec (x : K) l : reflect (In x l) (mem x l).
  Proof. destruct (mem x l) eqn:E; constructor; [apply mem_In | apply mem_false]; auto. Qed.
  Lemma mem_perm (x : K) l l' : Permutation l l' -> mem x l = mem x l'.
  Proof. intros P. destruct (mem_spec x l), (mem_spec x l'); auto; exfalso; eauto using Permutation_in, Permutation_sym. Qed.

  (** ** sets *)
  Lemma sadd_In s (x y : K) : In y (sadd s x) <-> In y s \/ y = x.
  Proof.
    unfold sadd. destruct (mem_spec x s).
    - split; [auto | intros [?|?]; subst; auto].
    - rewrite in_app_iff; simpl. intuition.
  Qed.
  Lemma sadd_NoDup s (x : K) : NoDup s -> NoDup (sadd s x).
  Proof.
    unfold sadd. destruct (mem_spec x s); auto.
    intros Hs.
    apply (Permutation_NoDup (l := x :: s)). apply Permutation_cons_append. constructor; auto.
  Qed.
  Lemma sadd_incl s (x : K) : incl s (sadd s x).
  Proof. intros y Hy; apply sadd_In; auto. Qed.
  Lemma srem_In s (x y : K) : In y (srem s x) <-> In y s /\ y <> x.
  Proof. unfold srem. rewrite filter_In. rewrite negb_true_iff, eqb_false. intuition. Qed.
  Lemma NoDup_filter' {A} (f : A -> bool) l : NoDup l -> NoDup (filter f l).
  Proof.
    induction l; simpl; intros HH; auto. inv HH. destruct (f a); auto. constructor; auto.
    rewrite filter_In. tauto.
  Qed.
  Lemma srem_NoDup s (x : K) : NoDup s -> NoDup (srem s x).
  Proof. apply NoDup_filter'. Qed.
  Lemma fold_sadd_In l s (y : K) : In y (fold_left sadd l s) <-> In y s \/ In y l.
  Proof.
    revert s; induction l as [|a l IH]; intros s; simpl. tauto.
    rewrite IH, sadd_In. intuition.
  Qed.
  Lemma fold_sadd_NoDup l (s : list K) : NoDup s -> NoDup (fold_left sadd l s).
  Proof. revert s; induction l; intros s; simpl; auto using sadd_NoDup. Qed.
  Lemma sof_In l (y : K) : In y (sof l) <-> In y l.
  Proof. unfold sof. rewrite fold_sadd_In. simpl; tauto. Qed.
  Lemma sof_NoDup (l : list K) : NoDup (sof l).
  Proof. apply fold_sadd_NoDup; constructor. Qed.
  Lemma sof_id_aux l : forall (s : list K), NoDup (s ++ l) -> fold_left sadd l s = s ++ l.
  Proof.
    induction l as [|a l IH]; intros s Hs; simpl. rewrite app_nil_r; auto.
    unfold sadd at 2. destruct (mem_spec a s) as [Hi|Hi].
    - exfalso. apply NoDup_remove_2 in Hs. apply Hs, in_or_app; auto.
    - rewrite IH; rewrite <- app_assoc; auto.
  Qed.
  Lemma sof_id (l : list K) : NoDup l -> sof l = l.
  Proof. intros; unfold sof; rewrite sof_id_aux; auto. Qed.
  Lemma subset_spec (s1 s2 : list K) : subset s1 s2 = true <-> incl s1 s2.
  Proof.
    unfold subset. rewrite forallb_forall. unfold incl. split; intros Hx x Hi; specialize (Hx x Hi).
    apply mem_In; auto. apply mem_In in Hx; auto.
  Qed.
  Lemma subset_false (s1 s2 : list K) : subset s1 s2 = false <-> ~ incl s1 s2.
  Proof. rewrite <- subset_spec. destruct (subset s1 s2); split; congruence. Qed.
End Mem.

(** ** dict *)
Section DictL.
  Context {K V : Type} `{EqB K}.
  Implicit Types d : list (K * V).

  Lemma dget_dset_eq d k v : dget (dset d k v) k = Some v.
  Proof. induction d as [|[k' v'] d IH]; simpl. rewrite eqb_refl; auto.
    destruct (eqb k k') eqn:E; simpl; rewrite E; auto. Qed.
  Lemma dget_dset_neq d k k' v : k' <> k -> dget (dset d k v) k' = dget d k'.
  Proof.
    intros Hn. induction d as [|[k2 v2] d IH]; simpl.
    - apply eqb_false in Hn. rewrite Hn; auto.
    - destruct (eqb_spec k k2); subst; simpl.
      + apply eqb_false in Hn. rewrite Hn; auto.
      + rewrite IH; auto.
  Qed.
  Lemma dget_dset d k k' v : dget (dset d k v) k' = if eqb k' k then Some v else dget d k'.
  Proof. destruct (eqb_spec k' k); subst. apply dget_dset_eq. apply dget_dset_neq; auto. Qed.
  Lemma dget_In d k v : dget d k = Some v -> In (k, v) d.
  Proof. induction d as [|[k' v'] d IH]; simpl; [congruence|]. destruct (eqb_spec k k'); subst; intros E; [inv E|]; auto. Qed.
  Lemma dget_None d k : dget d k = None <-> ~ In k (dkeys d).
  Proof.
    induction d as [|[k' v'] d IH]; simpl. tauto.
    destruct (eqb_spec k k'); subst. split; [congruence | tauto]. rewrite IH. intuition.
  Qed.
  Lemma dget_Some_key d k v : dget d k = Some v -> In k (dkeys d).
  Proof. intros E. apply dget_In in E. unfold dkeys. apply in_map_iff. exists (k, v); auto. Qed.
  Lemma dkeys_dget d k : In k (dkeys d) -> exists v, dget d k = Some v.
  Proof. intros Hi. destruct (dget d k) eqn:E; eauto. apply dget_None in E; tauto. Qed.
  Lemma In_dget d k v : NoDup (dkeys d) -> In (k, v) d -> dget d k = Some v.
  Proof.
    induction d as [|[k' v'] d IH]; simpl; [tauto|]. intros Hn Hi. inv Hn.
    destruct (eqb_spec k k'); subst.
    - destruct Hi as [Hi|Hi]; [inv Hi; auto|]. exfalso; apply H2. apply in_map_iff. exists (k', v); auto.
    - destruct Hi as [Hi|Hi]; [inv Hi; congruence|]. auto.
  Qed.
  Lemma dmem_In d k : dmem d k = true <-> In k (dkeys d).
  Proof. unfold dmem. destruct (dget d k) eqn:E. split; eauto using dget_Some_key.
    apply dget_None in E. split; [congruence|tauto]. Qed.
  Lemma dmem_false d k : dmem d k = false <-> ~ In k (dkeys d).
  Proof. rewrite <- dmem_In. destruct (dmem d k); split; congruence. Qed.
  Lemma dkeys_dset_in d k v : In k (dkeys d) -> dkeys (dset d k v) = dkeys d.
  Proof.
    induction d as [|[k' v'] d IH]; simpl; [tauto|]. intros Hi. destruct (eqb_spec k k'); subst; simpl; auto.
    rewrite IH; auto. intuition congruence.
  Qed.
  Lemma dkeys_dset_notin d k v : ~ In k (dkeys d) -> dset d k v = d ++ [(k, v)].
  Proof.
    induction d as [|[k' v'] d IH]; simpl; auto. intros Hi. destruct (eqb_spec k k'); subst; [tauto|].
    rewrite IH; auto.
  Qed.
  Lemma dkeys_dset_In d k v k' : In k' (dkeys (dset d k v)) <-> In k' (dkeys d) \/ k' = k.
  Proof.
    destruct (in_dec eq_dec_K k (dkeys d)) as [Hi|Hi].
    - rewrite dkeys_dset_in; auto. intuition congruence.
    - rewrite dkeys_dset_notin; auto. unfold dkeys. rewrite map_app, in_app_iff; simpl. intuition.
  Qed.
  Lemma dset_NoDup d k v : NoDup (dkeys d) -> NoDup (dkeys (dset d k v)).
  Proof.
    intros Hd. destruct (in_dec eq_dec_K k (dkeys d)) as [Hi|Hi].
    - rewrite dkeys_dset_in; auto.
    - rewrite dkeys_dset_notin; auto. unfold dkeys in *. rewrite map_app; simpl.
      apply (Permutation_NoDup (l := k :: map fst d)). apply Permutation_cons_append. constructor; auto.
  Qed.
  Lemma dset_same d k v : dget d k = Some v -> dset d k v = d.
  Proof.
    induction d as [|[k' v'] d IH]; simpl; [congruence|]. destruct (eqb_spec k k'); subst; intros E; [inv E; auto|].
    rewrite IH; auto.
  Qed.
  Lemma dget_app d1 d2 k : dget (d1 ++ d2) k = match dget d1 k with Some v => Some v | None => dget d2 k end.
  Proof. induction d1 as [|[k' v'] d IH]; simpl; auto. destruct (eqb k k'); auto. Qed.
  Lemma dget_dpop d k k' : dget (dpop d k) k' = if eqb k' k then None else dget d k'.
  Proof.
    unfold dpop. induction d as [|[k2 v2] d IH]; simpl. destruct (eqb k' k); auto.
    destruct (eqb_spec k k2); subst; simpl.
    - rewrite IH. destruct (eqb_spec k' k2); auto.
    - destruct (eqb_spec k' k2); subst; auto. destruct (eqb_spec k2 k); congruence.
  Qed.
  Lemma dpop_NoDup d k : NoDup (dkeys d) -> NoDup (dkeys (dpop d k)).
  Proof.
    unfold dpop, dkeys. induction d as [|[k' v'] d IH]; simpl; auto. intros HN; inv HN.
    destruct (negb (eqb k k')); simpl; auto. constructor; auto.
    intros Hi. apply H2. apply in_map_iff in Hi. destruct Hi as [x [E Hx]]. apply filter_In in Hx.
    apply in_map_iff. exists x; tauto.
  Qed.
  Lemma dkeys_dpop_In d k k' : In k' (dkeys (dpop d k)) <-> In k' (dkeys d) /\ k' <> k.
  Proof.
    unfold dkeys, dpop. rewrite !in_map_iff. split.
    - intros [x [E Hx]]. apply filter_In in Hx. destruct Hx as [Hx Hn]. apply negb_true_iff, eqb_false in Hn.
      split; [exists x; auto|]. congruence.
    - intros [[x [E Hx]] Hn]. exists x; split; auto. apply filter_In; split; auto.
      apply negb_true_iff, eqb_false. congruence.
  Qed.
  Lemma dgetE_Ok d k v : dgetE d k = Ok v <-> dget d k = Some v.
  Proof. unfold dgetE. destruct (dget d k); split; congruence. Qed.
  Lemma dget_In_NoDup d k v : NoDup (dkeys d) -> (dget d k = Some v <-> In (k, v) d).
  Proof. split; eauto using dget_In, In_dget. Qed.
  Lemma dvals_In d v : In v (dvals d) <-> exists k, In (k, v) d.
  Proof. unfold dvals. rewrite in_map_iff. split. intros [[k v'] [E Hi]]; simpl in *; subst; eauto. intros [k Hi]; exists (k, v); auto. Qed.
End DictL.

Lemma dget_map {K V W} `{EqB K} (f : V -> W) (d : list (K * V)) k :
  dget (map (fun p => (fst p, f (snd p))) d) k = option_map f (dget d k).
Proof. induction d as [|[k' v'] d IH]; simpl; auto. destruct (eqb k k'); auto. Qed.

Lemma dget_map2 {K V W} `{EqB K} (f : K -> V -> W) (d : list (K * V)) k :
  dget (map (fun p => (fst p, f (fst p) (snd p))) d) k = option_map (f k) (dget d k).
Proof. induction d as [|[k' v'] d IH]; simpl; auto. destruct (eqb_spec k k'); subst; auto. Qed.

Lemma dget_combine {K V} `{EqB K} (ks : list K) (vs : list V) k v :
  dget (combine ks vs) k = Some v -> In v vs.
Proof. intros E. apply dget_In, in_combine_r in E; auto. Qed.

Section Dgets.
  Context {K V : Type} `{EqB K}.
  Lemma dgets_dset (d : list (K * list V)) k k' v : dgets (dset d k v) k' = if eqb k' k then v else dgets d k'.
  Proof. unfold dgets. rewrite dget_dset. destruct (eqb k' k); auto. Qed.
  Lemma dgets_dset_eq (d : list (K * list V)) k v : dgets (dset d k v) k = v.
  Proof. rewrite dgets_dset, eqb_refl; auto. Qed.
  Lemma dgets_dset_neq (d : list (K * list V)) k k' v : k' <> k -> dgets (dset d k v) k' = dgets d k'.
  Proof. intros Hn. rewrite dgets_dset. apply eqb_false in Hn; rewrite Hn; auto. Qed.
End Dgets.

(** ** sorting *)
Section SortL.
  Context {A : Type} (leb : A -> A -> bool).
  Lemma insert_perm x l : Permutation (insert leb x l) (x :: l).
  Proof.
    induction l as [|y l IH]; simpl; auto. destruct (leb x y); auto.
    eapply perm_trans; [constructor; apply IH|]. apply perm_swap.
  Qed.
  Lemma isort_perm l : Permutation (isort leb l) l.
  Proof. induction l as [|x l IH]; simpl; auto. eapply perm_trans; [apply insert_perm|]. auto. Qed.
  Lemma isort_In x l : In x (isort leb l) <-> In x l.
  Proof. split; apply Permutation_in; [|apply Permutation_sym]; apply isort_perm. Qed.
  Lemma isort_length l : List.length (isort leb l) = List.length l.
  Proof. apply Permutation_length, isort_perm. Qed.
  Context (total : forall x y, leb x y = true \/ leb y x = true)
          (trans : forall x y z, leb x y = true -> leb y z = true -> leb x z = true).
  Lemma insert_sorted x l : StronglySorted (fun a b => leb a b = true) l ->
    StronglySorted (fun a b => leb a b = true) (insert leb x l).
  Proof.
    induction l as [|y l IH]; simpl; intros S. repeat constructor.
    destruct (leb x y) eqn:E.
    - constructor; auto. inv S. constructor; auto. eapply Forall_impl; [|eassumption]. simpl; intros; eauto.
    - inv S. constructor; auto. eapply Permutation_Forall. apply Permutation_sym, insert_perm.
      constructor; auto. destruct (total x y); congruence.
  Qed.
  Lemma isort_sorted l : StronglySorted (fun a b => leb a b = true) (isort leb l).
  Proof. induction l; simpl. constructor. apply insert_sorted; auto. Qed.
  Lemma isort_head x t l : isort leb l = x :: t -> forall y, In y l -> leb x y = true.
  Proof.
    intros E y Hy. pose proof (isort_sorted l) as S. rewrite E in S. inv S.
    apply (isort_In y l) in Hy. rewrite E in Hy. destruct Hy; subst.
    - destruct (total y y); auto.
    - rewrite Forall_forall in H2; auto.
  Qed.
End SortL.

Lemma ss_perm_unique {A} (R : A -> A -> Prop) :
  (forall x y, R x y -> R y x -> x = y) ->
  forall l l', StronglySorted R l -> StronglySorted R l' -> Permutation l l' -> l = l'.
Proof.
  intros anti. induction l as [|x l IH]; intros l' S S' P.
  - apply Permutation_nil in P; auto.
  - destruct l' as [|y l']. apply Permutation_sym, Permutation_nil in P; discriminate.
    inv S. inv S'.
    assert (x = y).
    { assert (Hx : In x (y :: l')) by (eapply Permutation_in; [apply P|left; auto]).
      assert (Hy : In y (x :: l)) by (eapply Permutation_in; [apply Permutation_sym, P|left; auto]).
      destruct Hx as [|Hx]; auto. destruct Hy as [|Hy]; auto.
      rewrite Forall_forall in *. apply anti; auto. }
    subst. f_equal. apply IH; auto. eapply Permutation_cons_inv; eauto.
Qed.

Lemma Zleb_total x y : Z.leb x y = true \/ Z.leb y x = true.
Proof. rewrite !Z.leb_le; lia. Qed.
Lemma Zleb_trans x y z : Z.leb x y = true -> Z.leb y z = true -> Z.leb x z = true.
Proof. rewrite !Z.leb_le; lia. Qed.
Lemma Zleb_anti x y : Z.leb x y = true -> Z.leb y x = true -> x = y.
Proof. rewrite !Z.leb_le; lia. Qed.

Lemma isort_Z_unique l l' : Permutation l l' -> isort Z.leb l = isort Z.leb l'.
Proof.
  intros P. eapply ss_perm_unique; [apply Zleb_anti| | |].
  - apply isort_sorted; [apply Zleb_total|apply Zleb_trans].
  - apply isort_sorted; [apply Zleb_total|apply Zleb_trans].
  - eapply perm_trans; [apply isort_perm|]. eapply perm_trans; [apply P|apply Permutation_sym, isort_perm].
Qed.

(** ** strings *)
Lemma ascii_compare_eq a b : Ascii.compare a b = Eq -> a = b.
Proof. apply Ascii.compare_eq_iff. Qed.

Lemma ascii_compare_trans_lt a b c : Ascii.compare a b = Lt -> Ascii.compare b c = Lt -> Ascii.compare a c = Lt.
Proof. unfold Ascii.compare. rewrite !N.compare_lt_iff. lia. Qed.

Lemma str_compare_trans_le : forall a b c,
  String.compare a b <> Gt -> String.compare b c <> Gt -> String.compare a c <> Gt.
Proof.
  induction a as [|x a IH]; intros b c H1 H2; destruct b as [|y b], c as [|z c]; simpl in *; try congruence.
  destruct (Ascii.compare x y) eqn:E1; try congruence.
  - apply ascii_compare_eq in E1; subst. destruct (Ascii.compare y z); try congruence. eapply IH; eauto.
  - destruct (Ascii.compare y z) eqn:E2; try congruence.
    + apply ascii_compare_eq in E2; subst. rewrite E1; congruence.
    + rewrite (ascii_compare_trans_lt _ _ _ E1 E2); congruence.
Qed.

Lemma str_leb_spec a b : str_leb a b = true <-> String.compare a b <> Gt.
Proof. unfold str_leb, String.leb. destruct (String.compare a b); split; congruence. Qed.
Lemma str_leb_trans a b c : str_leb a b = true -> str_leb b c = true -> str_leb a c = true.
Proof. rewrite !str_leb_spec. apply str_compare_trans_le. Qed.
Lemma str_leb_total a b : str_leb a b = true \/ str_leb b a = true.
Proof. unfold str_leb. pose proof (String.leb_total a b) as H. destruct (String.leb a b), (String.leb b a); auto; destruct H; auto. Qed.
Lemma str_leb_anti a b : str_leb a b = true -> str_leb b a = true -> a = b.
Proof.
  unfold str_leb. intros H1 H2. apply String.leb_antisym; auto; rewrite ?H1, ?H2; exact I.
Qed.
Lemma str_leb_refl a : str_leb a a = true.
Proof. destruct (str_leb_total a a); auto. Qed.

(** ** orders *)
Lemma zord_In o i l x : ord_ok o -> In x (zord o i l) <-> In x l.
Proof. intros [P _]. split; apply Permutation_in; [|apply Permutation_sym]; apply P. Qed.
Lemma sord_In o i l x : ord_ok o -> In x (sord o i l) <-> In x l.
Proof. intros [_ P]. split; apply Permutation_in; [|apply Permutation_sym]; apply P. Qed.
Lemma ord_id_ok : ord_ok ord_id.
Proof. split; intros; simpl; apply Permutation_refl. Qed.
Lemma ord_rev_ok : ord_ok ord_rev.
Proof. split; intros; simpl; apply Permutation_sym, Permutation_rev. Qed.

(** ** rationals *)
Open Scope Qc_scope.
Lemma qeqb_true x y : qeqb x y = true <-> x = y.
Proof. unfold qeqb. destruct (Qc_eq_dec x y); split; congruence. Qed.
Lemma qeqb_false x y : qeqb x y = false <-> x <> y.
Proof. unfold qeqb. destruct (Qc_eq_dec x y); split; congruence. Qed.
Lemma qltb_lt x y : qltb x y = true <-> x < y.
Proof. unfold qltb. rewrite Qclt_alt. destruct (x ?= y); split; congruence. Qed.
Lemma qleb_le x y : qleb x y = true <-> x <= y.
Proof. unfold qleb. rewrite Qcle_alt. destruct (x ?= y); split; congruence. Qed.
Lemma qltb_false x y : qltb x y = false <-> y <= x.
Proof. rewrite <- (negb_involutive (qltb x y)), negb_false_iff, negb_true_iff. split.
  - intros Hf. apply Qcnot_lt_le. rewrite <- qltb_lt. congruence.
  - intros Hf. destruct (qltb x y) eqn:E; auto. apply qltb_lt in E. exfalso. eapply Qclt_not_le; eauto. Qed.
Lemma qleb_false x y : qleb x y = false <-> y < x.
Proof. split.
  - intros Hf. apply Qcnot_le_lt. rewrite <- qleb_le. congruence.
  - intros Hf. destruct (qleb x y) eqn:E; auto. apply qleb_le in E. exfalso. eapply Qclt_not_le; eauto. Qed.

Lemma fold_plus_acc l a : fold_left Qcplus l a = a + fold_left Qcplus l 0.
Proof.
  revert a; induction l as [|x l IH]; intros a; simpl. ring.
  rewrite IH, (IH (0 + x)). ring.
Qed.
Lemma qsum_nil : qsum [] = 0. Proof. reflexivity. Qed.
Lemma qsum_cons x l : qsum (x :: l) = x + qsum l.
Proof. unfold qsum; simpl. rewrite fold_plus_acc. ring. Qed.
Lemma qsum_app l1 l2 : qsum (l1 ++ l2) = qsum l1 + qsum l2.
Proof. induction l1; simpl. rewrite qsum_nil; ring. rewrite !qsum_cons, IHl1; ring. Qed.
Lemma qsum_perm l l' : Permutation l l' -> qsum l = qsum l'.
Proof. induction 1; rewrite ?qsum_cons; try congruence; try ring. Qed.
Lemma fold_mult_acc l a : fold_left Qcmult l a = a * fold_left Qcmult l 1.
Proof.
  revert a; induction l as [|x l IH]; intros a; simpl. ring.
  rewrite IH, (IH (1 * x)). ring.
Qed.
Lemma qprod_nil : qprod [] = 1. Proof. reflexivity. Qed.
Lemma qprod_cons x l : qprod (x :: l) = x * qprod l.
Proof. unfold qprod; simpl. rewrite fold_mult_acc. ring. Qed.
Lemma qprod_app l1 l2 : qprod (l1 ++ l2) = qprod l1 * qprod l2.
Proof. induction l1; simpl. rewrite qprod_nil; ring. rewrite !qprod_cons, IHl1; ring. Qed.
Lemma qprod_perm l l' : Permutation l l' -> qprod l = qprod l'.
Proof. induction 1; rewrite ?qprod_cons; try congruence; try ring. Qed.
Lemma qsum_map_ext {A} (f g : A -> Qc) l : (forall x, In x l -> f x = g x) -> qsum (map f l) = qsum (map g l).
Proof. intros E. f_equal. apply map_ext_in; auto. Qed.
Lemma qprod_map_ext {A} (f g : A -> Qc) l : (forall x, In x l -> f x = g x) -> qprod (map f l) = qprod (map g l).
Proof. intros E. f_equal. apply map_ext_in; auto. Qed.
Lemma qsum_map_mult {A} (f : A -> Qc) c l : qsum (map (fun x => c * f x) l) = c * qsum (map f l).
Proof. induction l; simpl. rewrite qsum_nil; ring. rewrite !qsum_cons, IHl; ring. Qed.
Lemma qsum_map_plus {A} (f g : A -> Qc) l : qsum (map (fun x => f x + g x) l) = qsum (map f l) + qsum (map g l).
Proof. induction l; simpl. rewrite !qsum_nil; ring. rewrite !qsum_cons, IHl; ring. Qed.
Lemma qsum_map_zero {A} (f : A -> Qc) l : (forall x, In x l -> f x = 0) -> qsum (map f l) = 0.
Proof. induction l; simpl; intros Hz; auto. rewrite qsum_cons, IHl, Hz; auto. Qed.
Lemma qprod_map_mult {A} (f g : A -> Qc) l : qprod (map (fun x => f x * g x) l) = qprod (map f l) * qprod (map g l).
Proof. induction l; simpl. rewrite !qprod_nil; ring. rewrite !qprod_cons, IHl; ring. Qed.
Lemma qprod_map_one {A} (f : A -> Qc) l : (forall x, In x l -> f x = 1) -> qprod (map f l) = 1.
Proof. induction l; simpl; intros Hz; auto. rewrite qprod_cons, IHl, Hz; auto. Qed.

Lemma Qcle_0_plus x y : 0 <= x -> 0 <= y -> 0 <= x + y.
Proof. intros. replace 0 with (0 + 0) by ring. apply Qcplus_le_compat; auto. Qed.
Lemma Qcle_0_mult x y : 0 <= x -> 0 <= y -> 0 <= x * y.
Proof. intros H1 H2. replace 0 with (0 * y) by ring. apply Qcmult_le_compat_r; auto. Qed.
Lemma qsum_nonneg l : (forall x, In x l -> 0 <= x) -> 0 <= qsum l.
Proof. induction l; intros Hn. apply Qcle_refl. rewrite qsum_cons. apply Qcle_0_plus; [apply Hn; left; auto|]. apply IHl; intros; apply Hn; right; auto. Qed.
Lemma qprod_nonneg l : (forall x, In x l -> 0 <= x) -> 0 <= qprod l.
Proof. induction l; intros Hn. rewrite qprod_nil. discriminate. rewrite qprod_cons. apply Qcle_0_mult; [apply Hn; left; auto|]. apply IHl; intros; apply Hn; right; auto. Qed.
Lemma plus_zero_nonneg x y : 0 <= x -> 0 <= y -> x + y = 0 -> x = 0 /\ y = 0.
Proof.
  intros Hx Hy E. assert (x = 0).
  { apply Qcle_antisym; auto. rewrite <- E. replace x with (x + 0) at 1 by ring.
    apply Qcplus_le_compat; auto. apply Qcle_refl. }
  subst. split; auto. rewrite <- E; ring.
Qed.
Lemma qsum_zero_nonneg l : (forall x, In x l -> 0 <= x) -> qsum l = 0 -> forall x, In x l -> x = 0.
Proof.
  induction l as [|a l IH]; simpl; intros Hn E x Hx; [tauto|]. rewrite qsum_cons in E.
  apply plus_zero_nonneg in E; auto. 2: apply qsum_nonneg; auto. destruct E.
  destruct Hx; subst; auto.
Qed.
Lemma qdiv_nonneg x y : 0 <= x -> 0 <= y -> 0 <= x / y.
Proof.
  intros Hx Hy. unfold Qcdiv. apply Qcle_0_mult; auto.
  destruct (Qc_eq_dec y 0) as [->|Hn]. unfold Qcle; simpl. discriminate.
  apply Qcnot_lt_le. intros Hl. assert (Hyp : 0 < y) by (apply Qcle_lt_or_eq in Hy; destruct Hy; congruence).
  assert (E : y * /y = 1) by (apply Qcmult_inv_r; auto).
  assert (y * /y < 0).
  { rewrite Qcmult_comm. replace 0 with (0 * y) by ring. apply Qcmult_lt_compat_r; auto. }
  rewrite E in H. discriminate.
Qed.
Close Scope Qc_scope.

(** ** Permutations of concatenations *)
Lemma pull_skip {A} (a b L X : list A) : Permutation L (a ++ X) -> Permutation (b ++ L) (a ++ b ++ X).
Proof. intros H. rewrite H. rewrite !app_assoc. apply Permutation_app_tail. apply Permutation_app_comm. Qed.
Lemma pull_head {A} (a r L L' : list A) : Permutation L (a ++ L') -> Permutation r L' -> Permutation (a ++ r) L.
Proof. intros H1 H2. rewrite H1, H2. reflexivity. Qed.
Lemma perm_nil_r {A} (a b : list A) : Permutation (a ++ []) (b ++ []) -> Permutation a b.
Proof. rewrite !app_nil_r. auto. Qed.
Ltac perm_pull := first [ apply Permutation_refl | apply pull_skip; perm_pull ].
Ltac perm_norm :=
  repeat match goal with
         | |- context [@cons ?T ?x ?l] => lazymatch l with @nil _ => fail | _ => change (@cons T x l) with ([x] ++ l) end
         end.
Ltac perm :=
  perm_norm; apply perm_nil_r; rewrite <- ?app_assoc; cbn [app]; perm_norm;
  repeat (eapply pull_head; [perm_pull|]); try apply Permutation_refl.
Goal forall (x y : nat) a b c, Permutation (x :: a ++ y :: b ++ c) (c ++ [y] ++ b ++ x :: a).
Proof. intros. perm. Qed.
