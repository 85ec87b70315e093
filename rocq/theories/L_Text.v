(** Keys made of potential entries. *)
From Coq Require Import Ascii Sorting.Sorted.
From Verif Require Import Py M_Graph M_Node M_Pptc M_Serde M_Csv M_Text Spec SpecNet SpecPot SpecText L_Base L_Table L_Ids L_Apply L_Csv L_P4.
Open Scope nat_scope.

Lemma cut_unique c a : forall a' b b', free c a -> free c a' -> (a ++ String c b = a' ++ String c b')%string -> a = a' /\ b = b'.
Proof.
  induction a as [|x a IH]; intros [|x' a'] b b' H H' E; simpl in E.
  - injection E as E. auto.
  - injection E as E _. subst x'. apply free_cons in H'. tauto.
  - injection E as E _. subst x. apply free_cons in H. tauto.
  - injection E as <- E. apply free_cons in H. apply free_cons in H'. destruct (IH a' b b') as [<- <-]; tauto.
Qed.
Definition item (p : Z * string) : string := (str_of_Z (fst p) ++ "=" ++ snd p)%string.
Lemma int_free c z : nat_of_ascii c <> 45 -> (nat_of_ascii c < 48 \/ 57 < nat_of_ascii c) -> free c (str_of_Z z).
Proof. intros H1 H2 H. apply int_chars in H. lia. Qed.
Lemma item_inj p q : item p = item q -> p = q.
Proof.
  destruct p as [k v], q as [k' v']. unfold item. cbn [fst snd]. intros E. apply cut_unique in E; try (apply int_free; vm_compute; [discriminate|right; lia]).
  destruct E as [E ->]. apply str_of_Z_inj in E. congruence.
Qed.
Lemma item_some p : item p <> EmptyString.
Proof. unfold item. destruct (str_of_Z (fst p)); discriminate. Qed.
Lemma join_bar_cons x y l : join "|" (x :: y :: l) = (x ++ String bar (join "|" (y :: l)))%string.
Proof. reflexivity. Qed.
Lemma split_join l : l <> [] -> Forall (free bar) l -> split bar (join "|" l) = l.
Proof.
  induction l as [|x [|y l] IH]; intros Hl F; [congruence| |]; inversion F; subst.
  - apply split_free; auto.
  - rewrite join_bar_cons, split_app, split_free, IH by (auto; discriminate). reflexivity.
Qed.
Lemma join_inj l m : Forall (fun s => free bar s /\ s <> EmptyString) l -> Forall (fun s => free bar s /\ s <> EmptyString) m -> join "|" l = join "|" m -> l = m.
Proof.
  intros F G E. assert (F' : Forall (free bar) l) by (eapply Forall_impl; [|exact F]; intros s Hs; apply Hs). assert (G' : Forall (free bar) m) by (eapply Forall_impl; [|exact G]; intros s Hs; apply Hs).
  destruct l as [|x l], m as [|y m]; auto.
  - exfalso. inversion G as [|? ? [_ Q] _]; subst. simpl in E. destruct m; [congruence|]. destruct y; [congruence|discriminate].
  - exfalso. inversion F as [|? ? [_ Q] _]; subst. simpl in E. destruct l; [congruence|]. destruct x; [congruence|discriminate].
  - apply (f_equal (split bar)) in E. rewrite !split_join in E by (auto; discriminate). exact E.
Qed.

Lemma sorted_unique (l : list (Z * string)) : forall m, NoDup (map fst l) -> StronglySorted (fun p q => Z.leb (fst p) (fst q) = true) l -> StronglySorted (fun p q => Z.leb (fst p) (fst q) = true) m -> Permutation l m -> l = m.
Proof.
  induction l as [|p l IH]; intros m N S T P. { apply Permutation_nil in P. auto. }
  destruct m as [|q m]. { apply Permutation_sym, Permutation_nil in P. auto. }
  assert (E : p = q).
  { inversion S as [|? ? S1 S2]; subst. inversion T as [|? ? T1 T2]; subst. rewrite Forall_forall in S2, T2.
    assert (Hp : In p (q :: m)) by (apply (Permutation_in _ P); left; auto). destruct Hp as [Hp|Hp]; auto.
    assert (Hq : In q (p :: l)) by (apply (Permutation_in _ (Permutation_sym P)); left; auto). destruct Hq as [Hq|Hq]; auto.
    specialize (S2 q Hq). specialize (T2 p Hp). apply Z.leb_le in S2. apply Z.leb_le in T2. inversion N as [|? ? Hk _]; subst. exfalso. apply Hk.
    replace (fst p) with (fst q) by lia. apply in_map; auto. }
  subst q. f_equal. apply IH.
  - inversion N; auto.
  - inversion S; auto.
  - inversion T; auto.
  - apply Permutation_cons_inv with p. auto.
Qed.
Lemma keys_unique e e' : NoDup (map fst (pe_map e)) -> (get_entry_keys e = get_entry_keys e' <-> same_assignment e e').
Proof.
  intros N. unfold get_entry_keys, same_assignment. split.
  - intros E. eapply Permutation_trans; [apply Permutation_sym, isort_perm|]. rewrite E. apply isort_perm.
  - intros P. assert (L : forall l, StronglySorted (fun p q : Z * string => Z.leb (fst p) (fst q) = true) (isort (fun p q => Z.leb (fst p) (fst q)) l)).
    { apply isort_sorted. { intros x y. destruct (Z.leb_spec (fst x) (fst y)), (Z.leb_spec (fst y) (fst x)); auto; lia. } { intros x y z. rewrite !Z.leb_le. lia. } }
    apply sorted_unique; auto.
    + eapply Permutation_NoDup; [|exact N]. apply Permutation_map, Permutation_sym, isort_perm.
    + eapply Permutation_trans; [apply isort_perm|]. eapply Permutation_trans; [exact P|]. apply Permutation_sym, isort_perm.
Qed.
Lemma items_plain e : plain_entry e -> Forall (fun s => free bar s /\ s <> EmptyString) (map item (get_entry_keys e)).
Proof.
  intros [_ H]. apply Forall_forall. intros s Hs. apply in_map_iff in Hs. destruct Hs as [[k v] [<- Hp]]. unfold get_entry_keys in Hp. apply isort_In in Hp.
  split; [|apply item_some]. unfold item. cbn [fst snd]. apply free_app. split; [apply int_free; vm_compute; [discriminate|right; lia]|]. apply free_cons. split; [discriminate|]. apply (H k v Hp).
Qed.
Theorem c58_keys e e' : plain_entry e -> plain_entry e' -> (fst (get_kv e) = fst (get_kv e') <-> same_assignment e e').
Proof.
  intros H H'. rewrite <- keys_unique by apply H. unfold get_kv. cbn [fst]. change (fun p : Z * string => (str_of_Z (fst p) ++ "=" ++ snd p)%string) with item. split; [|congruence].
  intros E. apply join_inj in E; try (apply items_plain; auto). revert E. generalize (get_entry_keys e) as l, (get_entry_keys e') as m.
  induction l as [|p l IH]; intros [|q m] E; simpl in E; try discriminate; auto. injection E as E1 E2. apply item_inj in E1. subst. f_equal. auto.
Qed.

Lemma dset_new {V} (d : list (string * V)) k v : ~ In k (dkeys d) -> dset d k v = (d ++ [(k, v)])%list.
Proof.
  induction d as [|[k1 v1] d IH]; intros H; [reflexivity|]. cbn [dset]. destruct (eqb_spec k k1) as [->|Hne]. { exfalso. apply H. left; auto. }
  rewrite IH; auto. intros Hk. apply H. right; auto.
Qed.
Theorem c58_dict ps : Forall plain_entry (List.concat ps) ->
  (forall i k e e', nth_error (List.concat ps) i = Some e -> nth_error (List.concat ps) k = Some e' -> same_assignment e e' -> i = k) ->
  potentials_to_dict ps = map get_kv (List.concat ps).
Proof.
  intros F D. unfold potentials_to_dict. rewrite Forall_forall in F.
  assert (N : NoDup (map fst (map get_kv (List.concat ps)))).
  { rewrite map_map. apply NoDup_nth_error. intros i k Hi E. rewrite map_length in Hi. destruct (nth_error (List.concat ps) i) as [e|] eqn:Ei; [|apply nth_error_None in Ei; lia].
    rewrite (map_nth_error _ _ _ Ei) in E. destruct (nth_error (List.concat ps) k) as [e'|] eqn:Ek.
    - rewrite (map_nth_error _ _ _ Ek) in E. injection E as E. apply (D i k e e'); auto. apply c58_keys; [| |exact E]; apply F; eapply nth_error_In; eauto.
    - symmetry in E. apply nth_error_None in Ek. assert (Q : nth_error (map (fun x => fst (get_kv x)) (List.concat ps)) k = None) by (apply nth_error_None; rewrite map_length; auto). congruence. }
  revert N. generalize (map get_kv (List.concat ps)) as l. clear. intros l N.
  assert (G : forall acc, NoDup (map fst (acc ++ l)) -> fold_left (fun d kv => dset d (fst kv) (snd kv)) l acc = (acc ++ l)%list).
  { clear N. induction l as [|[k v] l IH]; intros acc N; simpl. { rewrite List.app_nil_r; auto. }
    rewrite dset_new.
    - rewrite IH; rewrite <- List.app_assoc; auto.
    - rewrite map_app in N. cbn [map fst] in N. apply NoDup_remove_2 in N. intros H. apply N. apply in_or_app. left. exact H. }
  apply (G []). exact N.
Qed.
Theorem c58_table dm vs f p : proper_scope dm vs -> (forall v x, In v vs -> In x (dm v) -> ~ In "|"%char (list_ascii_of_string x)) -> is_table dm vs f p ->
  potentials_to_dict [p] = map get_kv p /\ forall a, okon dm vs a -> dget (potentials_to_dict [p]) (fst (get_kv (mkPE (map (fun v => (v, a v)) vs) 1%Qc))) = Some (f a).
Proof.
  intros HS Hb [T1 T2]. destruct (HS) as [HN HD].
  assert (O : forall k e, nth_error p k = Some e -> exists a, okon dm vs a /\ row_index dm vs a = k /\ e = mkPE (map (fun v => (v, a v)) vs) (f a)).
  { intros k e Ek. assert (Hk : k < size dm vs) by (rewrite <- T1; apply nth_error_Some; congruence). destruct (row_index_onto dm vs k HS Hk) as [a [A1 A2]]. exists a. split; auto. split; auto.
    rewrite <- A2, (T2 a A1) in Ek. congruence. }
  assert (F : Forall plain_entry p).
  { apply Forall_forall. intros e He. apply In_nth_error in He. destruct He as [k Ek]. destruct (O k e Ek) as [a [A1 [A2 ->]]]. split; cbn [pe_map].
    - rewrite map_map. cbn [fst]. rewrite map_id. auto.
    - intros v x Hx. apply in_map_iff in Hx. destruct Hx as [u [Q Hu]]. injection Q as -> <-. apply (Hb v); auto. }
  assert (D : forall i k e e', nth_error p i = Some e -> nth_error p k = Some e' -> same_assignment e e' -> i = k).
  { intros i k e e' Ei Ek S. destruct (O i e Ei) as [a [A1 [A2 ->]]]. destruct (O k e' Ek) as [b [B1 [B2 ->]]]. unfold same_assignment in S. cbn [pe_map] in S.
    rewrite <- A2, <- B2. apply row_index_ext. intros u Hu. assert (H : In (u, a u) (map (fun v => (v, b v)) vs)) by (apply (Permutation_in _ S); apply in_map_iff; eauto).
    apply in_map_iff in H. destruct H as [w [Q Hw]]. injection Q as -> Q. auto. }
  assert (E : potentials_to_dict [p] = map get_kv p).
  { pose proof (c58_dict [p]) as H. cbn [List.concat] in H. rewrite List.app_nil_r in H. apply H; auto. }
  split; auto. intros a Ha. rewrite E. assert (I : In (mkPE (map (fun v => (v, a v)) vs) (f a)) p) by (eapply nth_error_In; apply T2; auto).
  rewrite Forall_forall in F.
  assert (N : NoDup (map fst (map get_kv p))).
  { rewrite map_map. apply NoDup_nth_error. intros i k Hi Q. rewrite map_length in Hi. destruct (nth_error p i) as [e|] eqn:Ei; [|apply nth_error_None in Ei; lia].
    rewrite (map_nth_error _ _ _ Ei) in Q. destruct (nth_error p k) as [e'|] eqn:Ek.
    - rewrite (map_nth_error _ _ _ Ek) in Q. injection Q as Q. apply (D i k e e'); auto. apply c58_keys; [| |exact Q]; apply F; eapply nth_error_In; eauto.
    - apply nth_error_None in Ek. assert (Q' : nth_error (map (fun x => fst (get_kv x)) p) k = None) by (apply nth_error_None; rewrite map_length; auto). congruence. }
  apply dget_In_NoDup; [exact N|]. apply in_map_iff. eexists. split; [|exact I]. reflexivity.
Qed.
