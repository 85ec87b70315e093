(** Gaussian inference: from arrays to names. *)
From Verif Require Import Py M_Gauss SpecGauss L_Base L_Sums.
Open Scope Qc_scope.

(** ** positions *)
Lemma position_lt l s : In s l -> (position l s < List.length l)%nat.
Proof. induction l as [|h t IH]; simpl; [tauto|]. intros H. destruct (string_dec h s) as [e|n]; [lia|]. destruct H as [H|H]; [congruence|]. specialize (IH H). lia. Qed.
Lemma position_nth l s d : In s l -> nth (position l s) l d = s.
Proof. induction l as [|h t IH]; simpl; [tauto|]. intros H. destruct (string_dec h s) as [e|n]; [exact e|]. destruct H as [H|H]; [congruence|]. apply IH, H. Qed.
Lemma position_map {A} (f : string -> A) l s d : In s l -> nth (position l s) (map f l) d = f s.
Proof. induction l as [|h t IH]; simpl; [tauto|]. intros H. destruct (string_dec h s) as [e|n]; [congruence|]. destruct H as [H|H]; [congruence|]. apply IH, H. Qed.
Lemma position_cons h t : ~ In h t -> map (position (h :: t)) t = map (fun s => S (position t s)) t.
Proof. intros H. apply map_ext_in. intros s Hs. simpl. destruct (string_dec h s) as [->|n]; [tauto|reflexivity]. Qed.
Lemma position_all l : NoDup l -> map (position l) l = seq 0 (List.length l).
Proof.
  induction 1 as [|h t Hh Ht IH]; [reflexivity|]. cbn [map List.length seq]. f_equal.
  - simpl. destruct (string_dec h h); [reflexivity|congruence].
  - rewrite position_cons by exact Hh. rewrite <- seq_shift, <- IH, map_map. reflexivity.
Qed.
Lemma position_inj l s t : In s l -> In t l -> position l s = position l t -> s = t.
Proof. intros Hs Ht E. rewrite <- (position_nth l s ""%string Hs), <- (position_nth l t ""%string Ht), E. reflexivity. Qed.
Lemma position_none l s : ~ In s l -> position l s = List.length l.
Proof. induction l as [|h t IH]; simpl; [reflexivity|]. intros H. destruct (string_dec h s) as [e|n]; [tauto|]. f_equal. apply IH. tauto. Qed.

Lemma seq_sum (F : nat -> Qc) l : NoDup l -> qsum (map F (seq 0 (List.length l))) = qsum (map (fun s => F (position l s)) l).
Proof. intros H. rewrite <- (position_all l H), map_map. reflexivity. Qed.

(** ** enumerate *)
Lemma enum_from {A} (l : list A) d k : combine (seq k (List.length l)) l = map (fun i => (i, nth (i - k) l d)) (seq k (List.length l)).
Proof.
  revert k. induction l as [|a t IH]; intros k; [reflexivity|]. cbn [List.length seq combine map].
  f_equal. { rewrite Nat.sub_diag. reflexivity. }
  rewrite IH. apply map_ext_in. intros i Hi. apply in_seq in Hi. f_equal. replace (i - k)%nat with (S (i - S k))%nat by lia. reflexivity.
Qed.
Lemma enum_nth {A} (l : list A) d : enumerate l = map (fun i => (i, nth i l d)) (seq 0 (List.length l)).
Proof. unfold enumerate. rewrite (enum_from l d). apply map_ext. intros i. rewrite Nat.sub_0_r. reflexivity. Qed.
Lemma filter_map {A B} (p : B -> bool) (f : A -> B) l : filter p (map f l) = map f (filter (fun x => p (f x)) l).
Proof. induction l as [|x t IH]; simpl; [reflexivity|]. destruct (p (f x)); simpl; rewrite IH; reflexivity. Qed.
Lemma filter_ext_in' {A} (p q : A -> bool) l : (forall x, In x l -> p x = q x) -> filter p l = filter q l.
Proof. induction l as [|x t IH]; simpl; [reflexivity|]. intros H. rewrite (H x) by tauto. rewrite IH by (intros; apply H; tauto). reflexivity. Qed.
Lemma at_indexes_map {A} idx (f : string -> A) H : NoDup H ->
  at_indexes idx (map f H) = map f (filter (fun h => mem (position H h) idx) H).
Proof.
  intros N. unfold at_indexes. destruct H as [|h0 H0]; [reflexivity|]. set (L := h0 :: H0) in *.
  rewrite (enum_nth _ (f h0)), map_length, <- (position_all L N), map_map, filter_map, map_map. cbn [fst snd].
  apply map_ext_in. intros s Hs. apply filter_In in Hs. apply position_map, Hs.
Qed.

(** ** the header index *)
Lemma header_fold (H : list string) : forall k d, NoDup H -> (forall s, In s H -> dget d s = None) ->
  forall s, dget (fold_left (fun (d : list (string * nat)) p => dset d (snd p) (fst p)) (combine (seq k (List.length H)) H) d) s
            = if in_dec string_dec s H then Some (k + position H s)%nat else dget d s.
Proof.
  induction H as [|h t IH]; intros k d N D s; [reflexivity|]. inversion N as [|? ? N1 N2]; subst.
  cbn [List.length seq combine fold_left fst snd]. rewrite IH; auto.
  - destruct (in_dec string_dec s t) as [I|I]; destruct (in_dec string_dec s (h :: t)) as [J|J]; try (simpl in J; tauto).
    + simpl. destruct (string_dec h s) as [->|n]; [tauto|]. f_equal. lia.
    + destruct J as [->|J]; [|tauto]. rewrite dget_dset_eq. simpl. destruct (string_dec s s); [|congruence]. f_equal. lia.
    + rewrite dget_dset_neq; [reflexivity|]. simpl in J. intros ->. tauto.
  - intros s' Hs'. rewrite dget_dset_neq; [apply D; simpl; tauto|]. intros ->. tauto.
Qed.
Lemma header_get H s : NoDup H -> dgetE (header_index H) s = if in_dec string_dec s H then Ok (position H s) else Err KeyError.
Proof.
  intros N. unfold dgetE, header_index, enumerate. rewrite header_fold by auto. destruct (in_dec string_dec s H); reflexivity.
Qed.
Lemma header_all H names : NoDup H -> incl names H -> mapM (fun n => dgetE (header_index H) n) names = Ok (map (position H) names).
Proof.
  intros N. induction names as [|n t IH]; intros I; [reflexivity|]. cbn [mapM map rbind].
  rewrite header_get by exact N. destruct (in_dec string_dec n H) as [J|J]; [|exfalso; apply J, I; left; reflexivity].
  cbn [rbind]. rewrite IH by (intros x Hx; apply I; right; exact Hx). reflexivity.
Qed.
Lemma mapM_map {A B C} (f : B -> res C) (g : A -> B) l : mapM f (map g l) = mapM (fun x => f (g x)) l.
Proof. induction l as [|x t IH]; [reflexivity|]. cbn [map mapM]. rewrite IH. reflexivity. Qed.
Lemma mapM_keyerror H names : NoDup H -> ~ incl names H -> mapM (fun n => dgetE (header_index H) n) names = Err KeyError.
Proof.
  intros N. induction names as [|n t IH]; intros I. { exfalso. apply I. intros x []. }
  cbn [mapM]. rewrite header_get by exact N. destruct (in_dec string_dec n H) as [J|J]; [|reflexivity].
  cbn [rbind]. rewrite IH; [reflexivity|]. intros K. apply I. intros x [->|Hx]; auto.
Qed.

Lemma mem_position H h names : In h H -> incl names H -> mem (position H h) (map (position H) names) = mem h names.
Proof.
  intros Hh I. apply eq_true_iff_eq. rewrite !mem_In, in_map_iff. split.
  - intros (x & E & Hx). apply position_inj in E; [subst; exact Hx|apply I, Hx|exact Hh].
  - intros Hx. exists h. auto.
Qed.
