(** The sampler with rounded sums. *)
From Verif Require Import Py M_Graph M_Node M_Pptc M_Round M_Sampling M_RoundSamp Spec SpecSamp SpecRound SpecStored L_Base L_Round L_Samp L_RS L_RS2.
Open Scope nat_scope.

Section Back.
  Context (r : Qc) (rnd : Qc -> Qc) (ST : steady r rnd) (k : nat).

  Definition pair_rows (p q : list Qc) : Prop := exists l, Forall (stored rnd) l /\ List.length l <= k /\ p = cumsum l /\ q = cumsum_r rnd l.
  Definition pair_probs (p q : tprobs) : Prop :=
    match p, q with
    | Flat a, Flat b => pair_rows a b
    | Keyed a, Keyed b => Forall2 (fun x y => fst x = fst y /\ pair_rows (snd x) (snd y)) a b
    | _, _ => False
    end.
  Definition pair_tables (t t' : table) : Prop := tb_node t = tb_node t' /\ tb_pids t = tb_pids t' /\ pair_probs (tb_probs t) (tb_probs t').
  Definition both {A B} (R : A -> B -> Prop) (x : res A) (y : res B) : Prop :=
    match x, y with Ok a, Ok b => R a b | Err e, Err e' => e = e' | _, _ => False end.

  Lemma slices_part f n : forall l, Forall (stored rnd) l -> Forall (fun x => Forall (stored rnd) x /\ List.length x <= List.length l) (slices f n l).
  Proof.
    induction f as [|f IH]; intros l F; simpl; [constructor|]. destruct l as [|q l]; [constructor|]. assert (F1 : Forall (stored rnd) (firstn n (q :: l)) /\ Forall (stored rnd) (skipn n (q :: l))).
    { rewrite <- (firstn_skipn n (q :: l)) in F. apply Forall_app in F. exact F. }
    constructor. { split; [apply F1|]. rewrite firstn_length. lia. }
    eapply Forall_impl; [|apply (IH (skipn n (q :: l))); apply F1]. intros x (H1 & H2). split; auto. rewrite skipn_length in H2. lia.
  Qed.
  Lemma dset_pair {K A B} `{EqB K} (R : A -> B -> Prop) (d : list (K * A)) (d' : list (K * B)) i x y : Forall2 (fun p q => fst p = fst q /\ R (snd p) (snd q)) d d' -> R x y ->
    Forall2 (fun p q => fst p = fst q /\ R (snd p) (snd q)) (dset d i x) (dset d' i y).
  Proof.
    intros F Hxy. induction F as [|[a b] [a' b'] d d' [E1 E2] F IH]; simpl; [repeat constructor; auto|]. simpl in E1, E2. subst a'. destruct (eqb i a); constructor; auto.
  Qed.
  Lemma dget_pair {K A B} `{EqB K} (R : A -> B -> Prop) (d : list (K * A)) (d' : list (K * B)) i : Forall2 (fun p q => fst p = fst q /\ R (snd p) (snd q)) d d' ->
    match dget d i, dget d' i with Some x, Some y => R x y | None, None => True | _, _ => False end.
  Proof. intros F. induction F as [|[a b] [a' b'] d d' [E1 E2] F IH]; simpl; auto. simpl in E1, E2. subst a'. destruct (eqb i a); auto. Qed.
  Lemma fill_pair (ks : list string) : forall rows d d', Forall (fun x => Forall (stored rnd) x /\ List.length x <= k) rows -> Forall2 (fun x y => fst x = fst y /\ pair_rows (snd x) (snd y)) d d' ->
    Forall2 (fun x y => fst x = fst y /\ pair_rows (snd x) (snd y)) (fold_left (fun d p => dset d (fst p) (snd p)) (combine ks (map cumsum rows)) d)
      (fold_left (fun d p => dset d (fst p) (snd p)) (combine ks (map (cumsum_r rnd) rows)) d').
  Proof.
    induction ks as [|key ks IH]; intros rows d d' F D; simpl; auto. destruct rows as [|row rows]; simpl; auto. inversion F as [|? ? [F1 F2] F3]; subst. apply IH; auto. apply (dset_pair pair_rows); auto. exists row. auto.
  Qed.
  Lemma mk_pair n ps : Forall (stored rnd) (n_probs n) -> List.length (n_probs n) <= k -> both pair_tables (mk_table n ps) (mk_table_r rnd n ps).
  Proof.
    intros F L. unfold mk_table, mk_table_r. destruct ps as [|p ps].
    - simpl. split; auto. split; auto. exists (n_probs n). auto.
    - destruct (Nat.eqb _ 0); simpl; auto. split; auto. split; auto. simpl. apply fill_pair; [|constructor]. eapply Forall_impl; [|apply slices_part; exact F]. intros x (H1 & H2). split; auto. lia.
  Qed.
  Lemma value_back t t' s u : pair_tables t t' -> (0 <= u)%Qc -> exists u', within r k u u' /\ get_value t u' s = get_value t' u s.
  Proof.
    intros (E1 & E2 & E3) Hu. unfold get_value. rewrite <- E1, <- E2.
    assert (W : within r k u u) by (apply within_le with 0; [apply ST|lia|apply within_refl; auto]).
    assert (G : forall a b, pair_rows a b -> exists u', within r k u u' /\ bisect a u' = bisect b u).
    { intros a b (l & L1 & L2 & -> & ->). destruct (row_back r rnd ST l u L1 Hu) as (u' & W' & E). exists u'. split; auto. apply within_le with (List.length l); auto. apply ST. }
    destruct (tb_probs t) as [l|d], (tb_probs t') as [l'|d']; simpl in E3; try tauto.
    - destruct (G _ _ E3) as (u' & W' & E). exists u'. split; auto. rewrite E. auto.
    - destruct (mapM _ _) as [kvs|]; cbn [rbind]; [|exists u; auto]. pose proof (dget_pair pair_rows d d' (join "," kvs) E3) as D. unfold dgetE. destruct (dget d _) as [row|], (dget d' _) as [row'|]; try tauto; cbn [rbind]; [|exists u; auto].
      destruct (G _ _ D) as (u' & W' & E). exists u'. split; auto. rewrite E. auto.
  Qed.

  Definition pair_dicts : list (Z * table) -> list (Z * table) -> Prop := Forall2 (fun p q => fst p = fst q /\ pair_tables (snd p) (snd q)).
  Lemma tables_pair b : stored_net rnd k b -> both pair_dicts (get_tables b) (get_tables_r rnd b).
  Proof.
    intros HN. unfold get_tables, get_tables_r, stored_net in *. assert (D : pair_dicts [] []) by constructor. revert D. generalize (@nil (Z * table)) at 1 3. generalize (@nil (Z * table)).
    induction (get_nodes (b_g b)) as [|n ns IH]; intros d' d D; cbn [foldM]; [exact D|]. destruct (mapM _ _) as [ps|]; cbn [rbind]; [|reflexivity].
    destruct (HN n (or_introl eq_refl)) as [H1 H2]. pose proof (mk_pair n ps H1 H2) as M. unfold both in M. destruct (mk_table n ps) as [t|], (mk_table_r rnd n ps) as [t'|]; try (exfalso; exact M); cbn [rbind]; try exact M.
    apply IH. { intros m Hm. apply HN. right. auto. } apply (dset_pair pair_tables); auto.
  Qed.
  Lemma stays us : Forall (fun u => 0 <= u)%Qc us -> Forall2 (within r k) us us.
  Proof. induction 1; constructor; auto. apply within_le with 0; [apply ST|lia|apply within_refl; auto]. Qed.
  Lemma walk_back T T' ev : pair_dicts T T' -> forall us order d, Forall (fun u => 0 <= u)%Qc us ->
    exists us', Forall2 (within r k) us us' /\ sample_walk T ev d (combine us' order) = sample_walk T' ev d (combine us order).
  Proof.
    intros D. induction us as [|u us IH]; intros order d F; [exists []; split; [constructor|reflexivity]|]. pose proof (stays _ F) as St. inversion F as [|? ? F1 F2]; subst. destruct order as [|i order]; [exists (u :: us); split; [auto|reflexivity]|].
    pose proof (dget_pair pair_tables T T' i D) as G. destruct (dget T i) as [t|] eqn:Et, (dget T' i) as [t'|] eqn:Et'; try (exfalso; exact G).
    2:{ exists (u :: us). split; auto. cbn [combine sample_walk]. unfold dgetE. rewrite Et, Et'. reflexivity. }
    destruct (value_back t t' d u G F1) as (u' & W & Ev). destruct (get_value t' u d) as [v|x] eqn:Gv.
    2:{ exists (u' :: us). split; [inversion St; constructor; auto|]. cbn [combine sample_walk]. unfold dgetE. rewrite Et, Et'. cbn [rbind]. rewrite Ev, Gv. reflexivity. }
    destruct (IH order (dset d i v) F2) as (us' & W' & E). destruct (dget ev i) as [e|] eqn:Ee.
    - destruct (eqb v e) eqn:Eb.
      + exists (u' :: us'). split; [constructor; auto|]. cbn [combine sample_walk]. unfold dgetE. rewrite Et, Et'. cbn [rbind]. rewrite Ev, Gv. cbn [rbind]. rewrite Ee, Eb. exact E.
      + exists (u' :: us). split; [inversion St; constructor; auto|]. cbn [combine sample_walk]. unfold dgetE. rewrite Et, Et'. cbn [rbind]. rewrite Ev, Gv. cbn [rbind]. rewrite Ee, Eb. reflexivity.
    - exists (u' :: us'). split; [constructor; auto|]. cbn [combine sample_walk]. unfold dgetE. rewrite Et, Et'. cbn [rbind]. rewrite Ev, Gv. cbn [rbind]. rewrite Ee. exact E.
  Qed.
  Lemma loop_back s s' ev n : sp_nodes s = sp_nodes s' -> pair_dicts (sp_tables s) (sp_tables s') -> forall draws acc, Forall (Forall (fun u => 0 <= u)%Qc) draws ->
    exists draws', Forall2 (Forall2 (within r k)) draws draws' /\ samples_loop s ev n draws' acc = samples_loop s' ev n draws acc.
  Proof.
    intros E D. induction draws as [|us draws IH]; intros acc F; [exists []; split; [constructor|reflexivity]|]. inversion F as [|? ? F1 F2]; subst.
    assert (St : Forall2 (Forall2 (within r k)) draws draws). { clear -F2 ST. induction F2; constructor; auto. apply stays; auto. }
    destruct (walk_back _ _ ev D us (sp_nodes s) ev F1) as (us' & W & Ew). cbn [samples_loop]. unfold sample_once. rewrite <- E. rewrite <- Ew.
    destruct (sample_walk (sp_tables s) ev ev (combine us' (sp_nodes s))) as [d|x] eqn:Es; cbn [rbind]; [change (list (Z * string)) with sample in d|].
    2:{ exists (us' :: draws). split; [constructor; auto|]. cbn [samples_loop]. unfold sample_once. rewrite Es. reflexivity. }
    cbv zeta. destruct (Nat.eqb (List.length (if Nat.eqb (List.length d) (List.length (sp_nodes s)) then acc ++ @cons sample d nil else acc)) n) eqn:En.
    - exists (us' :: draws). split; [constructor; auto|]. cbn [samples_loop]. unfold sample_once. rewrite Es. cbn [rbind]. cbv zeta. rewrite En. reflexivity.
    - destruct (IH (if Nat.eqb (List.length d) (List.length (sp_nodes s)) then acc ++ @cons sample d nil else acc) F2) as (dr & W' & E'). exists (us' :: dr). split; [constructor; auto|]. cbn [samples_loop]. unfold sample_once at 1. rewrite Es. cbn [rbind]. cbv zeta. rewrite En. exact E'.
  Qed.
  Theorem c109_backward srt b : stored_net rnd k b ->
    match logic_sampler srt b, logic_sampler_r rnd srt b with
    | Ok s, Ok s' => forall ev n draws, Forall (Forall (fun u => 0 <= u)%Qc) draws ->
        exists draws', Forall2 (Forall2 (within r k)) draws draws' /\ get_samples s ev n draws' = get_samples s' ev n draws
    | Err x, Err y => x = y
    | _, _ => False
    end.
  Proof.
    intros HN. pose proof (tables_pair b HN) as T. unfold logic_sampler, logic_sampler_r, both in *. destruct (get_tables b) as [t|], (get_tables_r rnd b) as [t'|]; try (exfalso; exact T); cbn [rbind]; [|exact T].
    intros ev n draws F. apply loop_back; auto.
  Qed.
End Back.

Lemma from_id l : forall acc, cumsum_from_r (fun x => x) acc l = cumsum_from acc l.
Proof. induction l as [|q l IH]; intros acc; simpl; [reflexivity|]. rewrite IH. reflexivity. Qed.
Lemma cumsum_id l : cumsum_r (fun x => x) l = cumsum l.
Proof. destruct l as [|q l]; [reflexivity|]. unfold cumsum. simpl. rewrite Qcplus_0_l, from_id. reflexivity. Qed.
Theorem c109_identity srt b : logic_sampler_r (fun x => x) srt b = logic_sampler srt b.
Proof.
  assert (M : forall n ps, mk_table_r (fun x => x) n ps = mk_table n ps). { intros n ps. unfold mk_table_r, mk_table. destruct ps; [rewrite cumsum_id; reflexivity|]. destruct (Nat.eqb _ 0); [reflexivity|]. rewrite (map_ext _ _ cumsum_id). reflexivity. }
  unfold logic_sampler_r, logic_sampler. enough (E : get_tables_r (fun x => x) b = get_tables b) by (rewrite E; reflexivity). unfold get_tables_r, get_tables. generalize (@nil (Z * table)).
  induction (get_nodes (b_g b)) as [|n ns IH]; intros d; cbn [foldM]; [reflexivity|]. destruct (mapM _ _) as [ps|]; cbn [rbind]; [|reflexivity]. rewrite M. destruct (mk_table n ps); cbn [rbind]; auto.
Qed.
