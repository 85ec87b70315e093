(** Potential algebra, CPT layout and prior normalisation. *)
From Verif Require Import Py M_Graph M_Node M_Pptc Spec SpecNet SpecPot L_Base L_PD L_Sums L_Table L_UG L_Build L_Apply.
Open Scope nat_scope.

Section T.
  Context (dm : Z -> list string).

  Lemma combine_map_asg vs (a : asg) : combine vs (map a vs) = map (fun v => (v, a v)) vs.
  Proof. induction vs; simpl; congruence. Qed.

  Lemma tab_entry vs f a : proper_scope dm vs -> okon dm vs a ->
    nth_error (tab dm vs f) (row_index dm vs a) = Some (mkPE (map (fun v => (v, a v)) vs) (f (asg_of vs (map a vs)))).
  Proof.
    intros [HN Hd] Ha. pose proof (map_okon dm vs a Ha) as Hi. apply In_nth_error in Hi. destruct Hi as [k Hk].
    assert (Ek : k = row_index dm vs a).
    { assert (S : nth_error (map (vindex (map dm vs)) (cartesian (map dm vs))) k = Some (vindex (map dm vs) (map a vs))) by (apply map_nth_error; auto).
      rewrite vindex_seq in S. 2:{ intros l Hl. apply in_map_iff in Hl. destruct Hl as [u [<- Hu]]; auto. }
      rewrite vindex_row in S by (auto; rewrite map_length; auto).
      rewrite (row_index_ext dm vs _ a) in S by (intros; apply asg_of_in; auto).
      assert (Hlt : k < vsize (map dm vs)). { rewrite <- (seq_length (vsize (map dm vs)) 0). apply nth_error_Some. congruence. }
      rewrite (nth_error_nth' _ 0) in S by (rewrite seq_length; auto). rewrite seq_nth in S by auto. simpl in S. congruence. }
    subst k. unfold tab. erewrite map_nth_error by exact Hk. rewrite combine_map_asg. auto.
  Qed.
  Lemma tab_table vs f : proper_scope dm vs -> (forall a b, okon dm vs a -> (forall v, In v vs -> a v = b v) -> f a = f b) -> is_table dm vs f (tab dm vs f).
  Proof.
    intros HS Hf. split. { unfold tab. rewrite map_length, cartesian_len, size_vsize. auto. }
    intros a Ha. rewrite tab_entry by auto. f_equal. f_equal. symmetry. apply Hf; auto. intros v Hv. rewrite asg_of_in; auto.
  Qed.
  Lemma row_index_onto vs k : proper_scope dm vs -> k < size dm vs -> exists a, okon dm vs a /\ row_index dm vs a = k.
  Proof.
    intros [HN Hd] Hk. rewrite size_vsize in Hk. rewrite <- cartesian_len in Hk.
    destruct (nth_error (cartesian (map dm vs)) k) as [ws|] eqn:E; [|apply nth_error_None in E; lia].
    assert (Hi : In ws (cartesian (map dm vs))) by (eapply nth_error_In; eauto).
    exists (asg_of vs ws). split; [apply asg_of_ok; auto|]. rewrite <- vindex_row by (auto; eapply cart_In; eauto).
    apply (map_nth_error (vindex (map dm vs))) in E. rewrite vindex_seq in E. 2:{ intros l Hl. apply in_map_iff in Hl. destruct Hl as [u [<- Hu]]; auto. }
    rewrite cartesian_len in Hk. rewrite (nth_error_nth' _ 0) in E by (rewrite seq_length; auto). rewrite seq_nth in E by auto. simpl in E. congruence.
  Qed.
  Lemma table_ext vs f p : is_table dm vs f p -> forall a b, okon dm vs a -> (forall v, In v vs -> a v = b v) -> f a = f b.
  Proof.
    intros [_ H] a b Ha E. assert (Hb : okon dm vs b) by (intros v Hv; rewrite <- E; auto).
    pose proof (H a Ha) as H1. pose proof (H b Hb) as H2. rewrite (row_index_ext dm vs a b) in H1 by auto. congruence.
  Qed.
  Lemma table_tab vs f p : proper_scope dm vs -> is_table dm vs f p -> p = tab dm vs f.
  Proof.
    intros HS HT. pose proof (tab_table vs f HS (table_ext _ _ _ HT)) as HT'. destruct HT as [L1 H1], HT' as [L2 H2].
    apply nth_ext with (d := mkPE [] 0%Qc) (d' := mkPE [] 0%Qc); [congruence|]. intros k Hk.
    destruct (row_index_onto vs k HS) as [a [Ha <-]]; [lia|]. erewrite !nth_error_nth; [reflexivity|apply H2; auto|apply H1; auto].
  Qed.
  (** [f], made to look at [vs] only *)
  Definition narrow (vs : list Z) (f : asg -> Qc) : asg -> Qc := fun a => f (asg_of vs (map a vs)).
  Lemma narrow_dep vs f : dep vs (narrow vs f).
  Proof. intros a b E. unfold narrow. do 2 f_equal. apply map_ext_in. auto. Qed.
  Lemma narrow_eq vs f p a : is_table dm vs f p -> okon dm vs a -> narrow vs f a = f a.
  Proof. intros HT Ha. unfold narrow. symmetry. eapply table_ext; eauto. intros v Hv. rewrite asg_of_in; auto. Qed.
  Lemma table_narrow vs f p : proper_scope dm vs -> is_table dm vs f p -> p = tab dm vs (narrow vs f).
  Proof. intros HS HT. rewrite (table_tab vs f p HS HT). apply tab_ext. intros a Ha. symmetry. eapply narrow_eq; eauto. Qed.
  Lemma is_table_ext vs f g p : (forall a, okon dm vs a -> f a = g a) -> is_table dm vs f p -> is_table dm vs g p.
  Proof. intros E [H1 H2]. split; auto. intros a Ha. rewrite <- E; auto. Qed.
  Lemma tab_is_table vs f : proper_scope dm vs -> dep vs f -> is_table dm vs f (tab dm vs f).
  Proof. intros HS Hf. apply tab_table; auto. Qed.

  Lemma c26_new : forall vs, proper_scope dm vs -> is_table dm vs (fun _ => 1%Qc) (potential_from_nodes (map (fun v => (v, dm v)) vs)).
  Proof. intros vs HS. rewrite potential_from_nodes_tab by apply HS. apply tab_is_table; auto. apply dep_const. Qed.

  Lemma c26_multiply : forall vs ws f g p q, proper_scope dm vs -> NoDup ws -> incl ws vs -> is_table dm vs f p -> is_table dm ws g q ->
    is_table dm vs (fun a => (f a * g a)%Qc) (multiply p q).
  Proof.
    intros vs ws f g p q HS HW Hi Hp Hq. assert (HS' : proper_scope dm ws) by (split; auto; intros v Hv; apply HS; auto).
    rewrite (table_narrow vs f p), (table_narrow ws g q), multiply_tab; auto using narrow_dep; try apply HS; try (intros v Hv; apply HS; auto).
    apply is_table_ext with (f := fun a => (narrow vs f a * narrow ws g a)%Qc).
    - intros a Ha. rewrite (narrow_eq vs f p), (narrow_eq ws g q); auto. intros v Hv. auto.
    - apply tab_is_table; auto. apply dep_mult; [apply narrow_dep|]. apply dep_mono with ws; auto. apply narrow_dep.
  Qed.
  Lemma except_minus vs ws : except vs ws = minus vs ws.
  Proof. reflexivity. Qed.
  Lemma c26_marginalize : forall vs ws f p, proper_scope dm vs -> NoDup ws -> incl ws vs -> is_table dm vs f p ->
    is_table dm ws (sums dm (except vs ws) f) (marginalize p (map (fun v => (v, dm v)) ws)).
  Proof.
    intros vs ws f p HS HW Hi Hp. assert (HS' : proper_scope dm ws) by (split; auto; intros v Hv; apply HS; auto).
    rewrite (table_narrow vs f p), marginalize_tab; auto using narrow_dep; try apply HS; try (intros v Hv; apply HS; auto).
    apply is_table_ext with (f := sums dm (minus vs ws) (narrow vs f)).
    - intros a Ha. apply (sums_ext_ok dm ws); auto. intros b Hb. eapply narrow_eq; eauto. intros v Hv.
      apply Hb. rewrite in_app_iff, minus_In. destruct (in_dec Z.eq_dec v ws); auto.
    - apply tab_is_table; auto. apply sums_dep' with vs; auto using narrow_dep. intros x Hx. rewrite minus_In. destruct (in_dec Z.eq_dec x ws); tauto.
  Qed.
  Lemma c26_divide : forall vs f g p q, proper_scope dm vs -> is_table dm vs f p -> is_table dm vs g q ->
    exists r, divide p q = Ok r /\ is_table dm vs (fun a => if Qc_eq_dec (f a) 0 then 0%Qc else if Qc_eq_dec (g a) 0 then 0%Qc else (f a / g a)%Qc) r.
  Proof.
    intros vs f g p q HS Hp Hq. exists (tab dm vs (fun a => qquot (narrow vs f a) (narrow vs g a))). split.
    - rewrite (table_narrow vs f p) at 1 by auto. rewrite (table_narrow vs g q) at 1 by auto. apply divide_tab. apply HS.
    - apply is_table_ext with (f := fun a => qquot (narrow vs f a) (narrow vs g a)).
      + intros a Ha. rewrite (narrow_eq vs f p), (narrow_eq vs g q) by auto. unfold qquot, is_zero.
        destruct (Qc_eq_dec (f a) 0) as [E|E]. { rewrite E. simpl. reflexivity. }
        assert (E1 : qeqb 0 (f a) = false) by (apply qeqb_false; auto). rewrite E1. simpl.
        destruct (Qc_eq_dec (g a) 0) as [E'|E']. { rewrite E'. simpl. reflexivity. }
        assert (E2 : qeqb 0 (g a) = false) by (apply qeqb_false; auto). rewrite E2. auto.
      + apply tab_is_table; auto. intros a b E. rewrite (narrow_dep vs f a b), (narrow_dep vs g a b); auto.
  Qed.
  Lemma divide_short p q : List.length q < List.length p -> divide p q = Err IndexError.
  Proof.
    revert q; induction p as [|e p IH]; intros [|d q] H; simpl in *; try lia; auto. rewrite IH by lia. auto.
  Qed.
  Lemma c26_normalize : forall vs f p, proper_scope dm vs -> is_table dm vs f p ->
    let t := sums dm vs f no_asg in
    is_table dm vs (fun a => if Qc_eq_dec t 0 then f a else (f a / t)%Qc) (normalize p).
  Proof.
    intros vs f p HS Hp t. rewrite (table_narrow vs f p) by auto. rewrite normalize_tab; [|apply HS|eapply dep_proper; apply narrow_dep].
    assert (E : sums dm vs (narrow vs f) no_asg = t).
    { apply (sums_ext_ok dm []); [intros v []|]. intros b Hb. eapply narrow_eq; eauto. intros v Hv. apply Hb. apply in_or_app; auto. }
    rewrite E. apply is_table_ext with (f := fun a => if Qc_eq_dec t 0 then narrow vs f a else (narrow vs f a / t)%Qc).
    - intros a Ha. rewrite (narrow_eq vs f p); auto.
    - apply tab_is_table; auto. intros a b Eb. rewrite (narrow_dep vs f a b); auto.
  Qed.

  (** ** CPT layout *)
  Lemma nodes_nv ns : proper_nodes dm ns -> map nv ns = map (fun v => (v, dm v)) (map n_id ns).
  Proof. intros [_ H]. rewrite map_map. apply map_ext_in. intros n Hn. destruct (H n Hn) as [E _]. unfold nv. congruence. Qed.
  Lemma nodes_scope ns : proper_nodes dm ns -> proper_scope dm (map n_id ns).
  Proof. intros [H1 H2]. split; auto. intros v Hv. apply in_map_iff in Hv. destruct Hv as [n [<- Hn]]. destruct (H2 n Hn) as [-> ?]; auto. Qed.
  Lemma c27 : forall n ps, proper_nodes dm (ps ++ [n]) -> let vs := map n_id ps ++ [n_id n] in
    (size dm vs <= List.length (n_probs n) ->
       exists p, get_potential n ps = Ok p /\ is_table dm vs (fun a => nth (row_index dm vs a) (n_probs n) 0%Qc) p) /\
    (List.length (n_probs n) < size dm vs -> get_potential n ps = Err IndexError).
  Proof.
    intros n ps HP vs. pose proof (nodes_scope _ HP) as HS. assert (Ev : map n_id (ps ++ [n]) = vs) by (rewrite map_app; auto).
    rewrite Ev in HS. unfold get_potential. rewrite (nodes_nv _ HP), Ev. rewrite potential_from_nodes_tab by apply HS. split; intros H.
    - rewrite fill_probs_tab; [|apply HS|apply HS|auto]. eexists. split; [reflexivity|]. apply tab_is_table; auto.
      intros a b E. rewrite (row_index_ext dm vs a b); auto.
    - apply fill_probs_short. unfold tab. rewrite map_length, cartesian_len, <- size_vsize. auto.
  Qed.
End T.

(** ** matching *)
Lemma c43_matches : forall self that, pe_matches self that = true <-> forall k v, In (k, v) (pe_map that) -> dget (pe_map self) k = Some v.
Proof.
  intros self that. unfold pe_matches. rewrite forallb_forall. split.
  - intros H k v Hi. specialize (H _ Hi). simpl in H. destruct (dget (pe_map self) k) as [w|]; [|discriminate]. apply String.eqb_eq in H. congruence.
  - intros H [k v] Hi. simpl. rewrite (H _ _ Hi). apply String.eqb_refl.
Qed.
Lemma c43_entries : forall p e, selected (fun x => forall k v, In (k, v) (pe_map e) -> dget (pe_map x) k = Some v) p (get_matching_entries p e).
Proof.
  intros p e. unfold get_matching_entries. induction p as [|x p IH]; simpl; [constructor|]. destruct (pe_matches x e) eqn:E.
  - constructor; auto. apply c43_matches; auto.
  - constructor; auto. intros H. apply c43_matches in H. congruence.
Qed.

(** ** networks *)
From Verif Require Import SpecEv L_Net L_P1 L_Dag.

Lemma c27_net : forall ops, well_shaped ops -> let N := net_of ops in
  exists h, pot_init (build ops) = Ok h /\ map fst h = vars N /\
    forall i, In i (vars N) -> exists n p, dget h i = Some n /\ n_pot n = Some p /\ is_table (dom N) (par N i ++ [i]) (cpt_entry N i) p.
Proof.
  intros ops H N. pose proof (net_shape ops H) as HN. pose proof (build_good ops) as HB. exists (hp N (build ops)).
  assert (Ek : map fst (hp N (build ops)) = vars N). { unfold hp. rewrite map_map. simpl. apply (bg_ids _ _ _ HB). }
  split; [eapply pot_init_ok; eauto|]. split; auto.
  intros i Hi. destruct (g_node _ _ _ HB i Hi) as [n [E1 E2]].
  exists (snd (with_pot N (i, n))), (tab (dom N) (par N i ++ [i]) (cpt_entry N i)). split; [|split; auto].
  - apply In_dget. { unfold dkeys. rewrite Ek. apply (ns_nd _ HN). }
    unfold hp. apply in_map_iff. exists (i, n). split; auto.
  - apply tab_is_table.
    + split; [apply (ns_par _ HN)|]. intros v Hv. apply (ns_dom _ HN). apply in_app_or in Hv. destruct Hv as [Hv|[<-|[]]]; auto. apply (ns_ends _ HN v i Hv).
    + intros a b E. unfold cpt_entry. rewrite (row_index_ext _ _ a b); auto.
Qed.

Section Prior.
  Context (N : net) (HN : nshape N) (HA : acyclic (is_parent N)) (HS : stochastic N).
  Local Open Scope Qc_scope.
  Lemma parent_dec x y : {is_parent N x y} + {~ is_parent N x y}.
  Proof.
    unfold is_parent. destruct (in_dec Z.eq_dec y (vars N)); [|right; tauto]. destruct (in_dec Z.eq_dec x (par N y)); [left|right]; tauto.
  Qed.
  Lemma cpt_dep v : dep (par N v ++ [v]) (cpt_entry N v).
  Proof. intros a b E. unfold cpt_entry. rewrite (row_index_ext _ _ a b); auto. Qed.
  Lemma prior_part n : forall W a, List.length W = n -> NoDup W -> incl W (vars N) -> (forall v, In v W -> incl (par N v) W) ->
    sums (dom N) W (fun b => qprod (map (fun v => cpt_entry N v b) W)) a = 1.
  Proof using HN HA HS.
    induction n as [|n IH]; intros W a HL HD HI HC.
    - destruct W; [|discriminate]. simpl. reflexivity.
    - destruct (sink (is_parent N) parent_dec HA W) as [s [Hs Hsink]]. { intros ->. discriminate. }
      apply in_split in Hs. destruct Hs as [W1 [W2 ->]]. set (W' := W1 ++ W2).
      assert (HP : Permutation (W1 ++ s :: W2) (W' ++ [s])). { unfold W'. rewrite <- Permutation_middle. rewrite <- Permutation_cons_append. auto. }
      assert (HD' : NoDup (W' ++ [s])) by (eapply Permutation_NoDup; eauto). assert (HD'' : NoDup W' /\ ~ In s W').
      { apply NoDup_app_iff in HD'. destruct HD' as [D1 [_ D3]]. split; auto. intros Hi. apply (D3 s Hi). left; auto. }
      assert (HI' : incl W' (vars N)). { intros v Hv. apply HI. eapply Permutation_in; [symmetry; exact HP|]. apply in_or_app; auto. }
      assert (Hsv : In s (vars N)). { apply HI. apply in_or_app. right; left; auto. }
      assert (HC' : forall v, In v W' -> incl (par N v) W').
      { intros v Hv p Hp. assert (HvW : In v (W1 ++ s :: W2)) by (eapply Permutation_in; [symmetry; exact HP|]; apply in_or_app; auto).
        pose proof (HC v HvW p Hp) as Hpi. apply (Permutation_in _ HP) in Hpi. apply in_app_or in Hpi. destruct Hpi as [Hpi|[<-|[]]]; auto.
        exfalso. apply (Hsink v HvW). split; auto. }
      assert (HPs : incl (par N s) W').
      { intros p Hp. assert (Hpi : In p (W1 ++ s :: W2)) by (apply (HC s); auto; apply in_or_app; right; left; auto).
        apply (Permutation_in _ HP) in Hpi. apply in_app_or in Hpi. destruct Hpi as [Hpi|[<-|[]]]; auto.
        exfalso. apply (Hsink s); [apply in_or_app; right; left; auto|]. split; auto. }
      assert (Hprop : proper (fun b => qprod (map (fun v => cpt_entry N v b) (W1 ++ s :: W2)))).
      { apply dep_proper with (S := vars N ++ W1 ++ s :: W2). apply (dep_qprod (vars N ++ W1 ++ s :: W2) (fun v b => cpt_entry N v b)). intros v Hv.
        apply dep_mono with (S := par N v ++ [v]); [|apply cpt_dep]. intros u Hu. apply in_app_or in Hu. apply in_or_app. destruct Hu as [Hu|[<-|[]]]; auto.
        left. apply (ns_ends _ HN u v Hu). }
      rewrite (sums_perm (dom N) _ (W' ++ [s])); auto. rewrite sums_app.
      rewrite <- (IH W' a); auto; [|unfold W' in *; rewrite app_length in *; simpl in HL; lia|tauto].
      apply sums_ext_gen. intros b Hb Hok.
      transitivity (qprod (map (fun v => cpt_entry N v b) W') * qsum (map (fun x => cpt_entry N s (upd b s x)) (dom N s))).
      + change (sums (dom N) [s] (fun b0 => qprod (map (fun v => cpt_entry N v b0) (W1 ++ s :: W2))) b)
          with (qsum (map (fun x => qprod (map (fun v => cpt_entry N v (upd b s x)) (W1 ++ s :: W2))) (dom N s))).
        rewrite <- qsum_map_mult. apply qsum_map_ext. intros x _.
        transitivity (qprod (map (fun v => cpt_entry N v (upd b s x)) (W' ++ [s]))). { apply qprod_perm. apply Permutation_map. auto. }
        rewrite map_app, qprod_app. simpl map. rewrite qprod_cons, qprod_nil, Qcmult_1_r. f_equal.
        apply qprod_map_ext. intros v Hv. apply cpt_dep. intros u Hu. apply upd_neq. intros ->. apply in_app_or in Hu.
        destruct Hu as [Hu|[<-|[]]]; [|tauto]. apply (HC' v Hv) in Hu. tauto.
      + rewrite HS; auto. apply Qcmult_1_r. intros p Hp. apply Hok. auto.
  Qed.
  Lemma weight_prior a : weight N no_evidence a = qprod (map (fun v => cpt_entry N v a) (vars N)).
  Proof. unfold weight, no_evidence. assert (E : forall l : list Z, qprod (map (fun _ => 1) l) = 1). { induction l; simpl; auto. } rewrite E. ring. Qed.
  Lemma total_prior : total N no_evidence = 1.
  Proof using HN HA HS.
    unfold total. rewrite (sums_ext _ _ _ (fun b => qprod (map (fun v => cpt_entry N v b) (vars N)))) by (apply weight_prior).
    apply (prior_part (List.length (vars N))); auto. apply (ns_nd _ HN). apply incl_refl. intros v Hv p Hp. apply (ns_ends _ HN p v Hp).
  Qed.
  Lemma posterior_prior i x : exact_posterior N no_evidence i x = mass_of N no_evidence i x.
  Proof using HN HA HS. unfold exact_posterior. rewrite total_prior. destruct (Qc_eq_dec 1 0) as [E|E]; [discriminate|]. field. auto. Qed.
End Prior.

Lemma c45 : forall ops, well_shaped ops -> acyclic (is_parent (net_of ops)) -> stochastic (net_of ops) ->
  total (net_of ops) no_evidence = 1%Qc /\
  (connected ops -> forall o, ord_ok o -> exists b j t, apply o (build ops) = Ok (b, j) /\ get_posteriors j = Ok t /\
     Permutation (map fst t) (map (net_name ops) (vars (net_of ops))) /\
     forall i, In i (vars (net_of ops)) -> dget t (net_name ops i) = Some (map (fun x => (x, mass_of (net_of ops) no_evidence i x)) (dom (net_of ops) i))).
Proof.
  intros ops H HA HS. pose proof (net_shape ops H) as HN. split; [apply total_prior; auto|]. intros HC o Ho.
  destruct (c01 ops o H HC Ho) as [b [j [t [E1 [E2 [E3 E4]]]]]]. exists b, j, t. split; auto. split; auto. split; auto.
  intros i Hi. rewrite E4 by auto. f_equal. apply map_ext. intros x. rewrite posterior_prior; auto.
Qed.
