(** Consequences for networks in several parts. *)
From Verif Require Import Py M_Graph M_Node M_Pptc Spec SpecNet SpecEv SpecPart L_Base L_PD L_Sums L_Table L_Tree L_Walk L_Forest L_Root L_Good L_Prop L_Init L_Post L_Read
  L_Ids L_Trans L_Elim L_UG L_Tri L_Moral L_Build L_Exact L_Apply L_Net L_Evid L_Hist L_Claims L_Shape L_Shown L_P1 L_Reapply L_Det L_Again L_Part L_Part2.
Open Scope Qc_scope.

Lemma qprod_zero l : qprod l = 0 -> In 0 l.
Proof.
  induction l as [|x l IH]; [rewrite qprod_nil; intros H; apply (f_equal (fun x => Qnum (this x))) in H; vm_compute in H; discriminate|].
  rewrite qprod_cons. intros H. destruct (Qcmult_integral _ _ H); [left; auto|right; auto].
Qed.
Lemma qprod_has_zero l : In 0 l -> qprod l = 0.
Proof. induction l as [|x l IH]; simpl; [tauto|]. rewrite qprod_cons. intros [->|H]; [ring|]. rewrite IH by auto. ring. Qed.

Record part (N : net) (C l : list Z) (i : Z) : Prop := {
  pt_nd : NoDup C; pt_vars : incl C (vars N); pt_sub : incl l C; pt_fam : forall k, In k l -> incl (par N k ++ [k]) C; pt_i : In i l }.

Section From.
  Context (N : net) (L : likelihood) (HN : nshape N) (HL : forall i v, In i (vars N) -> In v (dom N i) -> 0 <= L i v).
  Context (C l : list Z) (i : Z) (HP : part N C l i).
  Notation w := (weight_of N L l).
  Notation tot := (sums (dom N) C w no_asg).

  Lemma w_nn a : okon (dom N) C a -> 0 <= w a.
  Proof using HN HL HP.
    intros Ha. unfold weight_of. apply qprod_nonneg. intros y Hy. apply in_map_iff in Hy. destruct Hy as [k [<- Hk]].
    assert (Hk' : In k (vars N)) by (apply (pt_vars _ _ _ _ HP), (pt_sub _ _ _ _ HP); auto). apply Qcle_0_mult.
    - unfold cpt_entry. apply (ns_pos _ HN k); auto. apply nth_In. eapply Nat.lt_le_trans; [|apply (ns_cpt _ HN); auto]. apply row_index_lt.
      intros v Hv. apply Ha. apply (pt_fam _ _ _ _ HP k Hk); auto.
    - apply HL; auto. apply Ha. apply (pt_sub _ _ _ _ HP); auto.
  Qed.
  Lemma from_nonneg y : 0 <= posterior_from N L C l i y.
  Proof using HN HL HP.
    unfold posterior_from. destruct (Qc_eq_dec tot 0); [apply Qcle_refl|]. apply qdiv_nonneg.
    - apply sums_nonneg. intros b _ Hb. destruct (string_dec (b i) y); [apply w_nn; auto|apply Qcle_refl].
    - apply sums_nonneg. intros b _ Hb. apply w_nn; auto.
  Qed.
  Lemma pt_iC : In i C. Proof using HP. apply (pt_sub _ _ _ _ HP), (pt_i _ _ _ _ HP). Qed.
  Lemma pt_iV : In i (vars N). Proof using HP. apply (pt_vars _ _ _ _ HP), pt_iC. Qed.
  Lemma from_mass : qsum (map (fun y => sums (dom N) C (fun a => if string_dec (a i) y then w a else 0) no_asg) (dom N i)) = tot.
  Proof using HN HP.
    clear HL. pose proof pt_iC as Hi. destruct (ns_dom _ HN i pt_iV) as [Hd _].
    assert (P : Permutation C ([i] ++ minus C [i])). { apply minus_perm. apply HP. constructor; [tauto|constructor]. intros y [<-|[]]; auto. }
    rewrite (sums_perm _ _ _ _ _ (weight_of_proper N L l) P). rewrite sums_app. simpl. apply qsum_map_ext. intros x Hx.
    apply sums_split_select; auto. apply weight_of_proper. apply HP.
  Qed.
  Lemma from_sum : tot <> 0 -> qsum (map (posterior_from N L C l i) (dom N i)) = 1.
  Proof using HN HP.
    clear HL. intros Ht. transitivity (qsum (map (fun y => (1 / tot) * sums (dom N) C (fun a => if string_dec (a i) y then w a else 0) no_asg) (dom N i))).
    - apply qsum_map_ext. intros x _. unfold posterior_from. destruct (Qc_eq_dec tot 0); [tauto|]. field; auto.
    - rewrite qsum_map_mult, from_mass. field. auto.
  Qed.
  Lemma from_zero y : tot = 0 -> posterior_from N L C l i y = 0.
  Proof using. clear. intros E. unfold posterior_from. destruct (Qc_eq_dec tot 0); tauto. Qed.
  Lemma from_possible : possible N L -> tot <> 0.
  Proof using HN HL HP.
    intros Hp Z. apply Hp. apply sums_zero. intros b _ Hb.
    assert (HbC : okon (dom N) C b) by (intros v Hv; apply Hb, (pt_vars _ _ _ _ HP); auto).
    (* the assignment [b], on [C] only *)
    set (b' := fun v => if in_dec Z.eq_dec v C then b v else no_asg v).
    assert (E : w b' = 0).
    { refine (sums_zero_terms (dom N) C w (weight_of_proper N L l) no_asg _ Z b' _ _).
      - intros a _ Ha. apply w_nn; auto.
      - intros u Hu. unfold b'. destruct (in_dec Z.eq_dec u C); tauto.
      - intros v Hv. unfold b'. destruct (in_dec Z.eq_dec v C); [apply HbC; auto|tauto]. }
    assert (E' : w b = 0).
    { rewrite <- E. unfold weight_of. apply qprod_map_ext. intros k Hk.
      assert (Q : forall v, In v (par N k ++ [k]) -> b v = b' v). { intros v Hv. unfold b'. destruct (in_dec Z.eq_dec v C) as [|n]; auto. exfalso. apply n, (pt_fam _ _ _ _ HP k Hk); auto. }
      rewrite (cpt_entry_dep N k b b' Q), (Q k); auto. apply in_or_app; simpl; auto. }
    rewrite <- (W_weight N L (vars N)) by auto. unfold W. apply qprod_has_zero. apply qprod_zero in E'. apply in_map_iff in E'. destruct E' as [k [E1 E2]].
    apply in_map_iff. exists k. split; auto. apply (pt_vars _ _ _ _ HP), (pt_sub _ _ _ _ HP); auto.
  Qed.
  Lemma from_point v : In v (dom N i) -> possible N L -> (forall y, In y (dom N i) -> y <> v -> L i y = 0) ->
    forall y, In y (dom N i) -> posterior_from N L C l i y = if String.eqb y v then 1 else 0.
  Proof using HN HL HP.
    intros Hv Hp Hz. pose proof (from_possible Hp) as Ht.
    assert (H0 : forall y, In y (dom N i) -> y <> v -> posterior_from N L C l i y = 0).
    { intros y Hy Hn. unfold posterior_from. destruct (Qc_eq_dec tot 0); auto.
      assert (Q : sums (dom N) C (fun a => if string_dec (a i) y then w a else 0) no_asg = 0).
      { apply sums_zero. intros b _ Hb. destruct (string_dec (b i) y) as [E|]; auto. unfold weight_of. apply qprod_has_zero. apply in_map_iff. exists i.
        split; [rewrite E, (Hz y) by auto; ring|apply HP]. }
      rewrite Q. unfold Qcdiv. ring. }
    intros y Hy. destruct (String.eqb_spec y v) as [->|Hn]; auto. rewrite <- (from_sum Ht). destruct (ns_dom _ HN i pt_iV) as [Hd _].
    rewrite <- (qsum_select string_dec (fun x => posterior_from N L C l i x) v (dom N i)) by auto.
    apply qsum_map_ext. intros x Hx. destruct (string_dec x v); auto. symmetry; auto.
  Qed.
End From.

(** a part of the network on its own *)
Lemma from_closed N L V i y : nshape N -> NoDup V -> incl V (vars N) -> (forall u v, In u V -> path (sym (is_parent N)) u v -> In v V) -> possible N L -> In i V -> In y (dom N i) ->
  posterior_from N L V V i y = exact_posterior N L i y.
Proof.
  intros HN ND VN Cl Hp Hi Hy. assert (Hd : NoDup (dom N i)) by (apply (ns_dom _ HN); auto). rewrite from_postv by auto.
  set (V2 := minus (vars N) V). assert (P : Permutation (V ++ V2) (vars N)) by (symmetry; apply minus_perm; auto; apply HN).
  assert (C1 : forall k, In k V -> incl (par N k) V). { intros k Hk p Hq. apply (Cl k); auto. apply path_one. right. split; auto. }
  assert (C2 : forall k, In k V2 -> incl (par N k) V2).
  { intros k Hk p Hq. apply minus_In in Hk. destruct Hk as [K1 K2]. apply minus_In. split; [apply (ns_ends _ HN _ _ Hq)|]. intros Hv. apply K2. apply (Cl p); auto. apply path_one. left. split; auto. }
  apply postv_component with V2; auto. apply HN. intros Z. apply Hp. rewrite (total_parts N L V V2) by (auto; apply HN). rewrite Z. ring.
Qed.

Section Situ.
  Context (N : net) (nm : Z -> string) (HN : nshape N) (Hnm : NoDup (map nm (vars N))).

  Lemma situ_pos L j : situ N nm L j -> forall i v, In i (vars N) -> In v (dom N i) -> 0 <= L i v.
  Proof. clear. intros H. destruct (si_live _ _ _ _ H) as [ev Hl]. apply (lv_pos _ _ _ _ Hl). Qed.
  Lemma table_get (f : Z -> string -> Qc) ids i : Permutation ids (vars N) -> In i (vars N) ->
    dget (map (fun i => (nm i, map (fun y => (y, f i y)) (dom N i))) ids) (nm i) = Some (map (fun y => (y, f i y)) (dom N i)).
  Proof using Hnm.
    intros P Hi. apply (dget_map_key nm (fun i => map (fun y => (y, f i y)) (dom N i))).
    - eapply Permutation_NoDup; [|exact Hnm]. apply Permutation_map, Permutation_sym, P.
    - apply (Permutation_in _ (Permutation_sym P)); auto.
  Qed.
  Lemma situ_perm L j : situ N nm L j -> Permutation (jt_bbn_ids j) (vars N).
  Proof using HN. intros H. apply (jn_perm N nm (ns_nd _ HN)). apply situ_jnet with L; auto. Qed.

  (** the table reported about each variable comes from the factors of some variables that include it *)
  Lemma situ_parts L j : situ N nm L j -> exists t, get_posteriors j = Ok t /\ Permutation (map fst t) (map nm (vars N)) /\
    forall i, In i (vars N) -> exists C l, part N C l i /\ dget t (nm i) = Some (map (fun y => (y, posterior_from N L C l i y)) (dom N i)).
  Proof using HN Hnm.
    intros H. destruct (situ_reads N nm HN Hnm L j H) as [x [V [f [home [R1 [R2 [R3 [R4 [R5 [R6 [R7 [R8 R9]]]]]]]]]]]].
    pose proof (situ_perm L j H) as P. eexists. split; [exact R7|]. split. { rewrite map_map. simpl. apply Permutation_map; auto. }
    intros i Hi. rewrite (table_get f _ i P Hi). destruct (in_dec Z.eq_dec i V) as [Hv|Hv].
    - exists V, V. split; [|f_equal; apply map_ext_in; intros y Hy; f_equal; auto]. constructor; auto using incl_refl. intros k Hk q Hq. apply in_app_or in Hq.
      destruct Hq as [Hq|[<-|[]]]; auto. apply R4. apply R4 in Hk. destruct Hk as [u [Hu Hp]]. exists u. split; auto. apply path_trans with k; auto. apply path_one. right. split; auto.
      apply (ns_ends _ HN _ _ Hq).
    - exists (cl_nodes (home i)), (filter (fun k => String.eqb (cl_id (home k)) (cl_id (home i))) (vars N)).
      split; [|f_equal; apply map_ext_in; intros y Hy; f_equal; auto].
      pose proof (situ_jnet N nm L j H) as HJ. pose proof (jn_JG _ _ _ HJ) as JJ. destruct (R6 i Hi) as [C1 [C2 C3]].
      assert (Hf : forall k, In k (filter (fun k => String.eqb (cl_id (home k)) (cl_id (home i))) (vars N)) -> incl (par N k ++ [k]) (cl_nodes (home i))).
      { intros k Hk. apply filter_In in Hk. destruct Hk as [Hk Ek]. apply String.eqb_eq in Ek. destruct (R6 k Hk) as [K1 [K2 _]]. rewrite <- (jg_c_inj j JJ _ _ K1 C1 Ek). auto. }
      constructor; auto.
      + apply (jg_cl _ JJ); auto.
      + intros v Hv'. apply (jn_ids _ _ _ HJ). apply bbn_ids_In. eauto.
      + intros k Hk. apply (Hf k Hk). apply in_or_app; simpl; auto.
      + apply filter_In. split; auto. apply String.eqb_refl.
  Qed.

  (** a variable all of whose part of the network is in one clique *)
  Theorem situ_alone L j : situ N nm L j -> possible N L -> exists t, get_posteriors j = Ok t /\
    forall c i, In c (jt_cliques j) -> In i (vars N) -> (forall k, path (sym (is_parent N)) i k -> In k (cl_nodes c)) ->
      dget t (nm i) = Some (map (fun y => (y, exact_posterior N L i y)) (dom N i)).
  Proof using HN Hnm.
    intros H Hp. destruct (situ_reads N nm HN Hnm L j H) as [x [V [f [home [R1 [R2 [R3 [R4 [R5 [R6 [R7 [R8 R9]]]]]]]]]]]].
    pose proof (situ_perm L j H) as P. eexists. split; [exact R7|]. intros c i Hc Hi Hk. rewrite (table_get f _ i P Hi). f_equal. apply map_ext_in. intros y Hy. f_equal.
    assert (ClV : forall u v, In u V -> path (sym (is_parent N)) u v -> In v V).
    { intros u v Hu Huv. apply R4. apply R4 in Hu. destruct Hu as [a [Ha Hau]]. exists a. split; auto. eapply path_trans; eauto. }
    destruct (in_dec Z.eq_dec i V) as [Hv|Hv]. { rewrite R8 by auto. apply from_closed; auto. }
    rewrite R9 by auto. destruct (si_tight _ _ _ _ H) as [T1 [_ [_ T4]]].
    pose proof (situ_jnet N nm L j H) as HJ. pose proof (jn_JG _ _ _ HJ) as JJ.
    assert (Eh : forall k, In k (vars N) -> path (sym (is_parent N)) i k -> home k = c).
    { intros k Hkv Hik. destruct (R6 k Hkv) as [K1 [K2 _]]. apply T4; auto. intros u Hu. apply Hk. apply path_trans with k; auto. apply (T1 (home k)); auto. apply K2, in_or_app; simpl; auto. }
    rewrite (Eh i Hi) by constructor.
    assert (Hic : forall k, In k (cl_nodes c) -> path (sym (is_parent N)) i k). { intros k Hkc. apply (T1 c); auto. apply Hk. constructor. }
    assert (HcV : forall k, In k (cl_nodes c) -> In k (vars N)). { intros k Hkc. apply (jn_ids _ _ _ HJ). apply bbn_ids_In. eauto. }
    rewrite (from_perm N L (cl_nodes c) (cl_nodes c) _ (cl_nodes c)); auto.
    - apply from_closed; auto.
      + apply (jg_cl _ JJ); auto.
      + intros u v Hu Huv. apply Hk. apply path_trans with u; auto.
      + apply Hk. constructor.
    - apply NoDup_Permutation; [apply NoDup_filter, (ns_nd _ HN)|apply (jg_cl _ JJ); auto|]. intros k. rewrite filter_In, String.eqb_eq. split.
      + intros [Hkv E]. destruct (R6 k Hkv) as [K1 [K2 _]]. rewrite <- (jg_c_inj j JJ _ _ K1 Hc E). apply K2, in_or_app; simpl; auto.
      + intros Hkc. split; auto. rewrite (Eh k); auto.
  Qed.

  (** ** the report does not depend on how the state came about *)
  Lemma sims_in cs ds c : Forall2 clsim cs ds -> In c cs -> exists d, In d ds /\ clsim c d.
  Proof. induction 1 as [|a b l m S F IH]; simpl; [tauto|]. intros [->|Hc]; [exists b; auto|]. destruct (IH Hc) as [d [D1 D2]]. exists d; auto. Qed.
  Lemma clsim_incl c d l : clsim c d -> incl l (cl_nodes c) <-> incl l (cl_nodes d).
  Proof. intros [_ P]. split; intros H x Hx; apply H in Hx; [apply (Permutation_in _ P)|apply (Permutation_in _ (Permutation_sym P))]; auto. Qed.
  Lemma first_sim cs ds i c d : Forall2 clsim cs ds -> first_holding N cs i c -> first_holding N ds i d -> cl_id c = cl_id d.
  Proof.
    intros S [C1 [C2 C3]] [D1 [D2 D3]]. destruct (sims_in _ _ c S C1) as [c' [E1 E2]]. destruct (sims_in _ _ d (sims_sym _ _ S) D1) as [d' [F1 F2]].
    apply str_leb_anti.
    - rewrite (proj1 F2). apply C3; auto. apply (clsim_incl _ _ _ F2); auto.
    - rewrite (proj1 E2). apply D3; auto. apply (clsim_incl _ _ _ E2); auto.
  Qed.
  Lemma same_id_perm L j cs c d : situ N nm L j -> Forall2 clsim cs (jt_cliques j) -> In c cs -> In d (jt_cliques j) -> cl_id c = cl_id d -> Permutation (cl_nodes c) (cl_nodes d).
  Proof.
    clear. intros H S Hc Hd E. destruct (sims_in _ _ c S Hc) as [d' [E1 [E2 E3]]]. rewrite E3. rewrite (jg_c_inj j (jn_JG _ _ _ (situ_jnet N nm L j H)) d d'); auto. congruence.
  Qed.

  Theorem situ_same L1 L2 j1 j2 : situ N nm L1 j1 -> situ N nm L2 j2 -> agree N L1 L2 -> Forall2 clsim (jt_cliques j1) (jt_cliques j2) ->
    exists f, get_posteriors j1 = Ok (map (fun i => (nm i, f i)) (jt_bbn_ids j1)) /\ get_posteriors j2 = Ok (map (fun i => (nm i, f i)) (jt_bbn_ids j2)).
  Proof using HN Hnm.
    intros H1 H2 HA S. destruct (situ_reads N nm HN Hnm L1 j1 H1) as [x [V [f [home [R1 [R2 [R3 [R4 [R5 [R6 [R7 [R8 R9]]]]]]]]]]]].
    destruct (situ_reads N nm HN Hnm L2 j2 H2) as [x' [V' [f' [home' [S1 [S2 [S3 [S4 [S5 [S6 [S7 [S8 S9]]]]]]]]]]]].
    exists (fun i => map (fun y => (y, f i y)) (dom N i)). split; [exact R7|]. rewrite S7. f_equal. apply map_ext_in. intros i Hi. f_equal. apply map_ext_in. intros y Hy. f_equal.
    assert (Hi' : In i (vars N)) by (apply (Permutation_in _ (situ_perm L2 j2 H2)); auto).
    assert (Ex : cl_id x = cl_id x').
    { destruct (sims_in _ _ x S R1) as [c' [E1 E2]]. destruct (sims_in _ _ x' (sims_sym _ _ S) S1) as [d' [F1 F2]]. apply str_leb_anti.
      - rewrite (proj1 F2). auto.
      - rewrite (proj1 E2). auto. }
    pose proof (same_id_perm L2 j2 _ x x' H2 S R1 S1 Ex) as Px.
    assert (EV : Permutation V V').
    { apply NoDup_Permutation; auto. intros v. rewrite R4, S4. unfold joined. split; intros [u [Hu Hp]]; exists u; split; auto; [apply (Permutation_in _ Px)|apply (Permutation_in _ (Permutation_sym Px))]; auto. }
    destruct (in_dec Z.eq_dec i V) as [Hv|Hv].
    - rewrite R8 by auto. rewrite S8 by (auto; apply (Permutation_in _ EV); auto). rewrite (from_agree N L1 L2) by auto using incl_refl. apply from_perm; apply Permutation_sym; auto.
    - rewrite R9 by auto. rewrite S9; auto. 2:{ intros Hv'. apply Hv. apply (Permutation_in _ (Permutation_sym EV)); auto. }
      assert (Eh : forall k, In k (vars N) -> cl_id (home k) = cl_id (home' k)) by (intros k Hk; eapply first_sim; eauto).
      destruct (R6 i Hi') as [C1 [C2 _]]. destruct (S6 i Hi') as [D1 _]. pose proof (jn_JG _ _ _ (situ_jnet N nm L1 j1 H1)) as JJ.
      rewrite (from_agree N L1 L2); auto.
      + apply from_perm.
        * apply Permutation_sym. apply (same_id_perm L2 j2 (jt_cliques j1)); auto.
        * erewrite filter_ext_in; [apply Permutation_refl|]. intros k Hk. simpl. rewrite (Eh k Hk), (Eh i Hi'). reflexivity.
      + intros k Hk. apply filter_In in Hk. destruct Hk as [Hk Ek]. apply String.eqb_eq in Ek. destruct (R6 k Hk) as [K1 [K2 _]]. rewrite <- (jg_c_inj j1 JJ _ _ K1 C1 Ek). apply K2, in_or_app; simpl; auto.
      + intros k Hk. apply (jn_ids _ _ _ (situ_jnet N nm L1 j1 H1)). apply bbn_ids_In. eauto.
  Qed.
End Situ.
