(** The join tree links its cliques in the best way: most shared variables, then least cost. *)
From Verif Require Import Py M_Graph M_Node M_Pptc Spec SpecNet SpecEv SpecBest L_Base L_PD L_Sums L_Table L_Tree L_Walk L_Init L_Prop L_Ids L_Elim L_UG L_Forest L_Trans L_Rip L_Root L_Good L_Exact L_Net L_Apply L_Claims L_Shown L_Reapply L_P1 L_Flat L_Post.
From Coq Require Import Sorted.
Open Scope nat_scope.

Lemma no_cycle_forest {K} (es : list (K * K)) : no_cycle es -> forest es.
Proof.
  induction es as [|[u v] es IH]; intros H; constructor.
  - apply IH. intros es1 a b es2 -> Hp. apply (H ((u, v) :: es1) a b es2 eq_refl). eapply path_mono; [|exact Hp].
    intros x y [Hx|Hx]; [left|right]; simpl; auto.
  - apply (H [] u v es eq_refl).
Qed.

Lemma sorted_weaker {E} (R S : E -> E -> Prop) l : (forall a b, In a l -> In b l -> R a b -> S a b) -> StronglySorted R l -> StronglySorted S l.
Proof.
  induction l as [|x l IH]; intros H HS; constructor; apply StronglySorted_inv in HS; destruct HS as [H1 H2].
  - apply IH; auto. intros a b Ha Hb. apply H; right; auto.
  - rewrite Forall_forall in *. intros y Hy. apply H; simpl; auto.
Qed.

Lemma sum_map_add {E} (f g : E -> nat) l : list_sum (map (fun e => f e + g e) l) = list_sum (map f l) + list_sum (map g l).
Proof. induction l as [|x l IH]; simpl; auto. unfold list_sum in *. simpl. rewrite IH. lia. Qed.
Lemma sum_map_mul {E} (f : E -> nat) c l : list_sum (map (fun e => c * f e) l) = c * list_sum (map f l).
Proof. induction l as [|x l IH]; simpl; auto. unfold list_sum in *. simpl. rewrite IH. lia. Qed.
Lemma sum_map_ext {E} (f g : E -> nat) l : (forall e, In e l -> f e = g e) -> list_sum (map f l) = list_sum (map g l).
Proof. intros H. f_equal. apply map_ext_in. auto. Qed.
Lemma sum_map_ones {E} (l : list E) : list_sum (map (fun _ => 1) l) = List.length l.
Proof. induction l; simpl; auto. Qed.
Lemma sum_map_const {E} (l : list E) c : list_sum (map (fun _ => c) l) = c * List.length l.
Proof. induction l as [|x l IH]; simpl; [lia|]. unfold list_sum in *. simpl. rewrite IH. lia. Qed.
Lemma sum_map_sub {E} (f g : E -> nat) l : (forall e, In e l -> g e <= f e) -> list_sum (map (fun e => f e - g e) l) + list_sum (map g l) = list_sum (map f l).
Proof. intros H. rewrite <- sum_map_add. apply sum_map_ext. intros e He. specialize (H e He). lia. Qed.
Lemma sum_map_In {E} (f : E -> nat) l e : In e l -> f e <= list_sum (map f l).
Proof. induction l as [|x l IH]; simpl; [tauto|]. unfold list_sum in *. simpl. intros [<-|H]; [lia|]. specialize (IH H). lia. Qed.

Section Greedy2.
  Context {K E : Type} {KE : EqB K} (ends : E -> K * K) (mass cost : E -> nat).

  (** sorted by mass downwards, ties by cost upwards: the greedy forest has most mass and, among those with as much, least cost *)
  Theorem greedy_best V L F T : NoDup V -> greedy ends [] L F ->
    StronglySorted (fun a b => mass b < mass a \/ mass a = mass b /\ cost a <= cost b) L ->
    (forall s, In s L -> In (fst (ends s)) V /\ In (snd (ends s)) V) -> (forall s, In s L -> 0 < mass s) ->
    incl T L -> forest (map ends T) ->
    list_sum (map mass T) <= list_sum (map mass F) /\
    (list_sum (map mass T) = list_sum (map mass F) -> List.length T = List.length F /\ list_sum (map cost F) <= list_sum (map cost T)).
  Proof using Type*.
    intros HV Hg HS HL Hp HT Hf.
    assert (HF : incl F L). { apply (greedy_incl _ (fun _ => 0)) in Hg. destruct Hg as [_ Hg]. exact Hg. }
    assert (Hm : list_sum (map mass T) <= list_sum (map mass F)).
    { apply (greedy_max ends mass V L F T); auto. eapply sorted_weaker; [|exact HS]. simpl. intros a b _ _ Hab. lia. }
    split; auto. intros Eq.
    assert (Hl1 : List.length T <= List.length F).
    { rewrite <- !sum_map_ones. apply (greedy_max ends (fun _ => 1) V L F T); auto. eapply sorted_weaker; [|exact HS]. simpl. intros a b _ _ Hab. lia. }
    assert (Hl2 : List.length F <= List.length T).
    { assert (G : list_sum (map (fun e => mass e - 1) T) <= list_sum (map (fun e => mass e - 1) F)).
      { apply (greedy_max ends (fun e => mass e - 1) V L F T); auto. eapply sorted_weaker; [|exact HS]. simpl. intros a b _ _ Hab. lia. }
      pose proof (sum_map_sub mass (fun _ => 1) T) as ET. pose proof (sum_map_sub mass (fun _ => 1) F) as EF. rewrite sum_map_ones in ET, EF.
      rewrite <- ET in Eq by (intros e He; apply Hp, HT, He). rewrite <- EF in Eq by (intros e He; apply Hp, HF, He). lia. }
    assert (Hl : List.length T = List.length F) by lia. split; auto.
    set (C := list_sum (map cost L)). assert (HC : forall e, In e L -> cost e <= C) by (intros e He; apply sum_map_In; auto).
    set (w := fun e => (C + 1) * mass e + (C - cost e)).
    assert (G : list_sum (map w T) <= list_sum (map w F)).
    { apply (greedy_max ends w V L F T); auto. eapply sorted_weaker; [|exact HS]. simpl. intros a b Ha Hb Hab. unfold w. specialize (HC a Ha). assert (cost b <= C) by (unfold C; apply sum_map_In; auto). nia. }
    unfold w in G. rewrite !(sum_map_add (fun e => (C + 1) * mass e) (fun e => C - cost e)), !sum_map_mul, Eq in G.
    pose proof (sum_map_sub (fun _ => C) cost T (fun e He => HC e (HT e He))) as ET. pose proof (sum_map_sub (fun _ => C) cost F (fun e He => HC e (HF e He))) as EF.
    rewrite sum_map_const in ET, EF. rewrite Hl in ET. lia.
  Qed.
End Greedy2.

(** ** the candidates *)
Lemma ss_leb_order wt x y : ss_leb wt x y = true -> ss_mass y < ss_mass x \/ ss_mass x = ss_mass y /\ (ss_cost wt x <= ss_cost wt y)%Z.
Proof.
  unfold ss_leb. destruct (Nat.eqb_spec (ss_mass x) (ss_mass y)).
  - destruct (Z.eqb_spec (ss_cost wt x) (ss_cost wt y)); [intros; right; lia|]. rewrite Z.leb_le. intros; right; lia.
  - rewrite Nat.leb_le. lia.
Qed.
Lemma sep_sets_order cs wt : StronglySorted (fun a b => ss_leb wt a b = true) (get_sep_sets wt cs).
Proof. unfold get_sep_sets. match goal with |- context [isort _ ?l] => exact (isort_sorted (ss_leb wt) (ss_leb_total wt) (ss_leb_trans wt) l) end. Qed.

Lemma weight_size N h c : (forall v, In v (cl_nodes c) -> h_weight h v = Z.of_nat (List.length (dom N v))) -> cl_weight (h_weight h) c = Z.of_nat (table_size N c).
Proof.
  unfold cl_weight, table_size. induction (cl_nodes c) as [|v l IH]; simpl; intros H; auto. rewrite IH, H by auto. lia.
Qed.
Lemma inter_shared a b : List.length (inter a b) = shared a b.
Proof. reflexivity. Qed.
Lemma shared_sym a b : NoDup (cl_nodes a) -> NoDup (cl_nodes b) -> shared a b = shared b a.
Proof.
  intros Ha Hb. unfold shared. apply Nat.le_antisymm; apply NoDup_incl_length; try (apply NoDup_filter; auto); intros x Hx; apply filter_In in Hx; apply filter_In; rewrite mem_In in *; tauto.
Qed.

Section Cand.
  Context (N : net) (cs : list clique) (wt : Z -> Z).
  Hypothesis Hcl : forall c, In c cs -> cl_ok c.
  Hypothesis HNc : NoDup (map cl_id cs).
  Hypothesis Hw : forall c, In c cs -> cl_weight wt c = Z.of_nat (table_size N c).
  Let cost (s : sepset) : nat := Z.to_nat (ss_cost wt s).

  Lemma cand_cost s : In s (get_sep_sets wt cs) -> ss_cost wt s = Z.of_nat (table_size N (ss_left s) + table_size N (ss_right s)).
  Proof using HNc Hw.
    intros Hs. apply sep_sets_good in Hs; auto. unfold ss_cost. rewrite !Hw by (eapply sgood_left || eapply sgood_right; eauto). lia.
  Qed.
  Lemma cand_mass s : In s (get_sep_sets wt cs) -> ss_mass s = shared (ss_left s) (ss_right s) /\ 0 < ss_mass s.
  Proof using.
    intros Hs. apply sep_sets_In in Hs. destruct Hs as [a [b [_ [Hi ->]]]]. unfold ss_mass. rewrite mk_sepset_nodes, mk_sepset_left, mk_sepset_right. split; [reflexivity|].
    change (inter a b <> []) in Hi. change (0 < List.length (inter a b)). destruct (inter a b); [congruence|simpl; lia].
  Qed.

  (** every linking is made of candidates, up to the direction of the links *)
  Lemma linking_cands T : linking cs T -> exists S, incl S (get_sep_sets wt cs) /\ forest (map ends S) /\ List.length S = List.length T /\
    list_sum (map ss_mass S) = overlap T /\ list_sum (map cost S) = expense N T.
  Proof using Hcl HNc Hw.
    intros [H1 H2]. apply no_cycle_forest in H2.
    assert (Hd : forall c d, In (c, d) T -> c <> d). { intros c d Hcd ->. apply (forest_neq _ (cl_id d) (cl_id d) H2); auto. apply in_map_iff. exists (d, d). auto. }
    assert (G : exists S, incl S (get_sep_sets wt cs) /\ Forall2 flips (map (fun e => (cl_id (fst e), cl_id (snd e))) T) (map ends S) /\ List.length S = List.length T /\
       list_sum (map ss_mass S) = overlap T /\ list_sum (map cost S) = expense N T).
    { clear H2. induction T as [|[a c] T IH]. { exists []. split; [intros ? []|]. repeat split; constructor. }
      destruct IH as [S [S1 [S2 [S3 [S4 S5]]]]]. { intros; apply H1; right; auto. } { intros; apply Hd; right; auto. }
      destruct (H1 a c) as [Ha [Hc Hs]]; [left; auto|]. specialize (Hd a c (or_introl eq_refl)).
      assert (Sy : shared a c = shared c a). { apply shared_sym; apply Hcl; auto. }
      assert (Hne : forall x y, shared x y <> 0 -> inter x y <> []). { intros x y Hxy E. apply Hxy. rewrite <- inter_shared, E. reflexivity. }
      assert (HC : exists s, In s (get_sep_sets wt cs) /\ flips (cl_id a, cl_id c) (ends s) /\ ss_mass s = shared a c /\ cost s = table_size N a + table_size N c).
      { destruct (pairs_all cs a c) as [Hp|Hp]; auto.
        - exists (mk_sepset a c). assert (Hin : In (mk_sepset a c) (get_sep_sets wt cs)). { apply sep_sets_In. exists a, c. auto. }
          split; auto. unfold cost. rewrite (cand_cost _ Hin), (proj1 (cand_mass _ Hin)), Nat2Z.id. unfold ends. rewrite mk_sepset_left, mk_sepset_right. split; [left; reflexivity|]. auto.
        - exists (mk_sepset c a). assert (Hin : In (mk_sepset c a) (get_sep_sets wt cs)). { apply sep_sets_In. exists c, a. split; auto. split; auto. apply Hne. congruence. }
          split; auto. unfold cost. rewrite (cand_cost _ Hin), (proj1 (cand_mass _ Hin)), Nat2Z.id. unfold ends. rewrite mk_sepset_left, mk_sepset_right. split; [right; reflexivity|]. split; auto. lia. }
      destruct HC as [s [C1 [C2 [C3 C4]]]]. exists (s :: S). split; [intros x [<-|Hx]; auto|]. split; [simpl; constructor; auto|]. split; [simpl; auto|].
      unfold overlap, expense in *. simpl map. unfold list_sum in *. simpl fold_right. simpl fst. simpl snd. rewrite S4, S5, C3, C4. auto. }
    destruct G as [S [S1 [S2 S3]]]. exists S. split; auto. split; [|exact S3]. eapply forest_flips; eauto.
  Qed.

  Lemma greedy_linking F : greedy ends [] (get_sep_sets wt cs) F -> best_linking N cs (map (fun s => (ss_left s, ss_right s)) (rev F)).
  Proof using Hcl HNc Hw.
    intros Hg. assert (HF : incl F (get_sep_sets wt cs)). { apply (greedy_incl _ (fun _ => 0)) in Hg. apply Hg. }
    assert (Ef : forall l, incl l F -> overlap (map (fun s => (ss_left s, ss_right s)) l) = list_sum (map ss_mass l) /\ expense N (map (fun s => (ss_left s, ss_right s)) l) = list_sum (map cost l)).
    { intros l Hl. unfold overlap, expense. rewrite !map_map. simpl. split; apply sum_map_ext; intros s Hs.
      - symmetry. apply cand_mass. auto.
      - unfold cost. rewrite cand_cost by auto. rewrite Nat2Z.id. reflexivity. }
    assert (Er : incl (rev F) F). { intros s Hs. apply in_rev in Hs. auto. }
    destruct (Ef _ Er) as [E1 E2]. assert (P : Permutation (rev F) F) by (symmetry; apply Permutation_rev).
    rewrite (Permutation_list_sum _ _ (Permutation_map ss_mass P)) in E1. rewrite (Permutation_list_sum _ _ (Permutation_map cost P)) in E2.
    split.
    - split.
      + intros c d Hcd. apply in_map_iff in Hcd. destruct Hcd as [s [Es Hs]]. inversion Es; subst. apply Er, HF in Hs. destruct (cand_mass s Hs) as [M1 M2].
        pose proof (sep_sets_good cs HNc wt s Hs) as Hgd. split; [eapply sgood_left; eauto|]. split; [eapply sgood_right; eauto|]. lia.
      + rewrite map_map. simpl. apply (no_cycle_perm (map ends F)). { change (Permutation (map ends F) (map ends (rev F))). apply Permutation_map. symmetry; auto. }
        apply forest_no_cycle. eapply greedy_forest; eauto. constructor.
    - intros T HT. destruct (linking_cands T HT) as [S [S1 [S2 [S3 [S4 S5]]]]]. rewrite E1, E2, map_length, rev_length, <- S4, <- S5, <- S3.
      apply (greedy_best ends ss_mass cost (map cl_id cs) (get_sep_sets wt cs) F S); auto.
      + eapply sorted_weaker; [|apply sep_sets_order]. intros a b _ _ Hab. apply ss_leb_order in Hab. unfold cost. lia.
      + intros s Hs. assert (Hgd : sgood cs s) by (eapply sep_sets_good; eauto). unfold ends. simpl. split; apply in_map; [eapply sgood_left|eapply sgood_right]; eauto.
      + intros s Hs. apply cand_mass; auto.
  Qed.
End Cand.

Lemma compile_best ops o j : well_shaped ops -> ord_ok o -> compile o (build ops) = Ok j -> best_linking (net_of ops) (jt_cliques j) (links j).
Proof.
  intros HW Ho EC. pose proof (net_shape ops HW) as HN. set (N := net_of ops) in *.
  destruct (compile_full _ _ _ (net_shape ops HW) (build_good ops) o Ho) as [u [Ks [j' [F [C1 [C2 [C3 [C4 [C5 [C6 [C7 [C8 [C9 [C10 [C11 [C12 [C13 [C14 [C15 C16]]]]]]]]]]]]]]]]]]].
  rewrite EC in C1. injection C1 as <-. unfold links. rewrite C5, C4.
  apply greedy_linking with (wt := h_weight (hm (net_of ops) (build ops))); auto.
  - intros c Hc. rewrite <- C4 in Hc. destruct (compile_edges _ _ _ HN (build_good ops) o Ho j EC) as [_ [_ [E _]]]. apply (E c Hc).
  - pose proof (jg_ids_NoDup j C12) as Hd. apply NoDup_app_iff in Hd. rewrite <- C4. apply Hd.
  - intros c Hc. rewrite <- C4 in Hc. apply weight_size. intros v Hv.
    assert (Hi : In v (vars N)). { apply C14. unfold jt_bbn_ids. apply sof_In, in_flat_map. eauto. }
    destruct (hm_get _ _ _ (build_good ops) v Hi) as [n [Hn En]]. unfold h_weight. rewrite En. unfold n_weight. simpl.
    destruct (bg_node _ _ _ (build_good ops) v n Hn) as [_ [_ [E3 _]]]. rewrite E3. reflexivity.
Qed.

Lemma best_ext N j k : jt_nodes k = jt_nodes j -> best_linking N (jt_cliques j) (links j) -> best_linking N (jt_cliques k) (links k).
Proof. intros E. unfold links, jt_cliques, jt_sepsets. rewrite E. auto. Qed.

Theorem c81 ops o h : well_shaped ops -> ord_ok o -> valid_history (net_of ops) h ->
  exists j, session o ops h = Ok j /\ best_linking (net_of ops) (jt_cliques j) (links j).
Proof.
  intros HW Ho Hh. destruct (session_shows ops o h HW Ho Hh) as [b [j [j' [A1 [A2 _]]]]]. exists j'. split; [eapply session_eq; eauto|].
  pose proof (kp_n _ _ (keeps_calls _ _ _ _ A2)) as K. apply best_ext with j; auto. rewrite apply_compile in A1.
  destruct (compile o (build ops)) as [j0|] eqn:C; cbn [rbind] in A1; [|discriminate]. destruct (infer o j0) as [j1|] eqn:E1; cbn [rbind] in A1; [|discriminate]. inversion A1; subst.
  apply best_ext with j0; [apply (kp_n _ _ (keeps_infer _ _ _ E1))|]. eapply compile_best; eauto.
Qed.
