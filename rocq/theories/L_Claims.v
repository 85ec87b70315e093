(** The statements about inference, derived from the lemmas on live join trees. *)
From Verif Require Import Py M_Graph M_Node M_Pptc Spec SpecNet SpecEv L_Base L_PD L_Sums L_Table L_Tree L_Walk L_Forest L_Root L_Good L_Prop L_Init L_Post L_Read
  L_Ids L_Trans L_Elim L_UG L_Tri L_Moral L_Build L_Exact L_Apply L_Net L_Evid L_Hist L_Rip.

Open Scope nat_scope.

(** ** tables of posteriors *)
Lemma dget_map_key {A B} (f : A -> string) (g : A -> B) l x : NoDup (map f l) -> In x l -> dget (map (fun i => (f i, g i)) l) (f x) = Some (g x).
Proof.
  intros HN Hx. apply dget_In_NoDup; [unfold dkeys; rewrite map_map; simpl; auto|]. apply in_map_iff. exists x; auto.
Qed.

Lemma live_exact_table N nm L j : NoDup (vars N) -> NoDup (map nm (vars N)) -> live N nm L j -> jconn j ->
  exists t, get_posteriors j = Ok t /\ exact_table N nm L t.
Proof.
  intros HV Hnm HL Hc. eexists. split; [apply live_table; eauto|]. pose proof (jn_perm N nm HV j (lv_net _ _ _ _ HL)) as P. split.
  - rewrite map_map. simpl. apply Permutation_map; auto.
  - intros i Hi. apply (dget_map_key nm (fun i => map (fun y => (y, exact_posterior N L i y)) (dom N i))).
    + eapply Permutation_NoDup; [apply Permutation_map, Permutation_sym, P|auto].
    + apply (Permutation_in _ (Permutation_sym P)); auto.
Qed.

Section Net.
  Context (ops : list bop) (HW : well_shaped ops).
  Notation N := (net_of ops).
  Notation nm := (net_name ops).
  Let HV : NoDup (vars N) := firsts_NoDup _.
  Let HD : forall i, In i (vars N) -> NoDup (dom N i) /\ dom N i <> [] := ws_dom _ HW.

  Lemma history_live o h : ord_ok o -> Forall (fun p => ord_ok (fst p)) h -> Forall (valid_call N) (map snd h) -> all_noticed N no_evidence (map snd h) ->
    exists b j j', apply o (build ops) = Ok (b, j) /\ do_calls j h = (j', None) /\ live N nm (in_force N (map snd h)) j' /\ jt_nodes j' = jt_nodes j /\
      live N nm no_evidence j /\ (connected ops -> jconn j /\ jconn j').
  Proof using HW.
    intros Ho Hh Hv Hn. destruct (apply_build ops o HW Ho) as [b [j [A1 [A2 A3]]]].
    destruct (calls_live N nm HV (ws_names _ HW) HD h Hh no_evidence j A2 (unit_none N) Hv Hn) as [j' [B1 [B2 B3]]].
    exists b, j, j'. split; auto. split; auto. split; auto. split; auto. split; auto. intros Hc. specialize (A3 Hc). split; auto. apply jconn_ext with j; auto.
  Qed.

  Lemma hard_all_noticed h : Forall (valid_call N) h -> Forall hard_call h -> all_noticed N no_evidence h.
  Proof. intros. apply hard_noticed; auto. apply bit_none. Qed.
End Net.

(** ** posteriors are distributions *)
Section Distr.
  Context (N : net) (L : likelihood) (HN : nshape N) (HL : forall i v, In i (vars N) -> In v (dom N i) -> (0 <= L i v)%Qc).
  Open Scope Qc_scope.

  Lemma weight_nonneg a : okon (dom N) (vars N) a -> 0 <= weight N L a.
  Proof using HN HL.
    intros Ha. unfold weight. apply Qcle_0_mult; apply qprod_nonneg; intros q Hq; apply in_map_iff in Hq; destruct Hq as [i [<- Hi]]; [|apply HL; auto].
    unfold cpt_entry. apply (ns_pos _ HN i); auto. apply nth_In. eapply Nat.lt_le_trans; [|apply (ns_cpt _ HN); auto]. apply row_index_lt.
    intros v Hv. apply in_app_or in Hv. apply Ha. destruct Hv as [Hv|[<-|[]]]; auto. apply (ns_ends _ HN _ _ Hv).
  Qed.
  Lemma total_nonneg : 0 <= total N L.
  Proof using HN HL. apply sums_nonneg. intros b _ Hb. apply weight_nonneg; auto. Qed.
  Lemma mass_nonneg i x : 0 <= mass_of N L i x.
  Proof using HN HL. apply sums_nonneg. intros b _ Hb. destruct (string_dec (b i) x); [apply weight_nonneg; auto|apply Qcle_refl]. Qed.
  Lemma posterior_nonneg i x : 0 <= exact_posterior N L i x.
  Proof using HN HL. unfold exact_posterior. destruct (Qc_eq_dec (total N L) 0); [apply Qcle_refl|]. apply qdiv_nonneg; [apply mass_nonneg|apply total_nonneg]. Qed.
  Lemma mass_total i : In i (vars N) -> qsum (map (mass_of N L i) (dom N i)) = total N L.
  Proof using HN.
    clear HL. intros Hi. pose proof (ns_nd _ HN) as HV. destruct (ns_dom _ HN i Hi) as [Hd _].
    assert (P : Permutation (vars N) ([i] ++ minus (vars N) [i])). { apply minus_perm; auto. constructor; [tauto|constructor]. intros y [<-|[]]; auto. }
    unfold total. rewrite (sums_perm _ _ _ _ _ (weight_proper N L) P). rewrite sums_app. simpl. apply qsum_map_ext. intros x Hx.
    unfold mass_of. apply sums_split_select; auto. apply weight_proper.
  Qed.
  Lemma posterior_sum i : In i (vars N) -> possible N L -> qsum (map (exact_posterior N L i) (dom N i)) = 1.
  Proof using HN.
    clear HL. intros Hi Hp. unfold possible in Hp. transitivity (qsum (map (fun x => (1 / total N L) * mass_of N L i x) (dom N i))).
    - apply qsum_map_ext. intros x _. unfold exact_posterior. destruct (Qc_eq_dec (total N L) 0); [tauto|]. field; auto.
    - rewrite qsum_map_mult, (mass_total i Hi). field. auto.
  Qed.
  Lemma posterior_zero i x : ~ possible N L -> exact_posterior N L i x = 0.
  Proof. clear. unfold possible, exact_posterior. destruct (Qc_eq_dec (total N L) 0); tauto. Qed.

  (** evidence that rules out all values but one *)
  Lemma mass_ruled_out i x : In i (vars N) -> L i x = 0 -> mass_of N L i x = 0.
  Proof.
    clear. intros Hi Hx. apply sums_zero. intros b _ Hb. destruct (string_dec (b i) x) as [E|]; auto. unfold weight.
    assert (Z : qprod (map (fun v => L v (b v)) (vars N)) = 0).
    { revert Hi. clear Hb. induction (vars N) as [|v l IH]; simpl; [tauto|]. rewrite qprod_cons. intros [->|Hi]; [rewrite E, Hx; ring|rewrite IH by auto; ring]. }
    rewrite Z. ring.
  Qed.
  Lemma posterior_point i v : In i (vars N) -> In v (dom N i) -> possible N L -> (forall w, In w (dom N i) -> w <> v -> L i w = 0) ->
    exact_posterior N L i v = 1 /\ forall w, In w (dom N i) -> w <> v -> exact_posterior N L i w = 0.
  Proof using HN.
    clear HL. intros Hi Hv Hp Hz. assert (H0 : forall w, In w (dom N i) -> w <> v -> exact_posterior N L i w = 0).
    { intros w Hw Hn. unfold exact_posterior. destruct (Qc_eq_dec (total N L) 0); auto. rewrite mass_ruled_out by auto. unfold Qcdiv. ring. }
    split; auto. rewrite <- (posterior_sum i Hi Hp). symmetry. destruct (ns_dom _ HN i Hi) as [Hd _].
    rewrite <- (qsum_select string_dec (fun x => exact_posterior N L i x) v (dom N i)) by auto.
    apply qsum_map_ext. intros x Hx. destruct (string_dec x v); auto.
  Qed.
End Distr.

(** ** calibrated potentials *)
Lemma tab_tabulates dm ids f : NoDup ids -> dep ids f -> tabulates dm ids f (tab dm ids f).
Proof.
  intros HN Hd. split. { unfold tab. rewrite map_length, size_vsize. apply cartesian_len. }
  intros a Ha. unfold entry_at, tab. pose proof (map_okon dm ids a Ha) as Hi. revert Hi.
  assert (Hc : forall vs, In vs (cartesian (map dm ids)) -> List.length vs = List.length ids) by (intros vs Hv; eapply cart_In; eauto). revert Hc.
  generalize (cartesian (map dm ids)) as l. induction l as [|vs l IH]; intros Hc Hi; [destruct Hi|]. simpl.
  assert (Hl : List.length vs = List.length ids) by (apply Hc; left; auto).
  destruct (forallb (fun kv => String.eqb (snd kv) (a (fst kv))) (combine ids vs)) eqn:E.
  - simpl. f_equal. apply Hd. intros v Hv. assert (Evs : vs = map a ids).
    { clear - E Hl. revert vs E Hl. induction ids as [|i ids IH]; intros [|x vs] E Hl; simpl in *; auto; try discriminate.
      apply andb_true_iff in E. destruct E as [E1 E2]. apply String.eqb_eq in E1. f_equal; auto. }
    rewrite Evs. apply asg_of_in; auto.
  - apply IH. intros; apply Hc; right; auto. destruct Hi as [->|Hi]; auto. exfalso. clear - E.
    assert (G : forallb (fun kv : Z * string => String.eqb (snd kv) (a (fst kv))) (combine ids (map a ids)) = true).
    { clear E. induction ids as [|i ids IH]; simpl; auto. rewrite String.eqb_refl. auto. } rewrite G in E. discriminate.
Qed.

Lemma tabulates_ext dm ids f g p : (forall a, okon dm ids a -> f a = g a) -> tabulates dm ids f p -> tabulates dm ids g p.
Proof. intros H [H1 H2]. split; auto. intros a Ha. rewrite H2, H; auto. Qed.

Lemma sums_marginal N L S a : NoDup (vars N) -> NoDup S -> incl S (vars N) -> (forall i, In i (vars N) -> NoDup (dom N i)) ->
  (forall i, In i (vars N) -> incl (par N i) (vars N)) -> okon (dom N) S a ->
  sums (dom N) (minus (vars N) S) (weight N L) a = marginal N L S a.
Proof.
  intros HV HS Hi Hd Hp Ha. unfold marginal. pose proof (minus_perm (vars N) S HV HS Hi) as P.
  assert (Pr : proper (fun b : asg => if same_on S b a then weight N L b else 0%Qc)).
  { intros b c E. assert (Es : same_on S b a = same_on S c a) by (unfold same_on; clear - E; induction S as [|v S' IH]; simpl; [auto|rewrite (E v), IH; auto]). rewrite Es, (weight_proper N L b c E). auto. }
  rewrite (sums_perm (dom N) (vars N) (S ++ minus (vars N) S) _ no_asg Pr P). rewrite sums_app.
  assert (Dw : dep (vars N) (weight N L)).
  { intros b c E. rewrite <- !(W_weight N L (vars N)) by auto. unfold W. apply qprod_map_ext. intros i Hiv. rewrite (E i Hiv). f_equal. apply cpt_entry_dep. intros v Hv. apply E.
    apply in_app_or in Hv. destruct Hv as [Hv|[<-|[]]]; auto. eapply Hp; eauto. }
  transitivity (sums (dom N) S (fun b => if agrees S b a then sums (dom N) (minus (vars N) S) (weight N L) b else 0%Qc) no_asg).
  - rewrite sums_agree; auto.
    + apply (sums_dep' (dom N) (vars N) S (minus (vars N) S) _ Dw).
      * intros x Hx. rewrite minus_In. destruct (in_dec Z.eq_dec x S); tauto.
      * intros v Hv. symmetry. apply (updl_in (dom N)); auto.
    + apply sums_proper, weight_proper.
  - apply sums_ext. intros b. destruct (agrees S b a) eqn:E.
    + apply sums_ext_gen. intros c Hc _. change (same_on S c a) with (agrees S c a). rewrite (agrees_ext S c b a), E; auto. intros v Hv. apply Hc. rewrite minus_In. tauto.
    + symmetry. apply sums_zero. intros c Hc _. change (same_on S c a) with (agrees S c a). rewrite (agrees_ext S c b a), E; auto. intros v Hv. apply Hc. rewrite minus_In. tauto.
Qed.

Lemma marginal_agree N L L' S a : agree N L L' -> marginal N L S a = marginal N L' S a.
Proof. intros H. apply sums_ext_gen. intros b _ Hb. destruct (same_on S b a); auto. apply weight_agree; auto. Qed.

(** the walks do not look at the listener *)
Lemma collect_listener o j q x st : collect o (set_jlistener j q) st x = collect o j st x.
Proof.
  unfold collect. change (neighboring o (set_jlistener j q)) with (neighboring o j).
  destruct (neighboring o j x); auto. cbn [rbind]. apply foldM_ext. intros st' p _.
  change (walk_fuel (set_jlistener j q)) with (walk_fuel j). generalize (walk_fuel j) as f. intros f.
  assert (G : forall f st a s b, collect_walk o (set_jlistener j q) f st a s b = collect_walk o j f st a s b).
  { clear. induction f as [|f IH]; intros; simpl; auto. change (neighboring o (set_jlistener j q)) with (neighboring o j).
    destruct (neighboring o j b); auto. cbn [rbind]. destruct (mark_new (snd st) a0) as [m todo].
    rewrite (foldM_ext _ (fun st p => collect_walk o j f st b (fst p) (snd p))); auto. }
  apply G.
Qed.
Lemma distribute_listener o j q x st : distribute o (set_jlistener j q) st x = distribute o j st x.
Proof.
  unfold distribute. change (neighboring o (set_jlistener j q)) with (neighboring o j).
  destruct (neighboring o j x); auto. cbn [rbind]. apply foldM_ext. intros st' p _. change (jt_heap (set_jlistener j q)) with (jt_heap j).
  destruct (pass_message (jt_heap j) (fst st') x (fst p) (snd p)); auto. cbn [rbind].
  change (walk_fuel (set_jlistener j q)) with (walk_fuel j). generalize (walk_fuel j) as f. intros f.
  assert (G : forall f st b, distribute_walk o (set_jlistener j q) f st b = distribute_walk o j f st b).
  { clear. induction f as [|f IH]; intros; simpl; auto. change (neighboring o (set_jlistener j q)) with (neighboring o j).
    destruct (neighboring o j b); auto. cbn [rbind]. destruct (mark_new (snd st) a) as [m todo].
    apply foldM_ext. intros st' p _. destruct (pass_message (jt_heap j) (fst st') b (fst p) (snd p)); auto. cbn [rbind]. apply IH. }
  apply G.
Qed.

Section Calibrated.
  Context (N : net) (nm : Z -> string) (HN : nshape N) (Hnm : NoDup (map nm (vars N))).

  Lemma live_calibrated L j : live N nm L j -> jconn j ->
    (forall c, In c (jt_cliques j) -> exists p, dget (jt_pots j) (cl_id c) = Some p /\ tabulates (dom N) (cl_nodes c) (marginal N L (cl_nodes c)) p) /\
    (forall s, In s (jt_sepsets j) -> exists p, dget (jt_pots j) (ss_id s) = Some p /\ tabulates (dom N) (ss_nodes s) (marginal N L (ss_nodes s)) p).
  Proof using HN.
    clear Hnm. intros H Hc. pose proof (ns_nd _ HN) as HV. destruct (lv_from _ _ _ _ H) as [o [L1 [j0 [j1 [x [t [ts [HA [H0 [O E]]]]]]]]]]. subst j.
    change (jt_cliques (set_jlistener j1 true)) with (jt_cliques j1). change (jt_sepsets (set_jlistener j1 true)) with (jt_sepsets j1). change (jt_pots (set_jlistener j1 true)) with (jt_pots j1).
    pose proof (oc_same _ _ _ _ _ _ _ _ _ O) as Hs. rewrite (same_cl _ _ Hs), (same_ss _ _ Hs).
    assert (Hc0 : jconn j0) by (apply jconn_ext with j1; [symmetry; apply O|exact Hc]).
    pose proof (oc_tr _ _ _ _ _ _ _ _ _ O) as HT.
    pose proof (trees_single _ _ _ _ _ (jn_JG _ _ _ H0) Hc0 (x_clique _ _ (oc_x _ _ _ _ _ _ _ _ _ O)) HT) as Ets. subst ts.
    pose proof (vlist_perm N nm HV _ _ _ _ H0 HT) as P.
    assert (Hd : forall i, In i (vars N) -> NoDup (dom N i)) by (intros i Hi; apply (ns_dom _ HN i Hi)).
    assert (Hp : forall i, In i (vars N) -> incl (par N i) (vars N)) by (intros i Hi p Hpi; apply (ns_ends _ HN _ _ Hpi)).
    assert (Hcl : forall c, In c (jt_cliques j0) -> incl (cl_nodes c) (vars N)). { intros c Hcc v Hv. apply (jn_ids _ _ _ H0). apply bbn_ids_In. eauto. }
    assert (G : forall S, NoDup S -> incl S (vars N) -> tabulates (dom N) S (marginal N L S) (tab (dom N) S (sums (dom N) (minus (vlist t) S) (W (cpt_entry N) L1 (vlist t))))).
    { intros S NS IS. assert (Dw : dep (vars N) (W (cpt_entry N) L1 (vlist t))).
      { intros b c E. rewrite !(W_weight N L1 (vlist t)) by auto. rewrite <- !(W_weight N L1 (vars N)) by auto. unfold W. apply qprod_map_ext. intros i Hiv. rewrite (E i Hiv). f_equal. apply cpt_entry_dep. intros v Hv. apply E.
        apply in_app_or in Hv. destruct Hv as [Hv|[<-|[]]]; auto. eapply Hp; eauto. }
      eapply tabulates_ext; [|apply tab_tabulates; auto].
      - intros a Ha. rewrite <- (marginal_agree N L1 L) by auto. rewrite <- sums_marginal; auto.
        rewrite (sums_perm _ (minus (vlist t) S) (minus (vars N) S)) by (first [apply W_proper|apply Permutation_filter; auto]). apply sums_ext. intros b. apply W_weight; auto.
      - apply (sums_dep' (dom N) (vars N) S _ _ Dw). intros v Hv. rewrite minus_In. destruct (in_dec Z.eq_dec v S); auto. right. split; auto. apply (Permutation_in _ (Permutation_sym P)); auto. }
    split.
    - intros c Hcc. eexists. split; [apply (oc_c _ _ _ _ _ _ _ _ _ O)|].
      + apply (Permutation_in _ (Permutation_sym (tr_cl _ _ _ _ _ HT))) in Hcc. unfold tcliques in Hcc. simpl in Hcc. rewrite app_nil_r in Hcc. auto.
      + apply G; auto. apply (jg_cl _ (jn_JG _ _ _ H0)); auto.
    - intros s Hss. eexists. split; [apply (oc_s _ _ _ _ _ _ _ _ _ O)|].
      + apply (Permutation_in _ (Permutation_sym (tr_ss _ _ _ _ _ HT))) in Hss. unfold tseps in Hss. simpl in Hss. rewrite app_nil_r in Hss. auto.
      + destruct (jg_ss _ (jn_JG _ _ _ H0) s Hss) as [S1 [S2 S3]]. apply G; auto. eapply incl_tran; [exact S2|]. apply Hcl. apply (jg_ends _ (jn_JG _ _ _ H0) s Hss).
  Qed.

  Lemma live_again L j o : live N nm L j -> ord_ok o -> propagate o j = Ok j.
  Proof.
    clear. intros H Ho. destruct (lv_from _ _ _ _ H) as [o1 [L1 [j0 [j1 [x [t [ts [HA [H0 [O E]]]]]]]]]]. subst j.
    pose proof (oc_again _ _ _ _ _ _ _ _ _ O o Ho) as E. revert E. unfold propagate. change (jt_cliques (set_jlistener j1 true)) with (jt_cliques j1).
    destruct (isort cl_leb (jt_cliques j1)) as [|c l]; [discriminate|]. change (jt_pots (set_jlistener j1 true)) with (jt_pots j1).
    rewrite collect_listener. destruct (collect o j1 (jt_pots j1, []) c) as [st|]; [|discriminate]. cbn [rbind].
    rewrite distribute_listener. destruct (distribute o j1 (fst st, []) c) as [st'|]; [|discriminate]. cbn [rbind]. intros E. injection E as E. f_equal.
    change (set_jpots (set_jlistener j1 true) (fst st')) with (set_jlistener (set_jpots j1 (fst st')) true). rewrite E. reflexivity.
  Qed.

  (** every variable is assigned a clique that holds its family *)
  Lemma live_assigned L j : live N nm L j -> forall i, In i (vars N) ->
    exists n c, dget (jt_heap j) i = Some n /\ n_mclq n = Some (cl_id c) /\ In c (jt_cliques j) /\ incl (par N i ++ [i]) (cl_nodes c).
  Proof.
    clear. intros H i Hi. destruct (lv_from _ _ _ _ H) as [o1 [L1 [j0 [j1 [x [t [ts [HA [H0 [O E]]]]]]]]]]. subst j.
    destruct (oc_fill _ _ _ _ _ _ _ _ _ O) as [_ F]. apply (jn_ids _ _ _ H0) in Hi. pose proof (jn_hg _ _ _ H0) as G.
    destruct (hg_node _ _ _ _ G i Hi) as [n [E1 _]]. destruct (asn_ok _ _ _ _ G i Hi) as [c [Hc [Ea Hinc]]].
    exists (set_mclq n (assigned j0 i)), c. change (jt_heap (set_jlistener j1 true)) with (jt_heap j1). rewrite F, (proj2 (mem_In _ _) Hi), E1. split; auto. split; [simpl; congruence|].
    split; auto. change (jt_cliques (set_jlistener j1 true)) with (jt_cliques j1). rewrite (same_cl _ _ (oc_same _ _ _ _ _ _ _ _ _ O)). auto.
  Qed.

  (** reading the posteriors never fails, whatever the network looks like *)
  Lemma live_names L j : live N nm L j -> exists t, get_posteriors j = Ok t /\ Permutation (map fst t) (map nm (vars N)) /\
    forall i, In i (vars N) -> exists m, dget t (nm i) = Some m /\ map fst m = dom N i.
  Proof using HN Hnm.
    intros H. pose proof (ns_nd _ HN) as HV. destruct (lv_from _ _ _ _ H) as [o [L1 [j0 [j1 [x [t [ts [HA [H0 [O E]]]]]]]]]]. subst j.
    change (get_posteriors (set_jlistener j1 true)) with (get_posteriors j1).
    assert (HL' : forall i v, In i (jt_bbn_ids j0) -> In v (dom N i) -> (0 <= L1 i v)%Qc) by (intros k v Hk Hv; apply (jn_ids _ _ _ H0) in Hk; rewrite HA by auto; apply (lv_pos _ _ _ _ H); auto).
    destruct (get_posteriors_ok _ _ _ L1 j0 j1 (jn_JG _ _ _ H0) (jn_hg _ _ _ H0) HL' o x t ts O (names_nd N nm HV Hnm j0 H0)) as [f [E1 _]].
    pose proof (jn_perm N nm HV j0 H0) as P.
    eexists. split; [exact E1|]. rewrite map_map. simpl. split.
    - rewrite <- P. apply Permutation_refl' || idtac. rewrite (map_ext_in (h_name (jt_heap j0)) nm); [reflexivity|]. intros i Hi. apply (jn_nm _ _ _ H0). apply (jn_ids _ _ _ H0); auto.
    - intros i Hi. eexists. split.
      + rewrite <- (jn_nm _ _ _ H0 i Hi). apply (dget_map_key (h_name (jt_heap j0)) (fun i => map (fun y => (y, f i (asg_of [i] [y]))) (dom N i))).
        apply names_nd with N nm; auto. apply (jn_ids _ _ _ H0); auto.
      + rewrite map_map. simpl. apply map_id.
  Qed.
End Calibrated.
