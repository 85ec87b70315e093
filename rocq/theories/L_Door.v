(** Adjusting for a set that blocks the backdoor paths. *)
From Verif Require Import Py M_Node M_Pptc Spec SpecNet SpecPot SpecEv SpecAce SpecNx SpecDo SpecSep L_Base L_PD L_Sums L_Table L_Dag L_Apply L_P4 L_Cut L_Claims L_Do L_Sep1 L_Sep2 L_Sep3.
Local Open Scope Qc_scope.

Section Door.
  Context (N : net) (HN : nshape N) (HA : acyclic (is_parent N)) (HS : stochastic N) (x : Z) (Hx : In x (vars N)) (xv : string) (Hxv : In xv (dom N x)).
  Notation V := (vars N).
  Notation dm := (dom N).

  (** the network in which the children of [x] no longer listen to it, but see the value [xv] *)
  Definition par_s (v : Z) : list Z := filter (fun p => negb (Z.eqb p x)) (par N v).
  Definition Ns : net := mkNet V dm par_s
    (fun v => if Z.eqb v x then cpt N x else map pe_val (tab dm (par_s v ++ [v]) (fun a => cpt_entry N v (upd a x xv)))).

  Lemma par_s_In v p : In p (par_s v) <-> In p (par N v) /\ p <> x.
  Proof. unfold par_s. rewrite filter_In, negb_true_iff, Z.eqb_neq. tauto. Qed.
  Lemma par_s_same v : ~ In x (par N v) -> par_s v = par N v.
  Proof.
    intros H. unfold par_s. induction (par N v) as [|p l IH]; simpl; auto. destruct (Z.eqb_spec p x) as [->|Hn]; simpl; [exfalso; apply H; left; auto|]. f_equal. apply IH. intros Hi; apply H; right; auto.
  Qed.
  Lemma par_s_x : par_s x = par N x.
  Proof using HN. apply par_s_same, x_notin; auto. Qed.
  Lemma scope_s v : In v V -> proper_scope dm (par_s v ++ [v]).
  Proof using HN.
    intros Hv. pose proof (ns_par _ HN v) as H. apply NoDup_app_iff in H. destruct H as (H1 & H2 & H3). split.
    - apply NoDup_app_iff. split; [apply NoDup_filter; auto|]. split; auto. intros p Hp. apply H3. apply par_s_In in Hp. tauto.
    - intros p Hp. apply (ns_dom _ HN). apply in_app_or in Hp. destruct Hp as [Hp|[<-|[]]]; auto. apply par_s_In in Hp. apply (ns_ends _ HN p v). tauto.
  Qed.
  Lemma okon_upd_x v b : okon dm (par_s v ++ [v]) b -> okon dm (par N v ++ [v]) (upd b x xv).
  Proof using Hxv.
    intros Hb p Hp. unfold upd. destruct (Z.eqb_spec p x) as [->|Hn]; auto. apply Hb. apply in_app_or in Hp. apply in_or_app. destruct Hp as [Hp|Hp]; auto. left. apply par_s_In. auto.
  Qed.
  Lemma entry_x b : cpt_entry Ns x b = cpt_entry N x b.
  Proof using HN. unfold cpt_entry, Ns. cbn [dom par cpt]. rewrite Z.eqb_refl, par_s_x. auto. Qed.
  Lemma entry_s v b : In v V -> v <> x -> okon dm (par_s v ++ [v]) b -> cpt_entry Ns v b = cpt_entry N v (upd b x xv).
  Proof using HN.
    intros Hv Hn Hb. unfold cpt_entry at 1, Ns. cbn [dom par cpt]. apply Z.eqb_neq in Hn. rewrite Hn. apply Z.eqb_neq in Hn.
    pose proof (tab_entry dm (par_s v ++ [v]) (fun a => cpt_entry N v (upd a x xv)) b (scope_s v Hv) Hb) as E.
    apply (map_nth_error pe_val) in E. cbn [pe_val] in E. rewrite (nth_error_nth _ _ _ E). apply cpt_dep. intros p Hp. unfold upd. destruct (Z.eqb_spec p x) as [->|Hpx]; auto.
    apply (asg_of_in dm). apply in_app_or in Hp. apply in_or_app. destruct Hp as [Hp|Hp]; auto. left. apply par_s_In. auto.
  Qed.
  Lemma entry_same v b : In v V -> okon dm (par N v ++ [v]) b -> b x = xv -> cpt_entry Ns v b = cpt_entry N v b.
  Proof using HN.
    intros Hv Hb Ex. destruct (Z.eq_dec v x) as [->|Hn]; [apply entry_x|]. rewrite entry_s; auto.
    - apply cpt_dep. intros p _. unfold upd. destruct (Z.eqb_spec p x) as [->|]; auto.
    - intros p Hp. apply Hb. apply in_app_or in Hp. apply in_or_app. destruct Hp as [Hp|Hp]; auto. apply par_s_In in Hp. tauto.
  Qed.
  Lemma entry_nonneg M v b : (forall q, In q (cpt M v) -> 0 <= q) -> 0 <= cpt_entry M v b.
  Proof. intros H. unfold cpt_entry. destruct (nth_in_or_default (row_index (dom M) (par M v ++ [v]) b) (cpt M v) 0) as [Hi|E0]; [auto|rewrite E0; apply Qcle_refl]. Qed.

  Lemma Ns_shape : nshape Ns.
  Proof using HN.
    constructor; cbn [vars dom par cpt Ns].
    - apply (ns_nd _ HN).
    - apply (ns_some _ HN).
    - apply (ns_dom _ HN).
    - intros i Hi. destruct (Z.eqb_spec i x) as [->|Hn]; [rewrite par_s_x; apply (ns_cpt _ HN); auto|]. rewrite map_length. unfold tab. rewrite map_length, cartesian_len, size_vsize. auto.
    - intros i q Hi Hq. destruct (Z.eqb_spec i x) as [->|Hn]; [apply (ns_pos _ HN x); auto|]. apply in_map_iff in Hq. destruct Hq as (e & <- & He). unfold tab in He. apply in_map_iff in He. destruct He as (ws & <- & _). cbn [pe_val].
      apply entry_nonneg. intros q Hq. apply (ns_pos _ HN i); auto.
    - intros i. pose proof (ns_par _ HN i) as H. apply NoDup_app_iff in H. destruct H as (H1 & H2 & H3). apply NoDup_app_iff. split; [apply NoDup_filter; auto|]. split; auto. intros p Hp. apply H3. apply par_s_In in Hp. tauto.
    - intros i k Hi. apply par_s_In in Hi. apply (ns_ends _ HN). tauto.
  Qed.
  Lemma Ns_parent p v : is_parent Ns p v <-> is_parent N p v /\ p <> x.
  Proof. unfold is_parent. cbn [vars par Ns]. rewrite par_s_In. tauto. Qed.
  Lemma Ns_acyclic : acyclic (is_parent Ns).
  Proof using HA. intros a b H1 H2. apply (HA a b); [apply Ns_parent; auto|]. eapply path_mono; [|exact H2]. intros u v H. apply Ns_parent in H. tauto. Qed.
  Lemma Ns_stochastic : stochastic Ns.
  Proof using HN HS Hxv.
    intros v a Hv Ha. cbn [vars dom par Ns] in *. destruct (Z.eq_dec v x) as [->|Hn].
    - rewrite (qsum_map_ext _ (fun y => cpt_entry N x (upd a x y))) by (intros; apply entry_x). apply HS; auto. rewrite par_s_x in Ha. auto.
    - rewrite (qsum_map_ext _ (fun y => cpt_entry N v (upd (upd a x xv) v y))).
      + apply HS; auto. intros p Hp. unfold upd. destruct (Z.eqb_spec p x) as [->|]; auto. apply Ha. apply par_s_In. auto.
      + intros y Hy. rewrite entry_s; auto.
        * apply cpt_dep. intros p _. unfold upd. destruct (Z.eqb_spec p x) as [E1|E1]; destruct (Z.eqb_spec p v) as [E2|E2]; auto; congruence.
        * intros p Hp. unfold upd. destruct (Z.eqb_spec p v) as [->|Hpv]; auto. apply in_app_or in Hp. destruct Hp as [Hp|[Hp|[]]]; [auto|congruence].
  Qed.

  (** ** weights *)
  Lemma okon_fam M b v : nshape M -> okon (dom M) (vars M) b -> In v (vars M) -> okon (dom M) (par M v ++ [v]) b.
  Proof. intros HM Hb Hv p Hp. apply Hb. apply in_app_or in Hp. destruct Hp as [Hp|[<-|[]]]; auto. apply (ns_ends _ HM p v Hp). Qed.
  Lemma weight_same L b : okon dm V b -> b x = xv -> weight Ns L b = weight N L b.
  Proof using HN.
    intros Hb Ex. unfold weight. cbn [vars Ns]. f_equal. apply qprod_map_ext. intros v Hv. apply entry_same; auto. apply okon_fam; auto.
  Qed.
  (** the weight in the new network is the table of [x] times the truncated product at [xv] *)
  Lemma weight_cut b : okon dm V b -> qprod (map (fun v => cpt_entry Ns v b) V) = cpt_entry N x b * cut_weight N x (upd b x xv).
  Proof using HN Hx.
    intros Hb. change (qprod (map (fun v => cpt_entry Ns v b) (vars Ns)) = cpt_entry N x b * cut_weight N x (upd b x xv)). rewrite (cut_cpt Ns Ns_shape x Hx). rewrite entry_x. f_equal.
    unfold cut_weight. cbn [vars Ns]. apply qprod_map_ext. intros v Hv. destruct (Z.eqb_spec v x) as [->|Hn]; auto. apply entry_s; auto. apply (okon_fam Ns b v); auto. apply Ns_shape.
  Qed.

  Variables (Zs : list Z) (y : Z).
  Hypothesis (HZ : NoDup Zs) (HZv : incl Zs V) (HxZ : ~ In x Zs) (Hy : In y V) (Hyx : y <> x) (HyZ : ~ In y Zs).
  Definition sel (a : asg) (b : asg) : Qc := if same_on Zs b a then 1 else 0.
  Lemma sel_dep a : dep Zs (sel a).
  Proof. apply same_on_dep. Qed.
  Lemma weight_seeing M S c b : vars M = V -> incl S V -> weight M (seeing S c) b = (if same_on S b c then 1 else 0) * qprod (map (fun v => cpt_entry M v b) V).
  Proof. intros E HI. unfold weight. rewrite E. rewrite (seeing_prod N S c b HI). ring. Qed.

  (** values of [x] summed out of the new network leave the intervention *)
  Lemma sum_x (F : asg -> Qc) : dep (filter (fun v => negb (Z.eqb v x)) V) F ->
    sums dm V (fun b => F b * qprod (map (fun v => cpt_entry Ns v b) V)) no_asg =
    sums dm V (fun b => if string_dec (b x) xv then F b * cut_weight N x b else 0) no_asg.
  Proof using HN HS Hx Hxv.
    intros HF. set (W := filter (fun v => negb (Z.eqb v x)) V) in *.
    assert (HP : Permutation V (W ++ [x])).
    { eapply Permutation_trans; [apply (filter_cut (fun v => negb (Z.eqb v x)))|]. fold W. apply Permutation_app_head.
      pose proof (ns_nd _ HN) as Hd. apply NoDup_Permutation; [apply NoDup_filter; auto|constructor; [intros []|constructor]|].
      intros v. rewrite filter_In, negb_involutive, Z.eqb_eq. simpl. split; [intros [_ ->]; auto|intros [<-|[]]; auto]. }
    assert (FP : proper F) by (eapply dep_proper; eauto).
    assert (P1 : proper (fun b => F b * qprod (map (fun v => cpt_entry Ns v b) V))). { apply proper_mult; auto. apply (cpts_proper Ns Ns_shape). }
    assert (P2 : proper (fun b => if string_dec (b x) xv then F b * cut_weight N x b else 0)).
    { intros b1 b2 E. rewrite E, (FP b1 b2 E), (cut_proper N HN x b1 b2 E). auto. }
    rewrite !(sums_perm dm V (W ++ [x]) _ no_asg); auto. rewrite !sums_app. apply sums_ext_gen. intros b Hb Hok.
    rewrite sums_select by (auto; apply (ns_dom _ HN); auto).
    assert (HFx : forall z, F (upd b x z) = F b). { intros z. apply HF. intros v Hv. apply upd_neq. intros ->. apply filter_In in Hv. rewrite Z.eqb_refl in Hv. destruct Hv; discriminate. }
    rewrite HFx. cbn [sums]. transitivity (qsum (map (fun z => (F b * cut_weight N x (upd b x xv)) * cpt_entry N x (upd b x z)) (dm x))).
    - apply qsum_map_ext. intros z Hz. rewrite HFx, weight_cut.
      + rewrite (cut_proper N HN x (upd (upd b x z) x xv) (upd b x xv)); [ring|]. intros u. unfold upd. destruct (Z.eqb u x); auto.
      + intros v Hv. unfold upd. destruct (Z.eqb_spec v x) as [->|Hn]; auto. apply Hok. apply filter_In. split; auto. apply negb_true_iff, Z.eqb_neq; auto.
    - rewrite qsum_map_mult. rewrite HS; auto; [ring|]. intros p Hp. apply Hok. apply filter_In. split; [apply (ns_ends _ HN p x Hp)|]. apply negb_true_iff, Z.eqb_neq. intros ->. apply (x_notin N HN x Hp).
  Qed.
  Lemma W_In v : In v V -> v <> x -> In v (filter (fun v => negb (Z.eqb v x)) V).
  Proof. intros Hv Hn. apply filter_In. split; auto. apply negb_true_iff, Z.eqb_neq; auto. Qed.

  (** mass of [y] and the values [a] of [Zs] under the intervention *)
  Definition door_mass (yv : string) (a : asg) : Qc :=
    sums dm V (fun b => if string_dec (b x) xv then (if same_on Zs b a then (if string_dec (b y) yv then cut_weight N x b else 0) else 0) else 0) no_asg.
  Lemma mass_door yv a : mass_of Ns (seeing Zs a) y yv = door_mass yv a.
  Proof using HN HS Hx Hxv HZv HxZ Hy Hyx.
    unfold mass_of, door_mass. cbn [vars dom Ns].
    transitivity (sums dm V (fun b => (sel a b * (if string_dec (b y) yv then 1 else 0)) * qprod (map (fun v => cpt_entry Ns v b) V)) no_asg).
    - apply sums_ext. intros b. rewrite (weight_seeing Ns) by auto. unfold sel. destruct (string_dec (b y) yv), (same_on Zs b a); ring.
    - rewrite sum_x.
      + apply sums_ext. intros b. unfold sel. destruct (string_dec (b x) xv), (string_dec (b y) yv), (same_on Zs b a); ring.
      + apply dep_mult.
        * eapply dep_mono; [|apply sel_dep]. intros v Hv. apply W_In; auto. intros ->; auto.
        * intros b c E. rewrite (E y); auto. apply W_In; auto.
  Qed.
  Lemma do_door yv : do_prob N x xv y yv = sums dm Zs (door_mass yv) no_asg.
  Proof using HN HZ HZv.
    unfold door_mass. rewrite (sums_swap dm Zs V (fun a b => if string_dec (b x) xv then (if same_on Zs b a then (if string_dec (b y) yv then cut_weight N x b else 0) else 0) else 0)).
    unfold do_prob. apply sums_ext_gen. intros b _ Hb.
    set (g := if string_dec (b x) xv then (if string_dec (b y) yv then cut_weight N x b else 0) else 0).
    transitivity (sums dm Zs (fun a => if agrees Zs a b then g else 0) no_asg).
    - symmetry. apply (sums_agree dm Zs (fun _ => g) b no_asg); auto.
      + intros v Hv. apply (ns_dom _ HN). auto.
      + intros v Hv. apply Hb. auto.
      + intros ? ? _. auto.
    - apply sums_ext. intros a. unfold g. assert (Es : agrees Zs a b = same_on Zs b a).
      { unfold agrees, same_on. generalize Zs. intros l. induction l as [|v l IH]; simpl; auto. rewrite IH, String.eqb_sym; auto. }
      rewrite Es. destruct (string_dec (b x) xv), (same_on Zs b a); auto.
  Qed.

  (** [Zs] has the distribution it always had, as no member is a descendant of [x] *)
  Hypothesis Hnd : forall z, In z Zs -> ~ path (is_parent N) x z.
  Definition before (v : Z) : bool := mem v (M_Nx.closure (List.length V) (par N) (fold_left sadd Zs [])).
  Lemma before_ok v : before v = true <-> exists z, In z Zs /\ path (fun a b => In b (par N a)) z v.
  Proof using HN HZv. unfold before. rewrite mem_In. apply (L_Nx.closure_set V (par N)); auto. intros a b _ H. apply (ns_ends _ HN b a H). Qed.
  Lemma prior_door M a : nshape M -> acyclic (is_parent M) -> stochastic M -> vars M = V -> dom M = dm ->
    (forall v, before v = true -> In v V -> par M v = par N v) -> total M (seeing Zs a) = sums dm (filter before V) (fun b => sel a b * qprod (map (fun v => cpt_entry M v b) (filter before V))) no_asg.
  Proof using HN HZv.
    intros HM HAM HSM Ev Ed Hp. unfold total. rewrite Ed, Ev.
    set (C := filter before V). set (L := filter (fun v => negb (before v)) V).
    assert (P : Permutation V (C ++ L)) by apply filter_cut.
    assert (HD : NoDup (C ++ L)) by (eapply Permutation_NoDup; [exact P|apply (ns_nd _ HN)]).
    assert (HI : incl (C ++ L) V) by (intros v Hv; eapply Permutation_in; [symmetry; exact P|exact Hv]).
    assert (HF : dep C (sel a)). { eapply dep_mono; [|apply sel_dep]. intros z Hz. apply filter_In. split; auto. apply before_ok. exists z. split; auto. constructor. }
    assert (HC : forall v, In v C -> incl (par M v) C).
    { intros v Hv p Hpv. apply filter_In in Hv. destruct Hv as [Hv Hb]. rewrite Hp in Hpv by auto. apply filter_In. split; [apply (ns_ends _ HN p v Hpv)|].
      apply before_ok in Hb. destruct Hb as (z & Hz & Hzp). apply before_ok. exists z. split; auto. eapply path_trans; [exact Hzp|]. apply path_one. auto. }
    transitivity (sums dm V (fun b => sel a b * qprod (map (fun v => cpt_entry M v b) V)) no_asg).
    { apply sums_ext. intros b. rewrite (weight_seeing M) by auto. reflexivity. }
    rewrite (sums_perm dm V (C ++ L)); auto.
    2:{ apply proper_mult. eapply dep_proper; eauto. rewrite <- Ev. apply (cpts_proper M HM). }
    transitivity (sums dm (C ++ L) (fun b => sel a b * qprod (map (fun v => cpt_entry M v b) (C ++ L))) no_asg).
    { apply sums_ext. intros b. f_equal. apply qprod_perm, Permutation_map. auto. }
    rewrite <- Ed. rewrite <- Ev in HI. apply (sum_out (dom M) (vars M) (par M) (cpt_entry M) HAM (fun v _ => cpt_dep M v) HSM (List.length L) L C (sel a) no_asg eq_refl HD HI HC); auto.
    intros v Hv p Hpv. eapply Permutation_in; [exact P|]. rewrite <- Ev. apply (ns_ends _ HM p v Hpv).
  Qed.
  Lemma before_not_x v : before v = true -> In v V -> v <> x /\ ~ In x (par N v).
  Proof using HN HZv HxZ Hnd.
    intros H Hv. apply before_ok in H. destruct H as (z & Hz & Hp).
    assert (Hp' : path (is_parent N) v z). { eapply path_flip; [|exact Hp]. intros a b Hb. split; auto. apply (ns_ends _ HN b a Hb). }
    split; [intros ->; apply (Hnd z Hz Hp')|]. intros Hxp. apply (Hnd z Hz). apply path_step with v; auto. split; auto.
  Qed.
  Lemma total_door a : total Ns (seeing Zs a) = total N (seeing Zs a).
  Proof using HN HA HS Hxv HZv HxZ Hnd.
    rewrite (prior_door Ns a Ns_shape Ns_acyclic Ns_stochastic eq_refl eq_refl), (prior_door N a HN HA HS eq_refl eq_refl); auto.
    - apply sums_ext_gen. intros b Hb Hok. f_equal. apply qprod_map_ext. intros v Hv. pose proof Hv as Hv0. apply filter_In in Hv. destruct Hv as [Hv Hbv]. destruct (before_not_x v Hbv Hv) as [N1 N2].
      assert (Hc : forall p, In p (par N v) -> In p (filter before V)).
      { intros p Hp. apply filter_In. split; [apply (ns_ends _ HN p v Hp)|]. apply before_ok in Hbv. destruct Hbv as (z & Hz & Hzp). apply before_ok. exists z. split; auto. eapply path_trans; [exact Hzp|]. apply path_one. auto. }
      rewrite entry_s; auto.
      + apply cpt_dep. intros p Hp. apply upd_neq. intros ->. apply in_app_or in Hp. destruct Hp as [Hp|[Hp|[]]]; [tauto|congruence].
      + intros p Hp. apply Hok. apply in_app_or in Hp. destruct Hp as [Hp|[<-|[]]]; auto. apply par_s_In in Hp. apply Hc. tauto.
    - intros v Hv HvV. apply par_s_same. apply (before_not_x v Hv HvV).
  Qed.

  (** ** the graph *)
  Variable es : list (Z * Z).
  Hypothesis HE : same_arcs N es.
  Definition es_s : list (Z * Z) := filter (fun e => negb (Z.eqb (fst e) x)) es.
  Lemma es_s_In p v : In (p, v) es_s <-> In (p, v) es /\ p <> x.
  Proof. unfold es_s. rewrite filter_In. cbn [fst]. rewrite negb_true_iff, Z.eqb_neq. tauto. Qed.
  Lemma es_s_arcs : same_arcs Ns es_s.
  Proof using HE. intros p v. rewrite es_s_In, Ns_parent, (HE p v). tauto. Qed.
  Hypothesis Hdoor : forall p, simple_path es x y p -> backdoor es p -> ~ open_path es Zs p.
  Lemma door_separated : separated es_s Zs x y.
  Proof using HA HE Hdoor Hnd Hx HxZ Hxv Hyx.
    intros p (ND & Ch & H1 & H2) Ho. pose proof (es_acyclic N HA es HE) as A. destruct p as [|a p]; [discriminate|]. simpl in H1. injection H1 as ->.
    assert (Ch' : chain (sym (arc es)) (x :: p)). { eapply chain_impl; [|exact Ch]. intros u v [H|H]; apply es_s_In in H; [left|right]; apply H. }
    destruct p as [|w p]. { simpl in H2. injection H2 as ->. tauto. }
    assert (Hw : In (w, x) es). { simpl in Ch. destruct Ch as [[H|H] _]; apply es_s_In in H; [destruct H as [_ H]; tauto|apply H]. }
    assert (Hx' : forall z, In z (w :: p) -> z <> x). { intros z Hz ->. inversion ND; subst. tauto. }
    apply (Hdoor (x :: w :: p)); [split; auto|exact Hw|].
    assert (Col : forall a z b, triple (x :: w :: p) a z b -> (collides es a z b <-> collides es_s a z b)).
    { intros a z b Ht. unfold collides. rewrite !es_s_In. split; [|tauto]. intros [C1 C2]. apply triple_cons in Ht. destruct Ht as [[-> (r & Er)]|Ht].
      - injection Er as <- _. exfalso. apply (A x w C1). apply path_one. exact Hw.
      - apply triple_In in Ht. destruct Ht as (T1 & _ & T3). split; split; auto. }
    intros a z b Ht. destruct (Ho a z b Ht) as [O1 O2]. rewrite (Col a z b Ht). split; auto. intros Hc. destruct (O1 Hc) as (v & Hv & Hz). exists v. split; auto.
    eapply path_mono; [|exact Hv]. intros u t H. apply es_s_In in H. apply H.
  Qed.

  (** ** the formula *)
  Lemma seeing_pinned M S c i : dom M = dm -> In i S -> In (c i) (dm i) -> pinned M (seeing S c) i.
  Proof.
    intros Ed Hi Hc. exists (c i). rewrite Ed. split; auto. intros v _ Hn. unfold seeing. rewrite (proj2 (mem_In i S) Hi). apply String.eqb_neq in Hn. rewrite Hn. auto.
  Qed.
  Lemma seeing_free M S c i : ~ In i S -> free M (seeing S c) i.
  Proof. intros Hn v _. unfold seeing. destruct (mem_spec i S); [tauto|auto]. Qed.
  Lemma term_same a : total Ns (seeing (x :: Zs) (upd a x xv)) = total N (seeing (x :: Zs) (upd a x xv)) /\
    forall yv, mass_of Ns (seeing (x :: Zs) (upd a x xv)) y yv = mass_of N (seeing (x :: Zs) (upd a x xv)) y yv.
  Proof using HN Hx HZv.
    assert (W : forall b, okon dm V b -> weight Ns (seeing (x :: Zs) (upd a x xv)) b = weight N (seeing (x :: Zs) (upd a x xv)) b).
    { intros b Hb. destruct (string_dec (b x) xv) as [E|E]; [apply weight_same; auto|].
      assert (HI : incl (x :: Zs) V) by (intros v [<-|Hv]; auto). rewrite (weight_seeing Ns _ _ b eq_refl HI), (weight_seeing N _ _ b eq_refl HI).
      assert (Es : same_on (x :: Zs) b (upd a x xv) = false). { unfold same_on. simpl. rewrite upd_eq. apply String.eqb_neq in E. rewrite E. auto. }
      rewrite Es. ring. }
    split; [apply sums_ext_gen; intros b _ Hb; apply W; auto|]. intros yv. apply sums_ext_gen. intros b _ Hb. cbn [vars dom Ns] in *. rewrite W by auto. auto.
  Qed.
  Lemma seeing_nonneg S c i v : 0 <= seeing S c i v.
  Proof. unfold seeing. destruct (mem i S); [destruct (String.eqb v (c i))|]; discriminate. Qed.

  Theorem backdoor_formula yv : In yv (dm y) ->
    (forall a, okon dm Zs a -> total N (seeing Zs a) <> 0 -> total N (seeing (x :: Zs) (upd a x xv)) <> 0) ->
    do_prob N x xv y yv = sums dm Zs (fun a => exact_posterior N (seeing (x :: Zs) (upd a x xv)) y yv * total N (seeing Zs a)) no_asg.
  Proof using All.
    intros Hyv Hov. rewrite do_door. apply sums_ext_gen. intros a _ Ha. rewrite <- mass_door, <- total_door.
    destruct (Qc_eq_dec (total Ns (seeing Zs a)) 0) as [Z0|Z0].
    - rewrite Z0, Qcmult_0_r. rewrite <- (mass_total Ns _ Ns_shape y Hy) in Z0. apply (qsum_zero_nonneg _) with (x := mass_of Ns (seeing Zs a) y yv) in Z0; auto.
      + intros q Hq. apply in_map_iff in Hq. destruct Hq as (v & <- & _). apply (mass_nonneg Ns _ Ns_shape). intros; apply seeing_nonneg.
      + apply in_map. exact Hyv.
    - destruct (term_same a) as [T1 T2]. assert (P' : total Ns (seeing (x :: Zs) (upd a x xv)) <> 0). { rewrite T1. apply Hov; auto. rewrite <- total_door. auto. }
      assert (E : exact_posterior Ns (seeing Zs a) y yv = exact_posterior Ns (seeing (x :: Zs) (upd a x xv)) y yv).
      { apply (dsep Ns Ns_shape Ns_acyclic Ns_stochastic es_s es_s_arcs [x] y Zs).
        - intros i [<-|[]]. exact Hx.
        - exact Hy.
        - exact HZv.
        - intros i [<-|[]]. exact HxZ.
        - exact HyZ.
        - intros i [<-|[]]. apply door_separated.
        - intros z Hz. apply seeing_pinned; auto.
        - intros i Hi N1 _ _. apply seeing_free; auto.
        - intros i v Hi Hn Hv. assert (Hne : i <> x) by (intros ->; apply Hn; left; auto). unfold seeing. simpl. destruct (Z.eqb_spec i x); [tauto|]. cbn [orb]. rewrite upd_neq by auto. auto.
        - exact Z0.
        - exact P'. }
      assert (E2 : exact_posterior Ns (seeing (x :: Zs) (upd a x xv)) y yv = exact_posterior N (seeing (x :: Zs) (upd a x xv)) y yv).
      { unfold exact_posterior. rewrite T1, T2. auto. }
      rewrite <- E2, <- E. unfold exact_posterior. destruct (Qc_eq_dec (total Ns (seeing Zs a)) 0); [tauto|]. field. auto.
  Qed.
End Door.
