(** Sampling: the claims. *)
From Verif Require Import Py M_Graph M_Node M_Sampling Spec SpecNet SpecPot SpecSamp L_Base L_Sums L_Table L_UG L_Moral L_Build L_Apply L_Net L_P4 L_Samp L_Sort L_Samp2.
Open Scope nat_scope.

Lemma c28 : forall dm n ps, proper_nodes dm (ps ++ [n]) -> ascending (map n_id ps) ->
  (2 <= List.length ps -> forall p x, In p ps -> In x (n_values p) -> no_comma x) -> n_values n <> [] ->
  size dm (map n_id ps ++ [n_id n]) <= List.length (n_probs n) -> (forall q, In q (n_probs n) -> (0 <= q)%Qc) ->
  exists t, mk_table n ps = Ok t /\
    forall a s u, okon dm (map n_id ps) a -> records s (map n_id ps) a -> (0 <= u)%Qc ->
    let row := row_for dm (n_probs n) (map n_id ps) (n_id n) a in
    (forall i x, nth_error (n_values n) i = Some x ->
       (get_value t u s = Ok x <-> (below row i <= u)%Qc /\ (u < below row (S i))%Qc) /\
       (below row (S i) - below row i = nth i row 0)%Qc) /\
    ((qsum row <= u)%Qc -> get_value t u s = Err IndexError).
Proof.
  intros dm n ps HP Has Hc Hne Hs Hn. destruct (table_ok dm n ps HP Has Hc Hne Hs Hn) as (t & E & _ & _ & Ht).
  exists t. split; auto. intros a s u Ha Hr Hu row. destruct (Ht a s u Ha Hr Hu) as [H1 H2]. split; auto.
  assert (Hd : dm (n_id n) = n_values n) by (apply (proj2 HP); apply in_or_app; simpl; auto).
  intros i x Ex. rewrite <- Hd in Ex. split; auto.
  assert (Hi : i < List.length row) by (unfold row, row_for; rewrite map_length; apply nth_error_Some; congruence).
  destruct (nth_error row i) as [q|] eqn:Eq; [|apply nth_error_None in Eq; lia]. rewrite (below_S row i q Eq), (nth_error_nth row i 0%Qc Eq). ring.
Qed.

Section Sampler.
  Variables (srt : sorter) (ops : list bop) (s : sampler).
  Hypothesis K : sorter_ok srt.
  Hypothesis W : well_shaped ops.
  Hypothesis C : clean ops.
  Let N := net_of ops.

  Lemma nodes_ids : map n_id (get_nodes (b_g (build ops))) = net_vars ops.
  Proof.
    pose proof (build_inv ops) as B. rewrite <- (bi_ids _ _ B). unfold get_nodes, ids, dvals. rewrite map_map. apply map_ext_in. intros [k n] H. simpl. apply (bi_kid _ _ B); auto.
  Qed.
  Definition snodes : list snode := map (fun i => mkSn i (sof (spar ops i))) (net_vars ops).
  Lemma snodes_eq : map (fun n => mkSn (n_id n) (sof (get_parents_ordered (build ops) (n_id n)))) (get_nodes (b_g (build ops))) = snodes.
  Proof. unfold snodes. rewrite <- nodes_ids, map_map. apply map_ext. intros n. rewrite parents_ordered; auto. Qed.
  Lemma snodes_In x : In x snodes <-> In (sn_id x) (net_vars ops) /\ x = mkSn (sn_id x) (sof (spar ops (sn_id x))).
  Proof.
    unfold snodes. rewrite in_map_iff. split.
    - intros (i & <- & Hi). simpl. auto.
    - intros [Hi E]. exists (sn_id x). auto.
  Qed.
  Lemma snodes_NoDup : NoDup snodes.
  Proof. apply NoDup_map_inj. intros x y _ _ E. injection E; auto. apply firsts_NoDup. Qed.
  Lemma sort_perm : Permutation (topological_sort srt (build ops)) (net_vars ops).
  Proof.
    unfold topological_sort. rewrite snodes_eq. rewrite (Permutation_map sn_id (proj1 K pa_lt snodes)). unfold snodes. rewrite map_map. simpl. rewrite map_id. auto.
  Qed.
  Lemma sn_par x p : In x snodes -> In p (sn_parents x) <-> In p (par N (sn_id x)).
  Proof. intros H. apply snodes_In in H as [_ E]. rewrite E at 1. simpl. rewrite sof_In, spar_In. tauto. Qed.
  Lemma pa_lt_iff x y : In x snodes -> In y snodes -> (pa_lt x y = true <-> precedes N (sn_id x) (sn_id y)).
  Proof.
    intros Hx Hy. unfold pa_lt, pa_sorter, precedes. rewrite <- (sn_par y (sn_id x) Hy), <- (sn_par x (sn_id y) Hx).
    destruct (mem_spec (sn_id x) (sn_parents y)) as [H1|H1]; [tauto|].
    destruct (mem_spec (sn_id y) (sn_parents x)) as [H2|H2]; [split; [discriminate|tauto]|].
    destruct (Z.compare_spec (sn_id x) (sn_id y)); split; auto; try discriminate; intros [|[_ ?]]; tauto || lia.
  Qed.
  Lemma sort_topological : acyclic (is_parent N) -> consistent N -> topological N (topological_sort srt (build ops)).
  Proof.
    intros Hac Hcons. split; [apply sort_perm|].
    assert (SO : strict_order pa_lt snodes).
    { split; [|split].
      - intros x y Hx Hy E. destruct (pa_lt y x) eqn:E'; auto. exfalso. apply pa_lt_iff in E; auto. apply pa_lt_iff in E'; auto.
        assert (In (sn_id x) (net_vars ops) /\ In (sn_id y) (net_vars ops)) as [Vx Vy] by (apply snodes_In in Hx, Hy; tauto).
        destruct E as [E|[E1 E2]], E' as [E'|[E1' E2']]; try tauto; try lia.
        apply (Hac (sn_id x) (sn_id y)). split; auto. apply path_step with (sn_id x). split; auto. apply path_refl.
      - intros x y Hx Hy Hne. rewrite !pa_lt_iff by auto. unfold precedes.
        assert (sn_id x <> sn_id y). { intros E. apply Hne. apply snodes_In in Hx as [_ ->], Hy as [_ ->]. simpl. rewrite E; auto. }
        destruct (in_dec Z.eq_dec (sn_id x) (par N (sn_id y))), (in_dec Z.eq_dec (sn_id y) (par N (sn_id x))); auto.
        destruct (Z.lt_total (sn_id x) (sn_id y)) as [|[|]]; auto; tauto.
      - intros x y z Hx Hy Hz. rewrite !pa_lt_iff by auto. apply Hcons; [apply snodes_In in Hx|apply snodes_In in Hy|apply snodes_In in Hz]; tauto. }
    intros before v after p E Hp.
    assert (Hv : In v (net_vars ops)). { eapply Permutation_in; [apply sort_perm|]. rewrite E. apply in_or_app; simpl; auto. }
    assert (Hpo : In p (topological_sort srt (build ops))). { eapply Permutation_in; [symmetry; apply sort_perm|]. apply (par_vars ops v p Hp). }
    rewrite E in Hpo. apply in_app_or in Hpo as [|[->|Hpo]]; auto. { exfalso. apply (ws_loop _ W p); auto. }
    exfalso. apply in_split in Hpo as (b & c & ->).
    unfold topological_sort in E. rewrite snodes_eq in E.
    set (l := srt pa_lt snodes) in *. assert (HP : Permutation l snodes) by apply (proj1 K).
    apply map_eq_app in E as (l1 & l2 & El & E1 & E2). apply map_eq_cons in E2 as (x & l3 & -> & Ex & E3).
    apply map_eq_app in E3 as (l4 & l5 & -> & E4 & E5). apply map_eq_cons in E5 as (y & l6 & -> & Ey & E6).
    assert (L : pa_lt x y = true) by (apply (proj2 (proj2 K) pa_lt snodes l1 x l4 y l6); auto; apply snodes_NoDup).
    assert (Hx : In x snodes). { eapply Permutation_in; [exact HP|]. rewrite El. apply in_or_app; simpl; auto. }
    assert (Hy : In y snodes). { eapply Permutation_in; [exact HP|]. rewrite El. apply in_or_app; right; right. apply in_or_app; simpl; auto. }
    apply pa_lt_iff in L; auto. rewrite Ex, Ey in L. destruct L as [L|[L _]]; [|tauto].
    apply (Hac p v). split; auto. apply path_step with p. split; auto. apply (par_vars ops v p Hp). apply path_refl.
  Qed.

  Hypothesis E : logic_sampler srt (build ops) = Ok s.
  Lemma sampler_nodes : sp_nodes s = topological_sort srt (build ops).
  Proof. unfold logic_sampler in E. destruct (get_tables (build ops)); [|discriminate]. cbn [rbind] in E. injection E as <-. auto. Qed.
  Lemma sampler_tables v : In v (net_vars ops) -> exists t, dget (sp_tables s) v = Some t /\ table_right t (net_dom ops) (spar ops v) v (srow ops v).
  Proof.
    intros Hv. destruct (get_tables_ok ops W C) as (d & Ed & Hd). unfold logic_sampler in E. rewrite Ed in E. cbn [rbind] in E. injection E as <-. simpl. auto.
  Qed.
  Lemma sampler_perm : Permutation (sp_nodes s) (net_vars ops).
  Proof. rewrite sampler_nodes. apply sort_perm. Qed.
  Lemma nodes_In v : In v (sp_nodes s) -> In v (net_vars ops).
  Proof. apply Permutation_in, sampler_perm. Qed.

  Hypothesis T : topological N (sp_nodes s).
  Hypothesis St : stochastic N.

  Lemma H_tab : forall v, In v (sp_nodes s) -> exists t, dget (sp_tables s) v = Some t /\ table_right t (net_dom ops) (spar ops v) v (srow ops v).
  Proof. intros v Hv. apply sampler_tables, nodes_In; auto. Qed.
  Lemma H_ord : forall before v after p, sp_nodes s = before ++ v :: after -> In p (spar ops v) -> In p before.
  Proof. intros before v after p Eo Hp. apply spar_In in Hp. eapply (proj2 T); eauto. Qed.
  Lemma H_nodup : NoDup (sp_nodes s).
  Proof. eapply Permutation_NoDup; [symmetry; apply sampler_perm|apply firsts_NoDup]. Qed.
  Lemma H_dom : forall v, In v (sp_nodes s) -> NoDup (net_dom ops v).
  Proof. intros v Hv. apply (ws_dom _ W), nodes_In; auto. Qed.
  Lemma H_nn : forall v a, In v (sp_nodes s) -> okon (net_dom ops) (spar ops v) a -> nonneg (srow ops v a).
  Proof. intros v a Hv. apply srow_nonneg; auto. apply nodes_In; auto. Qed.
  Lemma H_sum : forall v a, In v (sp_nodes s) -> okon (net_dom ops) (spar ops v) a -> qsum (srow ops v a) = 1%Qc.
  Proof. intros v a Hv. apply srow_sum; auto. apply nodes_In; auto. Qed.
  Lemma draw_len us : draw_for N us -> List.length us = List.length (sp_nodes s).
  Proof. intros [H _]. rewrite H. symmetry. apply Permutation_length, sampler_perm. Qed.

  Lemma plain us : draw_for N us -> exists a, okon (net_dom ops) (net_vars ops) a /\
    sample_once s [] us = Ok (map (fun v => (v, a v)) (sp_nodes s)) /\ Forall2 (within (net_dom ops) (srow ops) a) (sp_nodes s) us.
  Proof.
    intros Hu. destruct (forward (net_dom ops) (spar ops) (srow ops) (sp_tables s) (sp_nodes s) H_tab H_ord H_nodup H_dom (srow_length ops) H_nn H_sum
      (sp_nodes s) [] [] no_asg us) as (a & _ & Hok & Ew & HF); auto.
    - intros v [].
    - intros v [].
    - apply draw_len; auto.
    - apply Hu.
    - exists a. split; [|split; auto]. intros v Hv. apply Hok. eapply Permutation_in; [symmetry; apply sampler_perm|auto].
  Qed.
  Lemma dget_full (a : asg) v : In v (net_vars ops) -> dget (map (fun v => (v, a v)) (sp_nodes s)) v = Some (a v).
  Proof.
    intros Hv. apply In_dget. unfold dkeys. rewrite map_map. simpl. rewrite map_id. apply H_nodup.
    apply in_map_iff. exists v. split; auto. eapply Permutation_in; [symmetry; apply sampler_perm|auto].
  Qed.
  Lemma dget_full_some (a : asg) v x : dget (map (fun v => (v, a v)) (sp_nodes s)) v = Some x -> In v (net_vars ops) /\ x = a v.
  Proof. intros H. apply dget_In, in_map_iff in H as (w & Ew & Hw). injection Ew as <- <-. split; auto. apply nodes_In; auto. Qed.

  Lemma full_length (r : sample) : NoDup (dkeys r) -> incl (dkeys r) (sp_nodes s) ->
    (List.length r = List.length (sp_nodes s) <-> incl (sp_nodes s) (dkeys r)).
  Proof.
    intros HN Hi. assert (El : List.length r = List.length (dkeys r)) by (unfold dkeys; rewrite map_length; auto). split.
    - intros H. apply NoDup_length_incl; auto. lia.
    - intros H. pose proof (NoDup_incl_length HN Hi). pose proof (NoDup_incl_length H_nodup H). lia.
  Qed.

  Lemma once ev us : evidence_on N ev -> draw_for N us ->
    exists full d, sample_once s [] us = Ok full /\ sample_once s ev us = Ok d /\
      (List.length d = List.length (sp_nodes s) <-> fits ev full \/
         exists before v after x, sp_nodes s = before ++ v :: after /\ fits (filter (fun p => mem (fst p) before) ev) full /\
           dget ev v = Some x /\ dget full v <> Some x /\ incl (v :: after) (dkeys ev)) /\
      (fits ev full -> forall i, dget d i = dget full i).
  Proof.
    intros [HNe Hie] Hu. destruct (plain us Hu) as (a & Hok & Ep & HF).
    assert (Hok' : okon (net_dom ops) (sp_nodes s) a) by (intros v Hv; apply Hok, nodes_In; auto).
    assert (Hie' : incl (dkeys ev) (sp_nodes s)). { intros v Hv. eapply Permutation_in; [symmetry; apply sampler_perm|]. apply Hie; auto. }
    destruct (evidence_walk (net_dom ops) (spar ops) (srow ops) (sp_tables s) (sp_nodes s) H_tab H_ord H_nodup H_dom H_nn H_sum ev Hie' a (sp_nodes s) [] ev us)
      as (r & Er & HNr & Hir & Hc); auto.
    { intros v []. } { apply Hu. }
    set (full := map (fun v => (v, a v)) (sp_nodes s)) in *.
    assert (Hf1 : forall v, In v (sp_nodes s) -> dget full v = Some (a v)) by (intros v Hv; apply dget_full, nodes_In; auto).
    exists full, r. split; auto. split; auto.
    assert (Hkey : forall v x, dget ev v = Some x -> In v (sp_nodes s)) by (intros v x Hx; apply Hie'; eapply dget_Some_key; eauto).
    rewrite (full_length r HNr Hir). destruct Hc as [[Hrec Hag]|(mid & v & after & Eo & Hm & (x & Hx & Hne) & Hk)].
    - assert (Hfit : fits ev full). { intros i x Hx. rewrite Hf1 by eauto. f_equal. apply Hag; eauto. }
      split. { split; [tauto|]. intros _ w Hw. apply dget_Some_key with (a w); auto. }
      intros _ i. destruct (in_dec Z.eq_dec i (sp_nodes s)) as [Hi|Hi].
      + rewrite Hf1, (Hrec i Hi); auto.
      + assert (dget r i = None) as -> by (apply dget_None; auto). symmetry. apply dget_None. unfold full, dkeys. rewrite map_map. simpl. rewrite map_id; auto.
    - assert (Hvn : In v (sp_nodes s)) by eauto.
      assert (Hnf : ~ fits ev full). { intros Hfit. apply Hfit in Hx. rewrite Hf1 in Hx by auto. congruence. }
      split; [|tauto]. split.
      + intros Hi. right. exists mid, v, after, x. split; auto. split.
        { intros i y Hy. assert (Hi' : In i mid /\ dget ev i = Some y).
          { apply dget_In in Hy. apply filter_In in Hy as [Hy Hm']. simpl in Hm'. apply mem_In in Hm'. split; auto. apply In_dget; auto. }
          destruct Hi' as [Hi1 Hi2]. rewrite Hf1 by eauto. f_equal. apply Hm; auto. }
        split; auto. split. { rewrite Hf1 by auto. congruence. }
        intros w Hw. assert (Hwn : In w (sp_nodes s)) by (rewrite Eo; apply in_or_app; auto). apply Hi in Hwn. apply Hk in Hwn as [Hwm|]; auto.
        exfalso. simpl in Hwm. pose proof H_nodup as HN. rewrite Eo in HN. apply NoDup_app_iff in HN as (_ & _ & HN). apply (HN w); auto.
      + intros [|(before & v' & after' & x' & Eo' & Hb & Hx' & Hne' & Hinc)]; [tauto|]. intros w Hw. apply Hk. simpl.
        (* both split the order at the first mismatch *)
        destruct (in_dec Z.eq_dec w (dkeys ev)) as [|Hwe]; auto. left.
        destruct (in_dec Z.eq_dec w mid) as [|Hwm]; auto. exfalso.
        rewrite Eo in Hw. apply in_app_or in Hw as [|Hw]; [tauto|].
        assert (Hv' : In v' (v :: after)).
        { assert (In v' (sp_nodes s)) as Hv'n by (rewrite Eo'; apply in_or_app; simpl; auto). rewrite Eo in Hv'n. apply in_app_or in Hv'n as [Hv'm|]; auto.
          exfalso. apply Hne'. rewrite Hf1 by (rewrite Eo'; apply in_or_app; simpl; auto). f_equal. apply Hm; auto. }
        assert (Hnb : ~ In v before).
        { intros Hvb. assert (Hfx : dget full v = Some x). { apply Hb. apply In_dget.
            - unfold dkeys. clear - HNe. induction ev as [|[k y] l IH]; simpl in *; [constructor|]. inversion_clear HNe. destruct (mem k before); simpl; auto. constructor; auto.
              intros Hk. apply H. clear - Hk. apply in_map_iff in Hk as ([k' y'] & <- & Hk). apply filter_In in Hk as [Hk _]. apply (in_map fst) in Hk. auto.
            - apply filter_In. split; [apply dget_In; auto|]. simpl. apply mem_In; auto. }
          rewrite Hf1 in Hfx by auto. congruence. }
        (* so v comes at or after v', and v' at or after v *)
        assert (Hvv : In v (v' :: after')). { rewrite Eo' in Hvn. apply in_app_or in Hvn as [|]; tauto. }
        pose proof H_nodup as HN.
        assert (v = v').
        { destruct Hvv as [|Hvv]; auto. destruct Hv' as [|Hv']; auto. exfalso.
          apply in_split in Hvv as (p1 & p2 & ->). apply in_split in Hv' as (q1 & q2 & ->).
          assert (EE : before ++ v' :: p1 ++ v :: p2 = mid ++ v :: q1 ++ v' :: q2) by congruence.
          assert (HN2 : NoDup (before ++ v' :: p1 ++ v :: p2)) by (rewrite <- Eo'; auto).
          clear - EE HN2. assert (Hb : In v' (mid ++ v :: q1)).
          { destruct (in_dec Z.eq_dec v' (mid ++ v :: q1)) as [|C]; auto. exfalso.
            (* the tails after v' would agree *)
            assert (forall (A B A' B' : list Z), A ++ v' :: B = A' ++ v' :: B' -> ~ In v' A -> ~ In v' A' -> A = A') as U.
            { induction A as [|x A IH]; intros B A' B' E' H1 H2; destruct A' as [|x' A']; simpl in E'; auto; injection E' as E0 E'.
              - subst. exfalso; apply H2; simpl; auto.
              - subst. exfalso; apply H1; simpl; auto.
              - subst. f_equal. eapply IH; eauto; simpl in *; tauto. }
            assert (~ In v' before). { apply NoDup_remove in HN2 as [_ HN2]. rewrite in_app_iff in HN2. tauto. }
            assert (before = mid ++ v :: q1). { eapply U; eauto. rewrite <- app_assoc. simpl. eauto. }
            subst before. rewrite <- app_assoc in HN2. simpl in HN2. apply NoDup_remove in HN2 as [_ HN2]. apply HN2.
            rewrite !in_app_iff. right. right. right. rewrite in_app_iff. simpl. auto. }
          rewrite EE in HN2. rewrite app_comm_cons, app_assoc in HN2. apply NoDup_remove in HN2 as [_ HN2]. apply HN2. apply in_or_app; auto. }
        subst v'. assert (In w (v :: after')).
        { assert (U : forall (A B A' B' : list Z), A ++ v :: B = A' ++ v :: B' -> ~ In v A -> ~ In v A' -> B = B').
          { induction A as [|y A IH]; intros B A' B' E' H1 H2; destruct A' as [|y' A']; simpl in E'; [injection E'; auto|injection E' as E0 E'..].
            - subst. exfalso; apply H2; simpl; auto.
            - subst. exfalso; apply H1; simpl; auto.
            - subst. eapply IH; eauto; simpl in *; tauto. }
          assert (after = after'). { eapply U; [rewrite <- Eo; exact Eo'| |auto]. rewrite Eo in HN. apply NoDup_remove in HN as [_ HN]. rewrite in_app_iff in HN. tauto. }
          subst; auto. }
        apply Hwe, Hinc; auto.
  Qed.

  (** get_samples when the last variable visited has no evidence *)
  Lemma samples ev n draws : evidence_on N ev -> Forall (draw_for N) draws ->
    (forall before v, sp_nodes s = before ++ [v] -> ~ In v (dkeys ev)) -> forall acc,
    match samples_loop s ev n draws acc with
    | Ok l => exists used rest fulls kept l', draws = used ++ rest /\ Forall2 (fun us f => sample_once s [] us = Ok f) used fulls /\ selected (fits ev) fulls kept /\
                l = acc ++ l' /\ Forall2 (fun d f => forall i, dget d i = dget f i) l' kept /\ List.length l = n
    | Err x => x = OutOfFuel
    end.
  Proof.
    intros He Hd Hlast. induction draws as [|us draws IH]; intros acc; cbn [samples_loop]; auto.
    inversion_clear Hd as [|? ? Hu Hd']. destruct (once ev us He Hu) as (full & d & Ef & Ed & Hiff & Hsame). rewrite Ed. cbn [rbind].
    assert (Hiff' : List.length d = List.length (sp_nodes s) <-> fits ev full).
    { rewrite Hiff. split; auto. intros [|(before & v & after & x & Eo & _ & _ & _ & Hinc)]; auto. exfalso.
      destruct (exists_last (l := v :: after)) as (b & z & Eb); [discriminate|]. apply (Hlast (before ++ b) z). rewrite Eo, Eb, app_assoc; auto.
      apply Hinc. rewrite Eb. apply in_or_app; simpl; auto. }
    destruct (Nat.eqb_spec (List.length d) (List.length (sp_nodes s))) as [Hl|Hl].
    - apply Hiff' in Hl. destruct (Nat.eqb_spec (List.length (acc ++ [d])) n) as [Hn|Hn].
      + exists [us], draws, [full], [full], [d]. split; [auto|]. split; [auto|]. split; [apply sel_take; auto; constructor|]. auto.
      + specialize (IH Hd' (acc ++ [d])). destruct (samples_loop s ev n draws (acc ++ [d])) as [l|]; auto.
        destruct IH as (used & rest & fulls & kept & l' & -> & H1 & H2 & -> & H3 & H4).
        exists (us :: used), rest, (full :: fulls), (full :: kept), (d :: l'). split; [auto|]. split; [auto|]. split; [apply sel_take; auto|]. rewrite <- app_assoc in H4 |- *. auto.
    - assert (Hnf : ~ fits ev full) by tauto. destruct (Nat.eqb_spec (List.length acc) n) as [Hn|Hn].
      + exists [us], draws, [full], [], []. split; [auto|]. split; [auto|]. split; [apply sel_skip; auto; constructor|]. rewrite app_nil_r. auto.
      + specialize (IH Hd' acc). destruct (samples_loop s ev n draws acc) as [l|]; auto.
        destruct IH as (used & rest & fulls & kept & l' & -> & H1 & H2 & -> & H3 & H4).
        exists (us :: used), rest, (full :: fulls), kept, l'. split; [auto|]. split; [auto|]. split; [apply sel_skip; auto|]. auto.
  Qed.

  (** with any evidence, get_samples raises nothing *)
  Lemma samples_safe ev n draws : evidence_on N ev -> Forall (draw_for N) draws -> forall acc x, samples_loop s ev n draws acc = Err x -> x = OutOfFuel.
  Proof.
    intros He Hd. induction Hd as [|us draws Hu Hd IH]; intros acc x; cbn [samples_loop]. congruence.
    destruct (once ev us He Hu) as (full & d & Ef & Ed & _). rewrite Ed. cbn [rbind]. destruct (Nat.eqb _ n); [discriminate|]. apply IH.
  Qed.

  Lemma box ps (A : by_id N ps) a : okon (net_dom ops) (net_vars ops) a ->
    exists lo hi : Z -> Qc,
      (forall us, draw_for N us -> ((exists d, sample_once s [] us = Ok d /\ records d (vars N) a) <-> Forall2 (fun v u => (lo v <= u)%Qc /\ (u < hi v)%Qc) (sp_nodes s) us)) /\
      (forall v, In v (vars N) -> (0 <= lo v)%Qc /\ (lo v <= hi v)%Qc /\ (hi v <= 1)%Qc) /\
      qprod (map (fun v => (hi v - lo v)%Qc) (sp_nodes s)) = weight (read_with N ps) no_evidence a.
  Proof.
    intros Ha. pose proof (fun v Hv => Ha v (nodes_In v Hv)) as Ha'.
    exists (fun v => below (srow ops v a) (pos (a v) (net_dom ops v))), (fun v => below (srow ops v a) (S (pos (a v) (net_dom ops v)))).
    assert (Hp : forall v, In v (net_vars ops) -> okon (net_dom ops) (spar ops v) a).
    { intros v Hv p Hp. apply Ha. apply spar_In in Hp. apply (par_vars ops v p Hp). }
    split; [|split].
    - intros us Hu. split.
      + intros (d & Ed & Hr). destruct (plain us Hu) as (b & Hb & Eb & HF). rewrite Eb in Ed. injection Ed as <-.
        assert (Hab : forall v, In v (net_vars ops) -> a v = b v). { intros v Hv. specialize (Hr v Hv). rewrite dget_full in Hr by auto. congruence. }
        assert (G : forall l us, incl l (sp_nodes s) -> Forall2 (within (net_dom ops) (srow ops) b) l us ->
           Forall2 (fun v u => (below (srow ops v a) (pos (a v) (net_dom ops v)) <= u)%Qc /\ (u < below (srow ops v a) (S (pos (a v) (net_dom ops v))))%Qc) l us).
        { clear - Hab Hp W C K E T St. intros l us Hl HF. induction HF as [|v u l us Hw HF IH]; constructor; [|apply IH; intros x Hx; apply Hl; simpl; auto].
          assert (Hv : In v (net_vars ops)) by (apply nodes_In, Hl; simpl; auto). unfold within in Hw. rewrite (Hab v Hv).
          rewrite (srow_ext ops v a b); auto. intros p Hpp. apply Hab. apply spar_In in Hpp. apply (par_vars ops v p Hpp). }
        apply G; auto. apply incl_refl.
      + intros HF. exists (map (fun v => (v, a v)) (sp_nodes s)). split; [|intros v Hv; apply dget_full; auto].
        apply (boxed (net_dom ops) (spar ops) (srow ops) (sp_tables s) (sp_nodes s) H_tab H_ord H_nodup a Ha' (sp_nodes s) [] [] us); auto.
        intros v []. apply Hu.
    - intros v Hv. pose proof (srow_nonneg ops W v a Hv (Hp v Hv)) as Hn. simpl vars in Hv. repeat split.
      + rewrite <- (below_0 (srow ops v a)). apply below_mono; auto. lia.
      + apply below_mono; auto.
      + rewrite <- (srow_sum ops W v a St Hv (Hp v Hv)), <- (below_all (srow ops v a) (S (List.length (srow ops v a) + pos (a v) (net_dom ops v)))) by lia.
        apply below_mono; auto. lia.
    - rewrite weight_prior. change (vars (read_with N ps)) with (net_vars ops). rewrite <- (qprod_perm _ _ (Permutation_map (fun v => cpt_entry (read_with N ps) v a) sampler_perm)).
      apply qprod_map_ext. intros v Hv. apply nodes_In in Hv. pose proof (Ha v Hv) as Hav.
      assert (Es : srow ops v a = cpt_row (read_with N ps) v a).
      { destruct (A v Hv) as [A1 A2]. unfold srow, spar. change (net_par ops v) with (par N v). rewrite <- (isort_Z_unique _ _ A1), sorted_ids by auto. reflexivity. }
      rewrite Es. unfold cpt_row.
      assert (Eq : nth_error (map (fun x => cpt_entry (read_with N ps) v (upd a v x)) (dom (read_with N ps) v)) (pos (a v) (net_dom ops v)) = Some (cpt_entry (read_with N ps) v a)).
      { rewrite nth_error_map. simpl dom. rewrite (nth_pos (a v) (net_dom ops v) Hav). simpl. f_equal. apply cpt_dep. intros u _. apply upd_same. }
      rewrite (below_S _ _ _ Eq). ring.
  Qed.
End Sampler.

Lemma sampler_exists srt ops : well_shaped ops -> clean ops -> exists s, logic_sampler srt (build ops) = Ok s.
Proof. intros W C. destruct (get_tables_ok ops W C) as (d & Ed & _). unfold logic_sampler. rewrite Ed. eexists; reflexivity. Qed.

Lemma c29 : forall srt ops, sorter_ok srt -> well_shaped ops -> clean ops ->
  let N := net_of ops in acyclic (is_parent N) -> consistent N ->
  exists s, logic_sampler srt (build ops) = Ok s /\ topological N (sp_nodes s) /\
    (stochastic N -> forall ev n draws x, evidence_on N ev -> Forall (draw_for N) draws -> get_samples s ev n draws = Err x -> x = OutOfFuel).
Proof.
  intros srt ops K W C N Hac Hc. destruct (sampler_exists srt ops W C) as [s E]. exists s. split; auto.
  assert (T : topological N (sp_nodes s)). { rewrite (sampler_nodes srt ops s E). apply sort_topological; auto. }
  split; auto. intros St ev n draws x He Hd. unfold get_samples. eapply samples_safe; eauto.
Qed.

Lemma c30_once : forall srt ops s, sorter_ok srt -> well_shaped ops -> clean ops -> let N := net_of ops in stochastic N ->
  logic_sampler srt (build ops) = Ok s -> topological N (sp_nodes s) ->
  forall ev us, evidence_on N ev -> draw_for N us ->
    exists full d, sample_once s [] us = Ok full /\ sample_once s ev us = Ok d /\
      (List.length d = List.length (sp_nodes s) <-> fits ev full \/
         exists before v after x, sp_nodes s = before ++ v :: after /\ fits (filter (fun p => mem (fst p) before) ev) full /\
           dget ev v = Some x /\ dget full v <> Some x /\ incl (v :: after) (dkeys ev)) /\
      (fits ev full -> forall i, dget d i = dget full i).
Proof. intros srt ops s K W C N St E T ev us He Hu. eapply once; eauto. Qed.

Lemma c30 : forall srt ops s, sorter_ok srt -> well_shaped ops -> clean ops -> let N := net_of ops in stochastic N ->
  logic_sampler srt (build ops) = Ok s -> topological N (sp_nodes s) ->
  forall ev n draws, evidence_on N ev -> (forall before v, sp_nodes s = before ++ [v] -> ~ In v (dkeys ev)) -> Forall (draw_for N) draws ->
    match get_samples s ev n draws with
    | Ok l => exists used rest fulls kept, draws = used ++ rest /\
                Forall2 (fun us f => sample_once s [] us = Ok f) used fulls /\ selected (fits ev) fulls kept /\
                Forall2 (fun d f => forall i, dget d i = dget f i) l kept /\ List.length l = n
    | Err x => x = OutOfFuel
    end.
Proof.
  intros srt ops s K W C N St E T ev n draws He Hl Hd. pose proof (samples srt ops s K W C E T St ev n draws He Hd Hl []) as H. unfold get_samples.
  destruct (samples_loop s ev n draws []) as [l|]; auto. destruct H as (used & rest & fulls & kept & l' & H1 & H2 & H3 & -> & H4 & H5). exists used, rest, fulls, kept. auto.
Qed.

Lemma c31_reads : forall srt ops s, well_shaped ops -> clean ops -> logic_sampler srt (build ops) = Ok s ->
  let N := net_of ops in forall v, In v (vars N) ->
  exists t ps, dget (sp_tables s) v = Some t /\ Permutation ps (par N v) /\ ascending ps /\
    forall a d u, okon (dom N) (vars N) a -> records d (par N v) a -> uniform u ->
      forall i x, nth_error (dom N v) i = Some x ->
        let row := row_for (dom N) (cpt N v) ps v a in
        (get_value t u d = Ok x <-> (below row i <= u)%Qc /\ (u < below row (S i))%Qc).
Proof.
  intros srt ops s W C E N v Hv. destruct (sampler_tables srt ops s W C E v Hv) as (t & Et & _ & Hr).
  exists t. exists (spar ops v). split; auto. split; [apply isort_perm|]. split.
  { apply isort_ascending. apply firsts_NoDup. }
  intros a d u Ha Hd Hu i x Hx. apply Hr; auto.
  - intros p Hp. apply spar_In in Hp. apply Ha. apply (par_vars ops v p Hp).
  - intros p Hp. apply spar_In in Hp. apply Hd; auto.
  - apply Hu.
Qed.

Lemma c31 : forall srt ops s, well_shaped ops -> clean ops -> logic_sampler srt (build ops) = Ok s ->
  let N := net_of ops in forall v, In v (vars N) -> ascending (par N v) ->
  exists t, dget (sp_tables s) v = Some t /\
    forall a d u, okon (dom N) (vars N) a -> records d (par N v) a -> uniform u ->
      forall i x, nth_error (dom N v) i = Some x ->
        (get_value t u d = Ok x <-> (below (cpt_row N v a) i <= u)%Qc /\ (u < below (cpt_row N v a) (S i))%Qc).
Proof.
  intros srt ops s W C E N v Hv Ha. destruct (sampler_tables srt ops s W C E v Hv) as (t & Et & _ & Hr). rewrite (srow_asc ops v Ha) in Hr.
  exists t. split; auto. intros a d u Hok Hd Hu i x Hx. apply Hr; auto.
  - intros p Hp. apply spar_In in Hp. apply Hok. apply (par_vars ops v p Hp).
  - intros p Hp. apply spar_In in Hp. apply Hd; auto.
  - apply Hu.
Qed.

Lemma c32_any : forall srt ops s, sorter_ok srt -> well_shaped ops -> clean ops -> let N := net_of ops in stochastic N ->
  logic_sampler srt (build ops) = Ok s -> topological N (sp_nodes s) -> forall ps, by_id N ps ->
  forall a, okon (dom N) (vars N) a -> exists lo hi : Z -> Qc,
    (forall us, draw_for N us -> ((exists d, sample_once s [] us = Ok d /\ records d (vars N) a) <-> Forall2 (fun v u => (lo v <= u)%Qc /\ (u < hi v)%Qc) (sp_nodes s) us)) /\
    (forall v, In v (vars N) -> (0 <= lo v)%Qc /\ (lo v <= hi v)%Qc /\ (hi v <= 1)%Qc) /\
    qprod (map (fun v => (hi v - lo v)%Qc) (sp_nodes s)) = weight (read_with N ps) no_evidence a.
Proof. intros srt ops s K W C N St E T ps A a Ha. eapply box; eauto. Qed.
Lemma by_id_exists N : (forall v, In v (vars N) -> NoDup (par N v)) -> by_id N (fun v => isort Z.leb (par N v)).
Proof. intros H v Hv. split; [apply isort_perm|apply isort_ascending; auto]. Qed.
Lemma by_id_self N : (forall v, In v (vars N) -> ascending (par N v)) -> by_id N (par N).
Proof. intros H v Hv. split; auto. Qed.
Lemma c32 : forall srt ops s, sorter_ok srt -> well_shaped ops -> clean ops -> let N := net_of ops in stochastic N ->
  logic_sampler srt (build ops) = Ok s -> topological N (sp_nodes s) -> (forall v, In v (vars N) -> ascending (par N v)) ->
  forall a, okon (dom N) (vars N) a -> exists lo hi : Z -> Qc,
    (forall us, draw_for N us -> ((exists d, sample_once s [] us = Ok d /\ records d (vars N) a) <-> Forall2 (fun v u => (lo v <= u)%Qc /\ (u < hi v)%Qc) (sp_nodes s) us)) /\
    (forall v, In v (vars N) -> (0 <= lo v)%Qc /\ (lo v <= hi v)%Qc /\ (hi v <= 1)%Qc) /\
    qprod (map (fun v => (hi v - lo v)%Qc) (sp_nodes s)) = weight N no_evidence a.
Proof. intros srt ops s K W C N St E T A a Ha. apply (c32_any srt ops s K W C St E T (par N) (by_id_self N A) a Ha). Qed.

(** without evidence every pass of the loop is kept *)
Lemma c32_samples : forall srt ops s, sorter_ok srt -> well_shaped ops -> clean ops -> let N := net_of ops in stochastic N ->
  logic_sampler srt (build ops) = Ok s -> topological N (sp_nodes s) ->
  forall n draws rest, n <> 0 -> List.length draws = n -> Forall (draw_for N) draws ->
    exists l, get_samples s [] n (draws ++ rest) = Ok l /\ Forall2 (fun us d => sample_once s [] us = Ok d) draws l.
Proof.
  intros srt ops s K W C N St E T n draws rest Hn Hl Hd. unfold get_samples.
  assert (G : forall draws acc, Forall (draw_for N) draws -> draws <> [] -> List.length acc + List.length draws = n ->
    exists l, samples_loop s [] n (draws ++ rest) acc = Ok (acc ++ l) /\ Forall2 (fun us d => sample_once s [] us = Ok d) draws l).
  { clear draws Hl Hd. induction draws as [|us draws IH]; intros acc Hd Hne Hl; [congruence|]. inversion_clear Hd as [|? ? Hu Hd'].
    destruct (plain srt ops s K W C E T St us Hu) as (a & Hok & Ea & _). simpl app. cbn [samples_loop]. rewrite Ea. cbn [rbind].
    rewrite map_length, Nat.eqb_refl. destruct draws as [|us' draws].
    - simpl in Hl. match goal with |- context [Nat.eqb ?x n] => destruct (Nat.eqb_spec x n) as [_|C'] end.
      + eexists. split; [reflexivity|auto].
      + exfalso. apply C'. rewrite app_length. simpl. lia.
    - match goal with |- context [Nat.eqb ?x n] => destruct (Nat.eqb_spec x n) as [C'|_] end.
      { exfalso. rewrite app_length in C'. simpl in *. lia. }
      destruct (IH (acc ++ [map (fun v => (v, a v)) (sp_nodes s)])) as (l & El & HF); auto. discriminate. rewrite app_length. simpl in *. lia.
      exists (map (fun v => (v, a v)) (sp_nodes s) :: l). split; [|auto]. transitivity (Ok ((acc ++ [map (fun v => (v, a v)) (sp_nodes s)]) ++ l)); [exact El|rewrite <- app_assoc; auto]. }
  destruct (G draws [] Hd) as (l & El & HF); auto. { destruct draws; simpl in *; congruence. } exists l. auto.
Qed.
