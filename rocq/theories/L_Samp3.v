(** Sampling in any order of the variables: exactly when a parent is missing. *)
From Verif Require Import Py M_Graph M_Node M_Sampling Spec SpecNet SpecPot SpecSamp L_Base L_Sums L_Table L_Net L_Build L_P4 L_Samp L_Samp2 L_P5.
Open Scope nat_scope.

Lemma mk_table_keyed n ps t : mk_table n ps = Ok t -> tb_pids t <> [] -> exists d, tb_probs t = Keyed d.
Proof.
  unfold mk_table. destruct ps as [|p ps]. { intros E. injection E as <-. simpl. congruence. }
  destruct (Nat.eqb (List.length (n_values n)) 0); [discriminate|]. intros E. injection E as <-. simpl. eauto.
Qed.
Lemma get_tables_keyed b d : get_tables b = Ok d -> forall v t, dget d v = Some t -> tb_pids t <> [] -> exists k, tb_probs t = Keyed k.
Proof.
  unfold get_tables. intros E. set (P := fun d : list (Z * table) => forall v t, dget d v = Some t -> tb_pids t <> [] -> exists k, tb_probs t = Keyed k).
  assert (G : forall l d0 d, P d0 -> foldM (fun d n => ps <- mapM (get_node (b_g b)) (get_parents_ordered b (n_id n)) ;; t <- mk_table n ps ;; Ok (dset d (n_id n) t)) l d0 = Ok d -> P d).
  { clear E. induction l as [|n l IH]; intros d0 d1 H0 E; cbn [foldM] in E. { injection E as <-; auto. }
    destruct (mapM _ _) as [ps|]; cbn [rbind] in E; [|discriminate]. destruct (mk_table n ps) as [t|] eqn:Et; cbn [rbind] in E; [|discriminate].
    eapply IH; [|exact E]. intros v t' Hv. rewrite dget_dset in Hv. destruct (eqb v (n_id n)); [injection Hv as <-; eapply mk_table_keyed; eauto|eapply H0; eauto]. }
  eapply G; [|exact E]. intros v t Hv; discriminate.
Qed.

Section Stuck.
  Variables (dm : Z -> list string) (ps : Z -> list Z) (row : Z -> asg -> list Qc) (tables : list (Z * table)) (order : list Z).
  Hypothesis HT : forall v, In v order -> exists t, dget tables v = Some t /\ table_right t dm (ps v) v (row v).
  Hypothesis HK : forall v t, dget tables v = Some t -> tb_pids t <> [] -> exists k, tb_probs t = Keyed k.
  Hypothesis HN : NoDup order.
  Hypothesis HD : forall v, In v order -> NoDup (dm v).
  Hypothesis Hlen : forall v a, List.length (row v a) = List.length (dm v).
  Hypothesis Hnn : forall v a, In v order -> okon dm (ps v) a -> nonneg (row v a).
  Hypothesis Hsum : forall v a, In v order -> okon dm (ps v) a -> qsum (row v a) = 1%Qc.
  Variable ev : sample.
  Hypothesis Hev : forall v, In v order -> incl (ps v) order.
  Hypothesis Hevo : incl (dkeys ev) order.

  Lemma value_missing v t d u : In v order -> dget tables v = Some t -> ~ incl (ps v) (dkeys d) -> get_value t u d = Err KeyError.
  Proof.
    intros Hv Et Hm. destruct (HT v Hv) as (t' & Et' & Hp & _). rewrite Et in Et'. injection Et' as <-.
    assert (Hne : tb_pids t <> []). { rewrite Hp. intros E. apply Hm. rewrite E. intros x []. }
    destruct (HK v t Et Hne) as (k & Ek). unfold get_value. rewrite Ek, Hp.
    assert (G : forall l, ~ incl l (dkeys d) -> mapM (fun i => v0 <- dgetE d i ;; Ok (get_kv i v0)) l = Err KeyError).
    { induction l as [|i l IH]; intros H. { exfalso. apply H. intros x []. } cbn [mapM]. unfold dgetE at 1. destruct (dget d i) as [x|] eqn:E; auto. cbn [rbind].
      rewrite IH; auto. intros Hl. apply H. intros y [<-|Hy]; auto. eapply dget_Some_key; eauto. }
    rewrite G by auto. reflexivity.
  Qed.

  Definition served (before : list Z) (v : Z) : Prop := incl (ps v) (before ++ dkeys ev).
  Lemma served_dec before v : {served before v} + {~ served before v}.
  Proof. unfold served. destruct (subset (ps v) (before ++ dkeys ev)) eqn:E; [left; apply subset_spec; auto|right; intros H; apply subset_spec in H; congruence]. Qed.

  Definition holds (before : list Z) (d : sample) (a : asg) : Prop :=
    records d (before ++ dkeys ev) a /\ incl (dkeys d) (before ++ dkeys ev).
  Lemma holds_next before v d a b : holds before d a -> (forall w, In w (before ++ dkeys ev) -> b w = a w) -> ~ In v before -> (forall x, dget ev v = Some x -> b v = x) -> holds (before ++ [v]) (dset d v (b v)) b.
  Proof.
    intros [H1 H2] Hb Hv Hx. split.
    - intros w Hw. rewrite dget_dset. destruct (eqb_spec w v) as [->|Hne]; auto. assert (Hw' : In w (before ++ dkeys ev)). { rewrite !in_app_iff in *. destruct Hw as [[Hw|[Hw|[]]]|Hw]; auto. congruence. }
      rewrite H1 by auto. rewrite Hb; auto.
    - intros w Hw. apply dkeys_dset_In in Hw as [Hw|Hw]; [apply H2 in Hw|subst w]; rewrite !in_app_iff in *; simpl; tauto.
  Qed.

  Lemma mid_facts before v after : order = before ++ v :: after -> In v order /\ ~ In v before.
  Proof. intros E. pose proof HN as H. rewrite E in H. apply NoDup_remove in H as [_ H]. split; [rewrite E; apply in_or_app; simpl; auto|]. rewrite in_app_iff in H. tauto. Qed.

  Lemma walk_any rest : forall before d us a, order = before ++ rest -> okon dm order a -> holds before d a -> (forall i x, dget ev i = Some x -> a i = x) ->
    List.length us = List.length rest -> Forall uniform us ->
    (exists r, sample_walk tables ev d (combine us rest) = Ok r) \/
    (sample_walk tables ev d (combine us rest) = Err KeyError /\
     exists mid v after us1 us2 a', rest = mid ++ v :: after /\ us = us1 ++ us2 /\ okon dm order a' /\ (forall i x, dget ev i = Some x -> a' i = x) /\ (forall w, In w before -> a' w = a w) /\
       Forall2 (within dm row a') mid us1 /\ (forall m1 w m2, mid = m1 ++ w :: m2 -> served (before ++ m1) w) /\ ~ served (before ++ mid) v).
  Proof.
    induction rest as [|v rest IH]; intros before d us a Eo Ha Hd He Hl Hu. { destruct us; left; eexists; reflexivity. }
    destruct us as [|u us]; [discriminate|]. inversion_clear Hu as [|? ? Hu0 Hus]. destruct (mid_facts _ _ _ Eo) as (Hv & Hnb). destruct (HT v Hv) as (t & Et & Ht).
    cbn [combine sample_walk]. unfold dgetE. rewrite Et. cbn [rbind]. destruct (served_dec before v) as [Hs|Hs].
    2:{ right. rewrite (value_missing v t d u Hv Et). 2:{ intros Hi. apply Hs. intros p Hp. apply Hd. auto. } split; auto.
        exists [], v, rest, [], (u :: us), a. rewrite app_nil_r. repeat (split; auto). intros m1 w m2 E. destruct m1; discriminate. }
    assert (Hap : okon dm (ps v) a) by (intros p Hp; apply Ha, (Hev v Hv); auto). assert (Hrp : records d (ps v) a) by (intros p Hp; apply Hd; auto).
    destruct (value_some dm ps row tables order HT Hlen Hnn Hsum v t a d u Hv Et Hap Hrp Hu0) as (x & Hx & Ex). rewrite Ex. cbn [rbind].
    assert (Go : forall b, b v = x -> (forall w, In w (before ++ dkeys ev) -> b w = a w) -> okon dm order b -> (forall i y, dget ev i = Some y -> b i = y) ->
      (exists r, sample_walk tables ev (dset d v x) (combine us rest) = Ok r) \/
      (sample_walk tables ev (dset d v x) (combine us rest) = Err KeyError /\
       exists mid w after us1 us2 a', v :: rest = mid ++ w :: after /\ u :: us = us1 ++ us2 /\ okon dm order a' /\ (forall i y, dget ev i = Some y -> a' i = y) /\ (forall z, In z before -> a' z = a z) /\
         Forall2 (within dm row a') mid us1 /\ (forall m1 z m2, mid = m1 ++ z :: m2 -> served (before ++ m1) z) /\ ~ served (before ++ mid) w)).
    { intros b Hb1 Hb2 Hb3 Hb4. destruct (IH (before ++ [v]) (dset d v x) us b) as [R|(R & mid & w & after & us1 & us2 & a' & R1 & R2 & R3 & R4 & R5 & R6 & R7 & R8)]; auto.
      - rewrite <- app_assoc; auto.
      - rewrite <- Hb1. apply (holds_next before v d a b); auto.
      - right. split; auto. exists (v :: mid), w, after, (u :: us1), us2, a'. split; [rewrite R1; auto|]. split; [rewrite R2; auto|]. split; auto. split; auto.
        assert (Q : forall z, In z before -> a' z = a z). { intros z Hz. rewrite R5 by (apply in_or_app; auto). apply Hb2. apply in_or_app; auto. }
        split; auto. split; [|split].
        + constructor; auto. assert (Hps : forall p, In p (ps v) -> a' p = a p).
          { intros p Hp. apply Hs in Hp. rewrite in_app_iff in Hp. destruct Hp as [Hp|Hp]; auto. apply dkeys_dget in Hp as [y Hy]. rewrite (R4 _ _ Hy), (He _ _ Hy). auto. }
          assert (Hav : a' v = x) by (rewrite R5 by (apply in_or_app; simpl; auto); auto).
          apply (proj1 (value_iff dm ps row tables order HT v t a' d u Hv Et ltac:(intros p Hp; rewrite Hps; auto) ltac:(intros p Hp; rewrite Hps; auto) ltac:(rewrite Hav; auto) (proj1 Hu0))). congruence.
        + intros m1 z m2 E. destruct m1 as [|y m1]; simpl in E; injection E as <- E. { rewrite app_nil_r; auto. } specialize (R7 m1 z m2 E). rewrite <- app_assoc in R7. exact R7.
        + rewrite <- app_assoc in R8. exact R8. }
    destruct (dget ev v) as [e|] eqn:Ee.
    - destruct (eqb_spec x e) as [->|Hne]; [|left; eauto]. apply (Go a); auto.
    - apply (Go (upd a v x)).
      + apply upd_eq.
      + intros w Hw. apply upd_neq. intros ->. apply in_app_or in Hw as [Hw|Hw]; [auto|]. apply dkeys_dget in Hw as [y Hy]. congruence.
      + intros w Hw. destruct (Z.eq_dec w v) as [->|Hn]; [rewrite upd_eq; auto|rewrite upd_neq by auto; auto].
      + intros i y Hy. rewrite upd_neq by congruence. auto.
  Qed.

  Lemma walk_stuck v after us2 a mid : forall before d us1, order = before ++ mid ++ v :: after -> okon dm order a -> holds before d a -> (forall i x, dget ev i = Some x -> a i = x) ->
    Forall uniform us1 -> us2 <> [] -> Forall2 (within dm row a) mid us1 -> (forall m1 w m2, mid = m1 ++ w :: m2 -> served (before ++ m1) w) -> ~ served (before ++ mid) v ->
    sample_walk tables ev d (combine (us1 ++ us2) (mid ++ v :: after)) = Err KeyError.
  Proof.
    induction mid as [|w mid IH]; intros before d us1 Eo Ha Hd He Hu H2 HF Hs Hn.
    - inversion HF; subst us1. destruct us2 as [|u us2]; [congruence|]. cbn [app combine sample_walk] in *. destruct (mid_facts _ _ _ Eo) as (Hv & Hnb). destruct (HT v Hv) as (t & Et & _).
      unfold dgetE. rewrite Et. cbn [rbind]. rewrite (value_missing v t d u Hv Et). auto. intros Hi. apply Hn. rewrite app_nil_r. intros p Hp. apply Hd. auto.
    - inversion HF as [|z0 u l0 us' Hw HF']; subst us1. inversion_clear Hu as [|? ? Hu0 Hus]. cbn [app combine sample_walk] in *. destruct (mid_facts _ _ _ Eo) as (Hv & Hnb). destruct (HT w Hv) as (t & Et & _).
      unfold dgetE. rewrite Et. cbn [rbind]. assert (S0 : served before w). { specialize (Hs [] w mid eq_refl). rewrite app_nil_r in Hs. auto. }
      assert (Ex : get_value t u d = Ok (a w)). { apply (value_iff dm ps row tables order HT w t a d u); auto; [intros p Hp; apply Ha, (Hev w Hv); auto|intros p Hp; apply Hd; auto|apply Hu0]. }
      rewrite Ex. cbn [rbind].
      assert (Go : sample_walk tables ev (dset d w (a w)) (combine (us' ++ us2) (mid ++ v :: after)) = Err KeyError).
      { apply (IH (before ++ [w])); auto.
        - rewrite <- app_assoc; auto.
        - apply (holds_next before w d a a); auto.
        - intros m1 z m2 E. rewrite <- app_assoc. apply (Hs (w :: m1) z m2). rewrite E; auto.
        - rewrite <- app_assoc. exact Hn. }
      destruct (dget ev w) as [e|] eqn:Ee; auto. rewrite (He _ _ Ee), eqb_refl. rewrite (He _ _ Ee) in Go. exact Go.
  Qed.
End Stuck.

Section Top.
  Context (srt : sorter) (ops : list bop) (s : sampler) (K : sorter_ok srt) (W : well_shaped ops) (C : clean ops) (St : stochastic (net_of ops))
    (E : logic_sampler srt (build ops) = Ok s).
  Notation N := (net_of ops).

  Lemma top_keyed v t : dget (sp_tables s) v = Some t -> tb_pids t <> [] -> exists k, tb_probs t = Keyed k.
  Proof using E.
    unfold logic_sampler in E. destruct (get_tables (build ops)) as [d|] eqn:Ed; [|discriminate]. cbn [rbind] in E. injection E as <-. simpl. apply (get_tables_keyed _ _ Ed).
  Qed.
  Lemma node_par v : In v (sp_nodes s) -> incl (spar ops v) (sp_nodes s).
  Proof using K E. intros Hv p Hp. eapply Permutation_in; [symmetry; apply (sampler_perm srt ops s K E)|]. apply spar_In in Hp. apply (par_vars ops v p Hp). Qed.

  Lemma selects_within ps (HP : by_id N ps) a v u : In v (vars N) -> In (a v) (net_dom ops v) -> (selects (read_with N ps) a v u <-> within (net_dom ops) (srow ops) a v u).
  Proof using W.
    intros Hv Ha. assert (Es : srow ops v a = cpt_row (read_with N ps) v a).
    { destruct (HP v Hv) as [A1 A2]. unfold srow, spar. change (net_par ops v) with (par N v). rewrite <- (isort_Z_unique _ _ A1), sorted_ids by auto. reflexivity. }
    unfold selects, within. rewrite Es. split.
    - intros (i & Hi & H). assert (i = pos (a v) (net_dom ops v)) as ->; auto.
      pose proof (ws_dom _ W v Hv) as [ND _]. apply (proj1 (NoDup_nth_error _) ND). apply nth_error_Some. simpl in *. congruence. simpl in Hi. rewrite Hi, (nth_pos (a v) _ Ha). auto.
    - intros H. exists (pos (a v) (net_dom ops v)). split; auto. apply nth_pos; auto.
  Qed.

  Lemma c29_exactly ps ev us : by_id N ps -> evidence_on N ev -> possible_values N ev -> draw_for N us ->
    ((exists d, sample_once s ev us = Ok d) \/ sample_once s ev us = Err KeyError) /\
    (sample_once s ev us = Err KeyError <->
       exists before v after used rest a, sp_nodes s = before ++ v :: after /\ us = used ++ rest /\
         okon (dom N) (vars N) a /\ (forall i x, dget ev i = Some x -> a i = x) /\ Forall2 (selects (read_with N ps) a) before used /\
         (forall b1 w b2, before = b1 ++ w :: b2 -> incl (par N w) (b1 ++ dkeys ev)) /\ ~ incl (par N v) (before ++ dkeys ev)).
  Proof using K W C St E.
    intros HP [He1 He2] He3 Hu. pose proof (sampler_perm srt ops s K E) as P.
    assert (Iv : forall v, In v (sp_nodes s) <-> In v (net_vars ops)) by (intros v; split; apply Permutation_in; [|symmetry]; auto).
    assert (HT := H_tab srt ops s K W C E). assert (ND := H_nodup srt ops s K E). assert (HD := H_dom srt ops s K W E).
    assert (HNN := H_nn srt ops s K W E). assert (HS := H_sum srt ops s K W E St).
    set (a0 := fun i => match dget ev i with Some x => x | None => hd EmptyString (net_dom ops i) end).
    assert (A0 : okon (net_dom ops) (sp_nodes s) a0).
    { intros v Hv. unfold a0. destruct (dget ev v) as [x|] eqn:Ex; [apply (He3 v x Ex)|]. apply Iv in Hv. destruct (ws_dom _ W v Hv) as [_ Hne]. change (dom N v) with (net_dom ops v) in Hne. destruct (net_dom ops v); [congruence|left; auto]. }
    assert (A1 : forall i x, dget ev i = Some x -> a0 i = x) by (intros i x Hx; unfold a0; rewrite Hx; auto).
    assert (H0 : forall a, (forall i x, dget ev i = Some x -> a i = x) -> holds ev [] ev a).
    { intros a Ha. split; [|apply incl_refl]. intros i Hi. apply dkeys_dget in Hi as [x Hx]. rewrite Hx. f_equal. symmetry. apply (Ha i x Hx). }
    assert (Sv : forall v l, served (spar ops) ev l v <-> incl (par N v) (l ++ dkeys ev)).
    { intros v l. unfold served. split; intros H p Hp; apply H; [apply spar_In; auto|apply spar_In in Hp; auto]. }
    assert (WF : forall a l us, okon (net_dom ops) (net_vars ops) a -> incl l (sp_nodes s) -> (Forall2 (selects (read_with N ps) a) l us <-> Forall2 (within (net_dom ops) (srow ops) a) l us)).
    { intros a l us' Ha Hl. split; intros HF; (induction HF as [|v u l us' Hw HF IH]; constructor; [|apply IH; intros z Hz; apply Hl; simpl; auto]);
      (assert (Hv : In v (net_vars ops)) by (apply Iv, Hl; simpl; auto)); apply (selects_within ps HP a v u Hv); auto. }
    assert (Main : (exists d, sample_once s ev us = Ok d) \/ sample_once s ev us = Err KeyError /\ exists before v after used rest a, sp_nodes s = before ++ v :: after /\ us = used ++ rest /\
         okon (dom N) (vars N) a /\ (forall i x, dget ev i = Some x -> a i = x) /\ Forall2 (selects (read_with N ps) a) before used /\
         (forall b1 w b2, before = b1 ++ w :: b2 -> incl (par N w) (b1 ++ dkeys ev)) /\ ~ incl (par N v) (before ++ dkeys ev)).
    { destruct (walk_any (net_dom ops) (spar ops) (srow ops) (sp_tables s) (sp_nodes s) HT top_keyed ND (srow_length ops) HNN HS ev node_par (sp_nodes s) [] ev us a0) as [R|(R & mid & v & after & us1 & us2 & a & R1 & R2 & R3 & R4 & _ & R6 & R7 & R8)]; auto.
      { apply (draw_len srt ops s K E us Hu). } { apply Hu. }
      right. split; auto. assert (Ok' : okon (net_dom ops) (net_vars ops) a) by (intros w Hw; apply R3, Iv; auto).
      exists mid, v, after, us1, us2, a. split; auto. split; auto. split; [exact Ok'|]. split; auto. split. { apply WF; auto. intros z Hz. rewrite R1. apply in_or_app; auto. }
      split; [intros b1 w b2 Eb; apply Sv; apply (R7 b1 w b2 Eb)|]. rewrite <- Sv. exact R8. }
    split; [tauto|]. split. { intros Hk. destruct Main as [[d Hd]|[_ M]]; [congruence|exact M]. }
    intros (before & v & after & used & rest & a & E1 & E2 & E3 & E4 & E5 & E6 & E7).
    assert (Hlu : List.length us = List.length (sp_nodes s)) by (apply (draw_len srt ops s K E us Hu)).
    assert (Hl5 : List.length before = List.length used) by (clear - E5; induction E5; simpl; auto).
    destruct Hu as [_ Hu]. unfold sample_once. rewrite E1. rewrite E2 in *.
    apply (walk_stuck (net_dom ops) (spar ops) (srow ops) (sp_tables s) (sp_nodes s) HT top_keyed ND ev node_par v after rest a before [] ev used); auto.
    - intros w Hw. apply E3. apply Iv; auto.
    - apply Forall_app in Hu. apply Hu.
    - intros ->. rewrite app_nil_r, E1, app_length in Hlu. simpl in Hlu. lia.
    - apply WF; auto. intros z Hz. rewrite E1. apply in_or_app; auto.
    - intros m1 w m2 Em. apply Sv. eapply E6; eauto.
    - simpl. rewrite Sv. exact E7.
  Qed.

  (** without evidence *)
  Lemma walk_all rest : forall before d us r, sp_nodes s = before ++ rest -> dkeys d = before -> List.length us = List.length rest ->
    sample_walk (sp_tables s) [] d (combine us rest) = Ok r -> forall m1 w m2, rest = m1 ++ w :: m2 -> incl (par N w) (before ++ m1).
  Proof using K W C E.
    induction rest as [|v rest IH]; intros before d us r Eo Ed Hl Ew m1 w m2 Em. { destruct m1; discriminate. }
    destruct us as [|u us]; [discriminate|]. assert (ND := H_nodup srt ops s K E). destruct (mid_facts (sp_nodes s) ND _ _ _ Eo) as (Hv & Hnb).
    destruct (H_tab srt ops s K W C E v Hv) as (t & Et & Ht). cbn [combine sample_walk] in Ew. unfold dgetE in Ew. rewrite Et in Ew. cbn [rbind] in Ew.
    destruct (get_value t u d) as [x|] eqn:Ex; cbn [rbind dget] in Ew; [|discriminate].
    destruct m1 as [|y m1]; simpl in Em; injection Em as <- Em.
    - rewrite app_nil_r. destruct (subset (spar ops v) before) eqn:Es. { apply subset_spec in Es. intros p Hp. apply Es. apply spar_In; auto. }
      exfalso. rewrite (value_missing (net_dom ops) (spar ops) (srow ops) (sp_tables s) (sp_nodes s) (H_tab srt ops s K W C E) top_keyed v t d u Hv Et) in Ex; [discriminate|].
      rewrite Ed. intros Hi. apply subset_spec in Hi. congruence.
    - rewrite (dkeys_dset_notin d v x) in Ew by (rewrite Ed; auto).
      change (v :: m1) with ([v] ++ m1). rewrite app_assoc. eapply IH; [| | |exact Ew|exact Em].
      + rewrite <- app_assoc; auto.
      + unfold dkeys in *. rewrite map_app, Ed. auto.
      + simpl in Hl; lia.
  Qed.
  Lemma c29_plain us : draw_for N us ->
    (topological N (sp_nodes s) -> exists d, sample_once s [] us = Ok d) /\
    (~ topological N (sp_nodes s) -> forall n draws, get_samples s [] n (us :: draws) = Err KeyError).
  Proof using K W C St E.
    intros Hu. split. { intros T. destruct (plain srt ops s K W C E T St us Hu) as (a & _ & Ep & _). eauto. }
    intros Hn n draws. unfold get_samples. cbn [samples_loop].
    assert (H : sample_once s [] us = Err KeyError).
    { assert (P0 : by_id N (fun v => isort Z.leb (par N v))) by (apply by_id_exists; intros v _; apply firsts_NoDup).
      assert (E0 : evidence_on N []) by (split; [constructor|intros x []]). assert (V0 : possible_values N []) by (intros i x Hx; discriminate).
      destruct (c29_exactly _ [] us P0 E0 V0 Hu) as [[[d Hd]|R] _]; auto. exfalso. apply Hn. split; [apply (sampler_perm srt ops s K E)|].
      intros before v after p Eo Hp. assert (Hl := draw_len srt ops s K E us Hu).
      apply (walk_all (sp_nodes s) [] [] us d eq_refl eq_refl Hl Hd before v after Eo). auto. }
    rewrite H. reflexivity.
  Qed.
End Top.
