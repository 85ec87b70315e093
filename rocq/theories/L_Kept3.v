(** With evidence the sampler draws from the posterior given the evidence it reaches before the last block of evidence. *)
From Verif Require Import Py M_Graph M_Node M_Sampling M_Pptc Spec SpecNet SpecEv SpecPot SpecSamp SpecKept L_Base L_Sums L_Table L_Net L_Build L_Apply L_P1 L_P4 L_Samp L_Samp2 L_P5 L_Samp3 L_Kept L_Kept2.
Open Scope nat_scope.

Section Top.
  Context (srt : sorter) (ops : list bop) (s : sampler) (K : sorter_ok srt) (W : well_shaped ops) (C : clean ops) (St : stochastic (net_of ops))
    (E : logic_sampler srt (build ops) = Ok s) (T : topological (net_of ops) (sp_nodes s)).
  Notation N := (net_of ops).
  Context (ps : Z -> list Z) (A : by_id N ps).
  Notation M := (read_with N ps).
  Context (ev : sample) (front back : list Z) (He : evidence_on N ev) (HC : cut_at_evidence (sp_nodes s) ev front back).

  Lemma node_iff v : In v (sp_nodes s) <-> In v (net_vars ops).
  Proof using K E. split; apply Permutation_in; [|symmetry]; apply (sampler_perm srt ops s K E). Qed.

  Lemma kept_within a us : okon (dom N) (vars N) a -> has_values ev a = true -> draw_for N us ->
    ((exists d, sample_once s ev us = Ok d /\ List.length d = List.length (sp_nodes s) /\ records d (vars N) a) <->
     Forall2 (within (net_dom ops) (srow ops) a) front (firstn (List.length front) us)).
  Proof using K W C St E T He HC.
    intros Ha Hev Hu. destruct He as [HEN HEV]. destruct HC as (Eo & HB & HL). rewrite has_values_iff in Hev by auto.
    assert (HEV' : incl (dkeys ev) (sp_nodes s)) by (intros v Hv; apply node_iff, HEV; auto).
    assert (Ha' : okon (net_dom ops) (sp_nodes s) a) by (intros v Hv; apply Ha, node_iff; auto).
    assert (H0 : holds ev [] ev a). { split; [|apply incl_refl]. intros i Hi. apply dkeys_dget in Hi as [x Hx]. rewrite Hx. f_equal. symmetry. auto. }
    assert (HTt := H_tab srt ops s K W C E). assert (HO := H_ord ops s T). assert (ND := H_nodup srt ops s K E).
    assert (HNN := H_nn srt ops s K W E). assert (HS := H_sum srt ops s K W E St). assert (HLn := srow_length ops).
    pose proof (draw_len srt ops s K E us Hu) as Hlu. destruct Hu as [_ Hu].
    rewrite <- (firstn_skipn (List.length front) us) in Hu, Hlu |- * at 1. set (us1 := firstn (List.length front) us) in *. set (us2 := skipn (List.length front) us) in *.
    assert (Hl : List.length us = List.length front + List.length back). { rewrite <- app_length, <- Eo, <- Hlu. unfold us1, us2. rewrite firstn_skipn. auto. }
    assert (Hl1 : List.length us1 = List.length front) by (unfold us1; rewrite firstn_length; lia). assert (Hl2 : List.length us2 = List.length back) by (unfold us2; rewrite skipn_length; lia).
    apply Forall_app in Hu as [Hu1 Hu2]. replace (firstn (List.length front) (us1 ++ us2)) with us1 by (rewrite <- Hl1, firstn_app, Nat.sub_diag, firstn_all; simpl; rewrite app_nil_r; auto).
    unfold sample_once. split.
    - intros (d & Ed & Hd & Hr). rewrite Eo in Ed.
      apply (walk_inv (net_dom ops) (spar ops) (srow ops) (sp_tables s) (sp_nodes s) HTt HO ND HLn HNN HS ev a Ha' Hev back front [] ev us1 us2 d); auto.
      { unfold us1, us2. rewrite firstn_skipn. exact Ed. }
      intros v Hv. apply Hr. apply node_iff; auto.
    - intros HF. destruct (walk_front (net_dom ops) (spar ops) (srow ops) (sp_tables s) (sp_nodes s) HTt HO ND HLn HNN HS ev a Ha' Hev back front [] ev us1 us2) as (r & Er & Hr); auto.
      exists r. rewrite <- Eo in Er. replace (us1 ++ us2) with us in Er by (unfold us1, us2; rewrite firstn_skipn; auto). split; [exact Er|]. split; [|intros v Hv; apply Hr, node_iff; auto].
      destruct (walk_keys _ _ _ _ _ Er HEN) as (N1 & N2 & _). apply (full_length srt ops s K E); auto.
      + intros v Hv. apply N2, in_app_or in Hv as [Hv|Hv]; auto. apply in_map_iff in Hv as ([u w] & <- & Hw). eapply in_combine_r; eauto.
      + intros v Hv. apply Hr in Hv. eapply dget_Some_key; eauto.
  Qed.

  Lemma c86_kept a us : okon (dom N) (vars N) a -> has_values ev a = true -> draw_for N us ->
    ((exists d, sample_once s ev us = Ok d /\ List.length d = List.length (sp_nodes s) /\ records d (vars N) a) <->
     Forall2 (selects M a) front (firstn (List.length front) us)).
  Proof using K W C St E T A He HC.
    intros Ha Hev Hu. rewrite (kept_within a us Ha Hev Hu).
    assert (Hf : incl front (net_vars ops)). { intros v Hv. apply node_iff. rewrite (proj1 HC). apply in_or_app; auto. }
    clear - W A Ha Hf. generalize (firstn (List.length front) us) as l. induction front as [|v f IH]; intros l; (split; intros H; inversion H; subst; constructor);
      try (apply IH; auto; intros w Hw; apply Hf; right; auto);
      (eapply selects_within; eauto; [apply Hf; left; auto|apply Ha, Hf; left; auto]).
  Qed.

  Definition low (a : asg) (v : Z) : Qc := below (srow ops v a) (pos (a v) (net_dom ops v)).
  Definition high (a : asg) (v : Z) : Qc := below (srow ops v a) (S (pos (a v) (net_dom ops v))).

  Lemma side a v : okon (dom N) (vars N) a -> In v (net_vars ops) -> (high a v - low a v)%Qc = cpt_entry M v a.
  Proof using A.
    intros Ha Hv. pose proof (Ha v Hv) as Hav. unfold high, low.
    assert (Es : srow ops v a = cpt_row M v a).
    { destruct (A v Hv) as [A1 A2]. unfold srow, spar. change (net_par ops v) with (par N v). rewrite <- (isort_Z_unique _ _ A1), sorted_ids by auto. reflexivity. }
    rewrite Es. unfold cpt_row.
    assert (Eq : nth_error (map (fun x => cpt_entry M v (upd a v x)) (dom M v)) (pos (a v) (net_dom ops v)) = Some (cpt_entry M v a)).
    { rewrite nth_error_map. simpl dom. rewrite (nth_pos (a v) (net_dom ops v) Hav). simpl. f_equal. apply cpt_dep. intros u _. apply upd_same. }
    rewrite (below_S _ _ _ Eq). ring.
  Qed.
  Lemma bounds a v : okon (dom N) (vars N) a -> In v (net_vars ops) -> (0 <= low a v)%Qc /\ (low a v <= high a v)%Qc /\ (high a v <= 1)%Qc.
  Proof using W St.
    intros Ha Hv. assert (Hp : okon (net_dom ops) (spar ops v) a) by (intros p Hp; apply Ha; apply spar_In in Hp; apply (par_vars ops v p Hp)).
    pose proof (srow_nonneg ops W v a Hv Hp) as Hn. unfold low, high. repeat split.
    - rewrite <- (below_0 (srow ops v a)). apply below_mono; auto. lia.
    - apply below_mono; auto.
    - rewrite <- (srow_sum ops W v a St Hv Hp), <- (below_all (srow ops v a) (S (List.length (srow ops v a) + pos (a v) (net_dom ops v)))) by lia. apply below_mono; auto. lia.
  Qed.
  Lemma row_one v a : In v (vars M) -> okon (dom M) (par M v) a -> qsum (map (fun x => cpt_entry M v (upd a v x)) (dom M v)) = 1%Qc.
  Proof using W St A.
    intros Hv Ha. destruct (A v Hv) as [A1 A2].
    assert (Es : srow ops v a = cpt_row M v a). { unfold srow, spar. change (net_par ops v) with (par N v). rewrite <- (isort_Z_unique _ _ A1), sorted_ids by auto. reflexivity. }
    change (map (fun x => cpt_entry M v (upd a v x)) (dom M v)) with (cpt_row M v a). rewrite <- Es. apply srow_sum; auto. intros p Hp. apply Ha. simpl. apply spar_In in Hp. eapply Permutation_in; [symmetry; apply A1|exact Hp].
  Qed.

  Definition vol (a : asg) : Qc := volume (low a) (high a) front.
  Lemma vol_Wt a : okon (dom M) (vars M) a -> vol a = Wt M front a.
  Proof using K E A HC. intros Ha. unfold vol, volume, Wt. apply qprod_map_ext. intros v Hv. apply side; auto. apply node_iff. rewrite (proj1 HC). apply in_or_app; auto. Qed.

  Context (HEP : possible_values N ev).
  Lemma cut_perm : Permutation (front ++ back) (vars M).
  Proof using K E HC. rewrite <- (proj1 HC). apply (sampler_perm srt ops s K E). Qed.
  Lemma cut_ord before v after p : front ++ back = before ++ v :: after -> In p (par M v) -> In p before.
  Proof using K E T A HC.
    intros Eq Hp. rewrite <- (proj1 HC) in Eq. assert (Hv : In v (net_vars ops)) by (apply node_iff; rewrite Eq; apply in_or_app; simpl; auto).
    apply (proj2 T before v after p Eq). eapply Permutation_in; [apply (A v Hv)|exact Hp].
  Qed.

  Lemma c86_total : all_kept N ev vol = total M (seen (only front ev)).
  Proof using K W C St E T A He HC HEP.
    destruct He as [HEN HEV]. change (all_kept N ev vol) with (all_kept M ev vol). apply (spread_total M front back); auto.
    - apply cut_perm.
    - apply firsts_NoDup.
    - intros v Hv. apply (ws_dom _ W v Hv).
    - apply cut_ord.
    - apply row_one.
    - apply HC.
    - intros a Ha _. apply vol_Wt; auto.
  Qed.
  Lemma c86_mass i x : In i front -> kept_with N ev vol i x = mass_of M (seen (only front ev)) i x.
  Proof using K W C St E T A He HC HEP.
    intros Hi. destruct He as [HEN HEV]. change (kept_with N ev vol i x) with (kept_with M ev vol i x). apply (spread_with M front back); auto.
    - apply cut_perm.
    - apply firsts_NoDup.
    - intros v Hv. apply (ws_dom _ W v Hv).
    - apply cut_ord.
    - apply row_one.
    - apply HC.
    - intros a Ha _. apply vol_Wt; auto.
  Qed.
End Top.

Lemma c86_kept_all : forall srt ops s, sorter_ok srt -> well_shaped ops -> clean ops -> let N := net_of ops in stochastic N ->
  logic_sampler srt (build ops) = Ok s -> topological N (sp_nodes s) -> forall ps, by_id N ps ->
  forall ev front back, evidence_on N ev -> cut_at_evidence (sp_nodes s) ev front back ->
  forall a us, okon (dom N) (vars N) a -> has_values ev a = true -> draw_for N us ->
    ((exists d, sample_once s ev us = Ok d /\ List.length d = List.length (sp_nodes s) /\ records d (vars N) a) <->
     Forall2 (selects (read_with N ps) a) front (firstn (List.length front) us)).
Proof. intros srt ops s K W C N St E T ps A ev front back He HC. apply (c86_kept srt ops s K W C St E T ps A ev front back He HC). Qed.

Lemma c86_spread : forall srt ops s, sorter_ok srt -> well_shaped ops -> clean ops -> let N := net_of ops in stochastic N ->
  logic_sampler srt (build ops) = Ok s -> topological N (sp_nodes s) -> forall ps, by_id N ps ->
  forall ev front back, evidence_on N ev -> possible_values N ev -> cut_at_evidence (sp_nodes s) ev front back ->
  exists lo hi : asg -> Z -> Qc,
    (forall a us, okon (dom N) (vars N) a -> has_values ev a = true -> draw_for N us ->
      ((exists d, sample_once s ev us = Ok d /\ List.length d = List.length (sp_nodes s) /\ records d (vars N) a) <->
       Forall2 (fun v u => (lo a v <= u)%Qc /\ (u < hi a v)%Qc) front (firstn (List.length front) us))) /\
    (forall a v, okon (dom N) (vars N) a -> In v (vars N) -> (0 <= lo a v)%Qc /\ (lo a v <= hi a v)%Qc /\ (hi a v <= 1)%Qc) /\
    let vol a := volume (lo a) (hi a) front in
    all_kept N ev vol = total (read_with N ps) (seen (only front ev)) /\
    forall i x, In i front -> kept_with N ev vol i x = mass_of (read_with N ps) (seen (only front ev)) i x.
Proof.
  intros srt ops s K W C N St E T ps A ev front back He HEP HC. exists (low ops), (high ops). split; [|split; [|split]].
  - intros a us Ha Hev Hu. apply (kept_within srt ops s K W C St E T ev front back He HC a us Ha Hev Hu).
  - intros a v Ha Hv. apply (bounds ops W St a v Ha Hv).
  - apply (c86_total srt ops s K W C St E T ps A ev front back He HC HEP).
  - intros i x Hi. apply (c86_mass srt ops s K W C St E T ps A ev front back He HC HEP i x Hi).
Qed.

Lemma only_all ev vs : incl (dkeys ev) vs -> only vs ev = ev.
Proof.
  unfold only, dkeys. induction ev as [|[k x] ev IH]; simpl; intros H; auto. assert (mem k vs = true) as -> by (apply mem_In, H; left; reflexivity). rewrite IH; auto. intros v Hv. apply H; right; exact Hv.
Qed.

(** no evidence on the last variable visited, parents in ascending order *)
Lemma c86_posterior : forall srt ops s, sorter_ok srt -> well_shaped ops -> clean ops -> let N := net_of ops in stochastic N ->
  logic_sampler srt (build ops) = Ok s -> topological N (sp_nodes s) -> (forall v, In v (vars N) -> ascending (par N v)) ->
  forall ev, evidence_on N ev -> possible_values N ev -> (forall before v, sp_nodes s = before ++ [v] -> ~ In v (dkeys ev)) -> possible N (seen ev) ->
  exists lo hi : asg -> Z -> Qc,
    (forall a us, okon (dom N) (vars N) a -> has_values ev a = true -> draw_for N us ->
      ((exists d, sample_once s ev us = Ok d /\ List.length d = List.length (sp_nodes s) /\ records d (vars N) a) <->
       Forall2 (fun v u => (lo a v <= u)%Qc /\ (u < hi a v)%Qc) (sp_nodes s) us)) /\
    (forall a v, okon (dom N) (vars N) a -> In v (vars N) -> (0 <= lo a v)%Qc /\ (lo a v <= hi a v)%Qc /\ (hi a v <= 1)%Qc) /\
    let vol a := volume (lo a) (hi a) (sp_nodes s) in
    all_kept N ev vol <> 0%Qc /\
    forall i x, In i (vars N) -> (kept_with N ev vol i x / all_kept N ev vol)%Qc = exact_posterior N (seen ev) i x.
Proof.
  intros srt ops s K W C N St E T A ev He HEP HL HPos.
  destruct (c86_spread srt ops s K W C St E T (par N) (by_id_self N A) ev (sp_nodes s) [] He HEP) as (lo & hi & H1 & H2 & H3 & H4).
  { split; [rewrite app_nil_r; auto|]. split; [intros v []|auto]. }
  change (read_with (net_of ops) (par N)) with N in *. assert (Ho : only (sp_nodes s) ev = ev). { apply only_all. intros v Hv. apply (node_iff srt ops s K E). apply (proj2 He v Hv). }
  cbv zeta in H3, H4. rewrite Ho in H3. setoid_rewrite Ho in H4.
  unfold N in *. clear N.  exists lo, hi. split; [|split; [exact H2|split]].
  - intros a us Ha Hev Hu. pose proof (H1 a us Ha Hev Hu) as H. rewrite (firstn_all2 us) in H by (rewrite (draw_len srt ops s K E us Hu); auto). exact H.
  - rewrite H3. exact HPos.
  - intros i x Hi. rewrite H3, (H4 i x) by (apply (node_iff srt ops s K E); auto). unfold exact_posterior. destruct (Qc_eq_dec (total (net_of ops) (seen ev)) 0%Qc) as [Z|]; auto. exfalso. apply HPos. exact Z.
Qed.

(** the join tree gives the shares of the samples *)
Lemma c86_inference : forall srt ops s, sorter_ok srt -> well_shaped ops -> clean ops -> let N := net_of ops in stochastic N ->
  logic_sampler srt (build ops) = Ok s -> topological N (sp_nodes s) -> (forall v, In v (vars N) -> ascending (par N v)) ->
  forall ev, evidence_on N ev -> possible_values N ev -> (forall before v, sp_nodes s = before ++ [v] -> ~ In v (dkeys ev)) -> possible N (seen ev) ->
  connected ops -> forall o h, ord_ok o -> valid_history N h -> Forall hard_call (calls h) -> agree N (in_force N (calls h)) (seen ev) ->
  exists j t, session o ops h = Ok j /\ get_posteriors j = Ok t /\
  exists lo hi : asg -> Z -> Qc,
    (forall a us, okon (dom N) (vars N) a -> has_values ev a = true -> draw_for N us ->
      ((exists d, sample_once s ev us = Ok d /\ List.length d = List.length (sp_nodes s) /\ records d (vars N) a) <->
       Forall2 (fun v u => (lo a v <= u)%Qc /\ (u < hi a v)%Qc) (sp_nodes s) us)) /\
    let vol a := volume (lo a) (hi a) (sp_nodes s) in
    all_kept N ev vol <> 0%Qc /\
    forall i, In i (vars N) -> dget t (net_name ops i) = Some (map (fun x => (x, (kept_with N ev vol i x / all_kept N ev vol)%Qc)) (dom N i)).
Proof.
  intros srt ops s K W C N St E T A ev He HEP HL HPos Hc o h Ho Hh Hhard Hag.
  destruct (c02 ops o h W Hc Ho Hh Hhard) as (j & t & J1 & J2 & J3). exists j, t. split; auto. split; auto.
  destruct (c86_posterior srt ops s K W C St E T A ev He HEP HL HPos) as (lo & hi & H1 & H2 & H3 & H4). exists lo, hi. split; auto. split; auto.
  intros i Hi. rewrite (proj2 J3 i Hi). f_equal. apply map_ext. intros x. f_equal. transitivity (exact_posterior N (seen ev) i x); [apply posterior_agree; exact Hag|symmetry; exact (H4 i x Hi)].
Qed.
