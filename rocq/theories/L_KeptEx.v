(** Evidence at the end that the sampler does not wait for. *)
From Verif Require Import Py M_Graph M_Node M_Sampling M_Pptc Spec SpecNet SpecEv SpecPot SpecSamp SpecKept L_Base L_Table L_Apply L_Net L_Check L_Sort L_P4 L_P5 L_R1 L_R4 Ex L_SampEx L_Kept2 L_Kept3.
Open Scope nat_scope.

Fixpoint listb (l l' : list Z) : bool := match l, l' with [], [] => true | x :: t, y :: t' => Z.eqb x y && listb t t' | _, _ => false end.
Lemma listb_ok l : forall l', listb l l' = true -> l = l'.
Proof. induction l as [|x l IH]; intros [|y l'] H; try discriminate; auto. simpl in H. apply andb_true_iff in H as [H1 H2]. apply Z.eqb_eq in H1. subst. f_equal; auto. Qed.
Definition lastb (front : list Z) (ev : sample) : bool := match rev front with [] => true | v :: _ => negb (mem v (dkeys ev)) end.
Lemma lastb_ok front ev : lastb front ev = true -> forall before v, front = before ++ [v] -> ~ In v (dkeys ev).
Proof. unfold lastb. intros H before v ->. rewrite rev_app_distr in H. simpl in H. apply negb_true_iff in H. intros Hv. apply mem_In in Hv. congruence. Qed.
Definition valuesb (N : net) (ev : sample) : bool := forallb (fun p => mem (snd p) (dom N (fst p))) ev.
Lemma valuesb_ok N ev : valuesb N ev = true -> possible_values N ev.
Proof. unfold valuesb. rewrite forallb_forall. intros H i x Hx. apply dget_In in Hx. apply (mem_In x). apply (H _ Hx). Qed.
Definition onb (N : net) (ev : sample) : bool := nodupb (dkeys ev) && subset (dkeys ev) (vars N).
Lemma onb_ok N ev : onb N ev = true -> evidence_on N ev.
Proof. unfold onb. rewrite andb_true_iff. intros [H1 H2]. split; [apply nodupb_ok; auto|apply subset_spec; auto]. Qed.
Definition agreeb (N : net) (L L' : likelihood) : bool := forallb (fun i => forallb (fun v => qeqb (L i v) (L' i v)) (dom N i)) (vars N).
Lemma agreeb_ok N L L' : agreeb N L L' = true -> agree N L L'.
Proof. unfold agreeb. rewrite forallb_forall. intros H i v Hi Hv. specialize (H i Hi). rewrite forallb_forall in H. apply qeqb_true. apply H; auto. Qed.

Definition fitb (ops : list bop) (ev : sample) (front back : list Z) (i : Z) (x : string) : bool :=
  well_shapedb ops && cleanb ops && stochasticb (net_of ops) && connectedb ops && consistentb ops && all_ascb ops && onb (net_of ops) ev && valuesb (net_of ops) ev &&
  possibleb (net_of ops) (seen ev) && mem i front && mem x (net_dom ops i) && subset back (dkeys ev) && lastb front ev &&
  Nat.ltb (List.length (get_nodes (b_g (build ops)))) 64.
Definition awayb (ops : list bop) (ev : sample) (front : list Z) (i : Z) (x : string) : bool :=
  qeqb (total (net_of ops) (seen (only front ev))) 1 &&
  negb (qeqb (mass_of (net_of ops) (seen (only front ev)) i x) (exact_posterior (net_of ops) (seen ev) i x)).

(** the conclusion wanted, and the hypotheses *)
Lemma away ops ev front back i x rank : fitb ops ev front back i x = true -> rankedb (net_of ops) rank = true ->
  (match logic_sampler small (build ops) with Ok s => listb (sp_nodes s) (front ++ back) | Err _ => false end) = true -> awayb ops ev front i x = true ->
  let N := net_of ops in
  well_shaped ops /\ clean ops /\ stochastic N /\ connected ops /\ acyclic (is_parent N) /\ consistent N /\ (forall v, In v (vars N) -> ascending (par N v)) /\
  evidence_on N ev /\ possible_values N ev /\ possible N (seen ev) /\ In i (vars N) /\ In x (dom N i) /\
  forall srt, sorter_ok srt -> exists s, logic_sampler srt (build ops) = Ok s /\ topological N (sp_nodes s) /\ cut_at_evidence (sp_nodes s) ev front back /\
  exists lo hi : asg -> Z -> Qc,
    (forall a us, okon (dom N) (vars N) a -> has_values ev a = true -> draw_for N us ->
      ((exists d, sample_once s ev us = Ok d /\ List.length d = List.length (sp_nodes s) /\ records d (vars N) a) <->
       Forall2 (fun v u => (lo a v <= u)%Qc /\ (u < hi a v)%Qc) front (firstn (List.length front) us))) /\
    let vol a := volume (lo a) (hi a) front in
    all_kept N ev vol = 1%Qc /\ (kept_with N ev vol i x / all_kept N ev vol)%Qc <> exact_posterior N (seen ev) i x.
Proof.
  unfold fitb. rewrite !andb_true_iff. intros [[[[[[[[[[[[[H1 H2] H3] H4] H5] H6] H7] H8] H9] H10] H11] H12] H13] H14] HR HO HA. set (N := net_of ops).
  apply well_shapedb_ok in H1. apply cleanb_ok in H2. apply stochasticb_ok in H3. apply connectedb_ok in H4. apply consistentb_ok in H5. pose proof (all_ascb_ok ops H6) as H6'.
  apply onb_ok in H7. apply valuesb_ok in H8. apply possibleb_ok in H9. apply mem_In in H10. apply mem_In in H11. pose proof (proj1 (subset_spec _ _) H12) as H12'. pose proof (lastb_ok front ev H13) as H13'.
  assert (HAc : acyclic (is_parent N)) by (apply rankedb_ok with rank; auto).
  unfold awayb in HA. apply andb_true_iff in HA as [HA1 HA2]. apply qeqb_true in HA1. apply negb_true_iff, qeqb_false in HA2.
  assert (Cut : forall srt s, sorter_ok srt -> logic_sampler srt (build ops) = Ok s -> cut_at_evidence (sp_nodes s) ev front back).
  { intros srt s K E. split; [|split; auto]. apply listb_ok. rewrite (short srt _ K H14) in E. rewrite E in HO. exact HO. }
  assert (Hi : In i (vars N)). { destruct (c29 small ops small_sorter_ok H1 H2 HAc H5) as (s & E & T & _). apply (node_iff small ops s small_sorter_ok E). rewrite (proj1 (Cut _ _ small_sorter_ok E)). apply in_or_app; auto. }
  do 12 (split; [assumption|]). intros srt K. destruct (c29 srt ops K H1 H2 HAc H5) as (s & E & T & _). exists s. split; [exact E|]. split; [exact T|]. split; [eauto|].
  destruct (c86_spread srt ops s K H1 H2 H3 E T (par N) (by_id_self N H6') ev front back H7 H8 (Cut _ _ K E)) as (lo & hi & B1 & B2 & B3 & B4).
  exists lo, hi. split; [exact B1|]. cbv zeta in B3, B4. change (read_with (net_of ops) (par N)) with (net_of ops) in B3, B4. rewrite HA1 in B3. cbv zeta. unfold N. split; [exact B3|]. rewrite B3, (B4 i x H10).
  unfold Qcdiv. replace (/ 1)%Qc with 1%Qc by reflexivity. rewrite Qcmult_1_r. exact HA2.
Qed.

Lemma c86_posterior_refuted : exists ops ev i x, let N := net_of ops in
  well_shaped ops /\ clean ops /\ stochastic N /\ connected ops /\ acyclic (is_parent N) /\ consistent N /\ (forall v, In v (vars N) -> ascending (par N v)) /\
  evidence_on N ev /\ possible_values N ev /\ possible N (seen ev) /\ In i (vars N) /\ In x (dom N i) /\
  forall srt, sorter_ok srt -> exists s, logic_sampler srt (build ops) = Ok s /\ topological N (sp_nodes s) /\
  exists front back, cut_at_evidence (sp_nodes s) ev front back /\
  exists lo hi : asg -> Z -> Qc,
    (forall a us, okon (dom N) (vars N) a -> has_values ev a = true -> draw_for N us ->
      ((exists d, sample_once s ev us = Ok d /\ List.length d = List.length (sp_nodes s) /\ records d (vars N) a) <->
       Forall2 (fun v u => (lo a v <= u)%Qc /\ (u < hi a v)%Qc) front (firstn (List.length front) us))) /\
    let vol a := volume (lo a) (hi a) front in
    all_kept N ev vol = 1%Qc /\ (kept_with N ev vol i x / all_kept N ev vol)%Qc <> exact_posterior N (seen ev) i x.
Proof.
  exists diamond_asc, [(2%Z, "y"%string); (30%Z, "f"%string)], 10%Z, "on"%string.
  destruct (away diamond_asc [(2%Z, "y"%string); (30%Z, "f"%string)] [10; 1]%Z [2; 30]%Z 10%Z "on"%string diamond_rank) as (A1 & A2 & A3 & A4 & A5 & A6 & A7 & A8 & A9 & A10 & A11 & A12 & A13);
    [vm_compute; reflexivity..|].
  cbv zeta. do 12 (split; [assumption|]). intros srt K. destruct (A13 srt K) as (s & B1 & B2 & B3 & B4). exists s. split; [exact B1|]. split; [exact B2|]. eexists _, _. split; [exact B3|exact B4].
Qed.

Definition saw_y : history := [(ord_rev, Update [build_evidence n_b OBSERVATION [("y"%string, 1%Qc)]])].
Lemma c86_case : sorter_ok small /\ well_shaped diamond_asc /\ clean diamond_asc /\ stochastic (net_of diamond_asc) /\
  (exists s, logic_sampler small (build diamond_asc) = Ok s /\ topological (net_of diamond_asc) (sp_nodes s) /\ sp_nodes s = [10; 1; 2; 30]%Z) /\
  (forall v, In v (net_vars diamond_asc) -> ascending (net_par diamond_asc v)) /\ connected diamond_asc /\
  let N := net_of diamond_asc in let ev := [(2%Z, "y"%string)] in
  evidence_on N ev /\ possible_values N ev /\ cut_at_evidence [10; 1; 2; 30]%Z ev [10; 1; 2; 30]%Z [] /\ possible N (seen ev) /\
  valid_history N saw_y /\ Forall hard_call (calls saw_y) /\ agree N (in_force N (calls saw_y)) (seen ev) /\
  this (exact_posterior N (seen ev) 10%Z "on"%string) <> this (exact_posterior N no_evidence 10%Z "on"%string).
Proof.
  assert (W : well_shaped diamond_asc) by (apply well_shapedb_ok; vm_compute; reflexivity). assert (C : clean diamond_asc) by (apply cleanb_ok; vm_compute; reflexivity).
  split; [exact small_sorter_ok|]. split; [exact W|]. split; [exact C|]. split; [apply stochasticb_ok; vm_compute; reflexivity|].
  split. { destruct (c29 small diamond_asc small_sorter_ok W C) as (s & E & T & _). { apply rankedb_ok with diamond_rank; vm_compute; reflexivity. } { apply consistentb_ok; vm_compute; reflexivity. }
    exists s. split; [exact E|]. split; [exact T|]. rewrite (sampler_nodes small diamond_asc s E). vm_compute. reflexivity. }
  split; [apply all_ascb_ok; vm_compute; reflexivity|]. split; [apply connectedb_ok; vm_compute; reflexivity|]. cbv zeta.
  split; [apply onb_ok; vm_compute; reflexivity|]. split; [apply valuesb_ok; vm_compute; reflexivity|].
  split. { split; [reflexivity|]. split; [intros v []|]. apply lastb_ok. vm_compute. reflexivity. }
  split; [apply possibleb_ok; vm_compute; reflexivity|].
  split. { split; [apply Forall_cons; [exact ord_rev_ok|apply Forall_nil]|]. apply valid_calls_ok. vm_compute. reflexivity. }
  split; [apply hard_calls_ok; vm_compute; reflexivity|].
  split; [apply agreeb_ok; vm_compute; reflexivity|]. vm_compute. discriminate.
Qed.
