(** Samples that are not whole. *)
From Verif Require Import Py M_Graph M_Node M_Sampling Spec SpecNet SpecPot SpecSamp SpecRun SpecWhole L_Base L_Table L_Apply L_Net L_Check L_Sort L_P4 L_P5 L_R4 Ex L_SampEx L_KeptEx L_Whole.
Open Scope nat_scope.

Definition netb (ops : list bop) : bool :=
  well_shapedb ops && cleanb ops && stochasticb (net_of ops) && consistentb ops && Nat.ltb (List.length (get_nodes (b_g (build ops)))) 64.
Definition onlyb (ops : list bop) (ev : sample) (us : list Qc) (P : sample -> bool) : bool :=
  match logic_sampler small (build ops) with Ok s => match get_samples s ev 1 [us] with Ok [d] => P d | _ => false end | Err _ => false end.
Lemma only_ok ops ev us P rank : netb ops = true -> rankedb (net_of ops) rank = true -> drawb ops us = true -> onlyb ops ev us P = true -> let N := net_of ops in
  well_shaped ops /\ clean ops /\ stochastic N /\ acyclic (is_parent N) /\ consistent N /\ draw_for N us /\
  forall srt, sorter_ok srt -> exists s, logic_sampler srt (build ops) = Ok s /\ topological N (sp_nodes s) /\ exists d, get_samples s ev 1 [us] = Ok [d] /\ P d = true.
Proof.
  unfold netb. rewrite !andb_true_iff. intros [[[[H1 H2] H3] H4] H5] HR Hd HP. set (N := net_of ops). apply well_shapedb_ok in H1. apply cleanb_ok in H2. apply stochasticb_ok in H3. apply consistentb_ok in H4. apply drawb_ok in Hd.
  assert (HA : acyclic (is_parent N)) by (apply rankedb_ok with rank; auto). do 6 (split; [assumption|]). intros srt K.
  destruct (c29 srt ops K H1 H2 HA H4) as (s & E & T & _). exists s. split; [exact E|]. split; [exact T|]. unfold onlyb in HP. rewrite <- (short srt _ K H5), E in HP.
  destruct (get_samples s ev 1 [us]) as [[|d [|? ?]]|]; try discriminate. eauto.
Qed.

Definition stray : sample := [(99%Z, "zz"%string); (2%Z, "y"%string)].
Definition stray_draw : list Qc := [qfrac 1 10; qfrac 1 10; qfrac 99 100; qfrac 1 10].
Lemma c88_stray_refuted : exists ops ev us i j x, let N := net_of ops in
  well_shaped ops /\ clean ops /\ stochastic N /\ acyclic (is_parent N) /\ consistent N /\ draw_for N us /\
  NoDup (dkeys ev) /\ In i (vars N) /\ dget ev j = Some x /\ In j (vars N) /\ In x (dom N j) /\
  forall srt, sorter_ok srt -> exists s, logic_sampler srt (build ops) = Ok s /\ topological N (sp_nodes s) /\
    exists d full, get_samples s ev 1 [us] = Ok [d] /\ ~ In i (dkeys d) /\ sample_once s [] us = Ok full /\ dget full j <> Some x.
Proof.
  exists diamond_asc, stray, stray_draw, 30%Z, 2%Z, "y"%string.
  destruct (only_ok diamond_asc stray stray_draw (fun d => negb (mem 30%Z (dkeys d))) diamond_rank) as (A1 & A2 & A3 & A4 & A5 & A6 & A7); [vm_compute; reflexivity..|].
  destruct (only_ok diamond_asc [] stray_draw (fun d => negb (hasb d 2%Z "y"%string)) diamond_rank) as (_ & _ & _ & _ & _ & _ & B7); [vm_compute; reflexivity..|].
  cbv zeta. do 6 (split; [assumption|]). split; [apply nodupb_ok; vm_compute; reflexivity|]. split; [apply mem_In; vm_compute; reflexivity|]. split; [reflexivity|]. split; [apply mem_In; vm_compute; reflexivity|]. split; [apply mem_In; vm_compute; reflexivity|].
  intros srt K. destruct (A7 srt K) as (s & E & T & d & Ed & Hd). destruct (B7 srt K) as (s' & E' & _ & full & Ef & Hf). rewrite E in E'. injection E' as <-. exists s. split; [exact E|]. split; [exact T|]. exists d, full. split; [exact Ed|].
  split. { intros H. apply mem_In in H. rewrite H in Hd. discriminate. }
  split. { unfold get_samples in Ef. cbn [samples_loop] in Ef. destruct (sample_once s [] stray_draw) as [g|]; [|discriminate]. cbn [rbind] in Ef. destruct (Nat.eqb _ (List.length (sp_nodes s))); simpl in Ef; [injection Ef as <-; auto|discriminate]. }
  intros H. unfold hasb in Hf. rewrite H, eqb_refl in Hf. discriminate.
Qed.

Definition odd : sample := [(30%Z, "zz"%string)].
Lemma c88_value_refuted : exists ops ev us i x, let N := net_of ops in
  well_shaped ops /\ clean ops /\ stochastic N /\ acyclic (is_parent N) /\ consistent N /\ draw_for N us /\ evidence_on N ev /\
  In i (vars N) /\ ~ In x (dom N i) /\
  forall srt, sorter_ok srt -> exists s, logic_sampler srt (build ops) = Ok s /\ topological N (sp_nodes s) /\
    exists d, get_samples s ev 1 [us] = Ok [d] /\ dget d i = Some x.
Proof.
  exists diamond_asc, odd, stray_draw, 30%Z, "zz"%string.
  destruct (only_ok diamond_asc odd stray_draw (fun d => hasb d 30%Z "zz"%string) diamond_rank) as (A1 & A2 & A3 & A4 & A5 & A6 & A7); [vm_compute; reflexivity..|].
  cbv zeta. do 6 (split; [assumption|]). split; [apply onb_ok; vm_compute; reflexivity|]. split; [apply mem_In; vm_compute; reflexivity|].
  split. { intros H. apply mem_In in H. vm_compute in H. discriminate. }
  intros srt K. destruct (A7 srt K) as (s & E & T & d & Ed & Hd). exists s. split; [exact E|]. split; [exact T|]. exists d. split; [exact Ed|apply hasb_ok; auto].
Qed.

(** evidence on [b]; a draw that fits and one that does not *)
Definition two_draws : list (list Qc) := [stray_draw; [qfrac 1 10; qfrac 1 10; qfrac 3 5; qfrac 1 10]].
Lemma c88_case : sorter_ok small /\ evidence_on (net_of diamond_asc) [(2%Z, "y"%string)] /\ possible_values (net_of diamond_asc) [(2%Z, "y"%string)] /\
  (exists s l, logic_sampler small (build diamond_asc) = Ok s /\ get_samples s [(2%Z, "y"%string)] 1 two_draws = Ok l /\ List.length l = 1) /\
  (forall i, In i (dkeys [(99%Z, "zz"%string)]) -> ~ In i (vars (net_of diamond_asc))).
Proof.
  split; [exact small_sorter_ok|]. split; [apply onb_ok; vm_compute; reflexivity|]. split; [apply valuesb_ok; vm_compute; reflexivity|]. split.
  { assert (H : (match logic_sampler small (build diamond_asc) with Ok s => match get_samples s [(2%Z, "y"%string)] 1 two_draws with Ok l => Nat.eqb (List.length l) 1 | Err _ => false end | Err _ => false end) = true) by (vm_compute; reflexivity).
    revert H. generalize (logic_sampler small (build diamond_asc)) as S0. intros [s|]; [|discriminate]. destruct (get_samples s _ 1 two_draws) as [l|] eqn:El; [|discriminate]. intros H. exists s, l. split; [reflexivity|]. split; [exact El|apply Nat.eqb_eq; exact H]. }
  intros i [<-|[]] H. apply mem_In in H. vm_compute in H. discriminate.
Qed.
