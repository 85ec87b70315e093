(** Evidence the sampler waits for in vain. *)
From Verif Require Import Py M_Graph M_Node M_Sampling Spec SpecNet SpecPot SpecSamp SpecRun L_Base L_Table L_Apply L_Net L_Check L_Sort L_P4 L_P5 L_R4 L_Iso Ex L_SampEx L_Run.
Open Scope nat_scope.

Definition impossibleb (N : net) (ev : sample) : bool :=
  nodupb (dkeys ev) && subset (dkeys ev) (vars N) &&
  forallb (fun vs => let a := asg_of (vars N) vs in existsb (fun p => negb (String.eqb (a (fst p)) (snd p))) ev || qeqb (weight N no_evidence a) 0%Qc)
    (cartesian (map (dom N) (vars N))).
Lemma impossibleb_ok N ev : nshape N -> impossibleb N ev = true -> ~ evidence_possible N ev.
Proof.
  intros HN H [a [Ha [He Hw]]]. unfold impossibleb in H. apply andb_true_iff in H. destruct H as [H H3]. apply andb_true_iff in H. destruct H as [H1 H2].
  rewrite forallb_forall in H3. specialize (H3 _ (map_okon _ _ a Ha)). cbv zeta in H3. set (b := asg_of (vars N) (map a (vars N))) in *.
  assert (G : forall u, In u (vars N) -> b u = a u) by (intros u Hu; apply (asg_of_in (dom N)); auto).
  apply orb_true_iff in H3. destruct H3 as [H3|H3].
  - apply existsb_exists in H3. destruct H3 as [[i x] [Hi Hx]]. simpl in Hx.
    assert (E : dget ev i = Some x) by (apply In_dget; auto; apply nodupb_ok; auto).
    rewrite G, (He i x E), String.eqb_refl in Hx. { discriminate. } apply subset_spec in H2. apply H2. eapply dget_Some_key; eauto.
  - apply qeqb_true in H3. assert (D : dep (vars N) (weight N no_evidence)) by (apply weight_dep; intros i Hi p Hp; apply (ns_ends _ HN p i Hp)).
    rewrite (D b a) in H3 by (intros u Hu; apply G; auto). rewrite H3 in Hw. apply (Qclt_not_eq _ _ Hw). auto.
Qed.

(** v1 -> v2 -> v3, and v2 is never on when v1 is *)
Definition k_v2 := new_node 2 "v2"%string ["on"; "off"]%string [0%Qc; 1%Qc; qfrac 1 10; qfrac 9 10].
Definition never : list bop := [AddEdge n_1 k_v2; AddEdge k_v2 n_3].
Definition both_on : sample := [(1%Z, "on"%string); (2%Z, "on"%string)].

Lemma c72_zero_refuted : exists ops, well_shaped ops /\ clean ops /\ stochastic (net_of ops) /\ acyclic (is_parent (net_of ops)) /\ consistent (net_of ops) /\
  forall srt, sorter_ok srt -> exists s, logic_sampler srt (build ops) = Ok s /\
    forall f, (forall k, draw_for (net_of ops) (f k)) -> (forall m, exists k, m <= k /\ draws_fit s [] (f k)) /\ runs_for_ever s [] 0 f.
Proof.
  exists diamond_asc. assert (W : well_shaped diamond_asc) by (apply well_shapedb_ok; vm_compute; reflexivity). assert (C : clean diamond_asc) by (apply cleanb_ok; vm_compute; reflexivity).
  assert (S : stochastic (net_of diamond_asc)) by (apply stochasticb_ok; vm_compute; reflexivity).
  assert (A : acyclic (is_parent (net_of diamond_asc))) by (apply rankedb_ok with diamond_rank; vm_compute; reflexivity).
  assert (Co : consistent (net_of diamond_asc)) by (apply consistentb_ok; vm_compute; reflexivity).
  split; [exact W|]. split; [exact C|]. split; [exact S|]. split; [exact A|]. split; [exact Co|]. intros srt K.
  destruct (c29 srt diamond_asc K W C A Co) as (s & E & T & _). exists s. split; [exact E|]. intros f Hf.
  assert (G : forall k, draws_fit s [] (f k)). { intros k. destruct (plain srt diamond_asc s K W C E T S (f k) (Hf k)) as (a & _ & Ea & _). eexists. split; [exact Ea|]. intros i x Hx; discriminate. }
  split. { intros m. exists m. auto. }
  apply (c72_zero srt diamond_asc s K W C S E T [] f); auto. split; [constructor|]. intros i [].
Qed.

Definition y_f : sample := [(2%Z, "y"%string); (30%Z, "f"%string)].
Definition y_f_asg (i : Z) : string := if Z.eqb i 2 then "y"%string else if Z.eqb i 30 then "f"%string else "on"%string.
Lemma y_f_possible : evidence_possible (net_of diamond_asc) y_f.
Proof.
  exists y_f_asg. split; [|split].
  - intros v Hv. vm_compute in Hv. destruct Hv as [<-|[<-|[<-|[<-|[]]]]]; vm_compute; auto.
  - intros i x Hx. apply dget_In in Hx. destruct Hx as [Hx|[Hx|[]]]; inversion Hx; reflexivity.
  - apply qltb_lt. vm_compute. reflexivity.
Qed.
Lemma c72_case : sorter_ok small /\ well_shaped diamond_asc /\ clean diamond_asc /\ stochastic (net_of diamond_asc) /\
  (exists s, logic_sampler small (build diamond_asc) = Ok s /\ topological (net_of diamond_asc) (sp_nodes s)) /\
  (forall v, In v (net_vars diamond_asc) -> ascending (net_par diamond_asc v)) /\
  evidence_on (net_of diamond_asc) y_f /\ evidence_possible (net_of diamond_asc) y_f /\
  well_shaped never /\ clean never /\ stochastic (net_of never) /\ (forall v, In v (net_vars never) -> ascending (net_par never v)) /\
  (exists s, logic_sampler small (build never) = Ok s /\ topological (net_of never) (sp_nodes s) /\ sp_nodes s = [1; 2; 3]%Z) /\
  evidence_on (net_of never) both_on /\ ~ evidence_possible (net_of never) both_on.
Proof.
  assert (W : well_shaped diamond_asc) by (apply well_shapedb_ok; vm_compute; reflexivity). assert (C : clean diamond_asc) by (apply cleanb_ok; vm_compute; reflexivity).
  assert (W' : well_shaped never) by (apply well_shapedb_ok; vm_compute; reflexivity). assert (C' : clean never) by (apply cleanb_ok; vm_compute; reflexivity).
  split; [exact small_sorter_ok|]. split; [exact W|]. split; [exact C|]. split; [apply stochasticb_ok; vm_compute; reflexivity|].
  split. { destruct (c29 small diamond_asc small_sorter_ok W C) as (s & E & T & _). { apply rankedb_ok with diamond_rank; vm_compute; reflexivity. } { apply consistentb_ok; vm_compute; reflexivity. } exists s; auto. }
  split; [apply all_ascb_ok; vm_compute; reflexivity|].
  split. { split; [apply nodupb_ok; vm_compute; reflexivity|]. apply subset_spec. vm_compute. reflexivity. }
  split; [exact y_f_possible|]. split; [exact W'|]. split; [exact C'|]. split; [apply stochasticb_ok; vm_compute; reflexivity|].
  split; [apply all_ascb_ok; vm_compute; reflexivity|].
  split. { destruct (c29 small never small_sorter_ok W' C') as (s & E & T & _). { apply rankedb_ok with Z.to_nat; vm_compute; reflexivity. } { apply consistentb_ok; vm_compute; reflexivity. }
    exists s. split; [exact E|]. split; [exact T|]. rewrite (sampler_nodes small never s E). vm_compute. reflexivity. }
  split. { split; [apply nodupb_ok; vm_compute; reflexivity|]. apply subset_spec. vm_compute. reflexivity. }
  apply impossibleb_ok; [apply net_shape, W'|]. vm_compute. reflexivity.
Qed.
