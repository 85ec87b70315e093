(** Decision procedures used by the examples: they establish the hypotheses of the theorems on concrete networks. *)
From Verif Require Import Py M_Graph M_Node M_Pptc Spec SpecNet SpecEv L_Base L_Build.

Open Scope nat_scope.

Fixpoint nodupb {K} `{EqB K} (l : list K) : bool := match l with [] => true | x :: t => negb (mem x t) && nodupb t end.
Lemma nodupb_ok {K} `{EqB K} (l : list K) : nodupb l = true -> NoDup l.
Proof.
  induction l as [|x t IH]; simpl; intros E; constructor.
  - apply andb_true_iff in E. destruct E as [E _]. intros Hx. apply mem_In in Hx. rewrite Hx in E. discriminate.
  - apply andb_true_iff in E. apply IH; tauto.
Qed.
Lemma qleb_ok x y : qleb x y = true -> (x <= y)%Qc.
Proof. unfold qleb. intros E. apply Qcle_alt. intros Hl. rewrite Hl in E. discriminate. Qed.

Definition nonempty {A} (l : list A) : bool := match l with [] => false | _ => true end.
Definition well_shapedb (ops : list bop) : bool :=
  forallb (fun n => match n_mclq n with None => true | Some _ => false end) (mentioned ops) &&
  nonempty (net_vars ops) &&
  forallb (fun i => nodupb (net_dom ops i) && nonempty (net_dom ops i)) (net_vars ops) &&
  forallb (fun i => size (net_dom ops) (net_par ops i ++ [i]) <=? List.length (net_cpt ops i)) (net_vars ops) &&
  forallb (fun i => forallb (qleb 0%Qc) (net_cpt ops i)) (net_vars ops) &&
  forallb (fun i => negb (mem i (net_par ops i))) (net_vars ops) &&
  nodupb (map (net_name ops) (net_vars ops)).

Lemma well_shapedb_ok ops : well_shapedb ops = true -> well_shaped ops.
Proof.
  unfold well_shapedb. rewrite !andb_true_iff. intros [[[[[[H1 H2] H3] H4] H5] H6] H7]. rewrite forallb_forall in *. constructor.
  - intros n Hn. specialize (H1 n Hn). destruct (n_mclq n); auto; discriminate.
  - destruct (net_vars ops); [discriminate H2|congruence].
  - intros i Hi. specialize (H3 i Hi). apply andb_true_iff in H3. destruct H3 as [A B]. split; [apply nodupb_ok; auto|]. destruct (net_dom ops i); [discriminate|congruence].
  - intros i Hi. apply Nat.leb_le. apply H4; auto.
  - intros i q Hi Hq. specialize (H5 i Hi). rewrite forallb_forall in H5. apply qleb_ok; auto.
  - intros i Hi. assert (Hv : In i (net_vars ops)) by (apply (bi_ends _ _ (build_inv ops) i i Hi)).
    specialize (H6 i Hv). apply (proj2 (mem_In _ _)) in Hi. rewrite Hi in H6. discriminate.
  - apply nodupb_ok; auto.
Qed.

(** variables reached from [seen] in [n] steps *)
Definition linked (ops : list bop) (i j : Z) : bool := mem i (net_par ops j) || mem j (net_par ops i).
Fixpoint reached (ops : list bop) (n : nat) (seen : list Z) : list Z :=
  match n with
  | O => seen
  | S n => reached ops n (seen ++ filter (fun v => negb (mem v seen) && existsb (fun u => linked ops u v) seen) (net_vars ops))
  end.
Definition connectedb (ops : list bop) : bool :=
  match net_vars ops with
  | [] => true
  | r :: _ => forallb (fun v => mem v (reached ops (List.length (net_vars ops)) [r])) (net_vars ops)
  end.
Lemma path_app {K} (R : K -> K -> Prop) x y z : path R x y -> path R y z -> path R x z.
Proof. induction 1; auto. intros. econstructor; eauto. Qed.
Lemma path_back {K} (R : K -> K -> Prop) x y : path (sym R) x y -> path (sym R) y x.
Proof.
  induction 1. constructor. eapply path_app; eauto. econstructor; [|constructor]. destruct H; [right|left]; auto.
Qed.
Lemma connectedb_ok ops : connectedb ops = true -> connected ops.
Proof.
  unfold connectedb, connected. destruct (net_vars ops) as [|r vs] eqn:EV. intros _ u v []. rewrite <- EV. intros H.
  assert (G : forall n seen, (forall v, In v seen -> In v (net_vars ops) /\ path (sym (is_parent (net_of ops))) r v) ->
     forall v, In v (reached ops n seen) -> In v (net_vars ops) /\ path (sym (is_parent (net_of ops))) r v).
  { induction n as [|n IH]; intros seen Hs v; simpl; auto. apply IH. clear v. intros v Hv. apply in_app_or in Hv. destruct Hv as [Hv|Hv]; auto.
    apply filter_In in Hv. destruct Hv as [Hv Hf]. split; auto. apply andb_true_iff in Hf. destruct Hf as [_ Hf]. apply existsb_exists in Hf. destruct Hf as [u [Hu Hl]].
    destruct (Hs u Hu) as [Vu Pu]. eapply path_app; [exact Pu|]. econstructor; [|constructor]. unfold linked in Hl. apply orb_true_iff in Hl.
    destruct Hl as [Hl|Hl]; apply mem_In in Hl; [left|right]; split; auto. }
  rewrite forallb_forall in H.
  assert (Hr : forall v, In v (net_vars ops) -> path (sym (is_parent (net_of ops))) r v).
  { intros v Hv. apply (G (List.length (net_vars ops)) [r]). intros w [<-|[]]. split; [rewrite EV; left; auto|constructor]. apply mem_In, H; auto. }
  intros u v Hu Hv. eapply path_app; [apply path_back, Hr; auto|apply Hr; auto].
Qed.

Definition eqlb (l l' : list string) : bool := if list_eq_dec string_dec l l' then true else false.
Definition knownb (N : net) (e : evidence) : bool :=
  mem (ev_node e) (vars N) && eqlb (ev_dom e) (dom N (ev_node e)) && nodupb (dkeys (ev_values e)) && subset (dkeys (ev_values e)) (ev_dom e).
Lemma knownb_ok N e : knownb N e = true -> known N e.
Proof.
  unfold knownb, known, eqlb. rewrite !andb_true_iff. intros [[[H1 H2] H3] H4]. repeat split.
  - apply mem_In; auto.
  - destruct (list_eq_dec string_dec (ev_dom e) (dom N (ev_node e))); auto; discriminate.
  - apply nodupb_ok; auto.
  - unfold subset in H4. rewrite forallb_forall in H4. intros x Hx. apply mem_In; auto.
Qed.
Definition hardb (e : evidence) : bool := match ev_type e with VIRTUAL => false | _ => true end.
Definition valid_callb (N : net) (c : call) : bool :=
  match c with
  | Update es => forallb (knownb N) es
  | Unobserve ns => forallb (fun n => mem (n_id n) (vars N) && eqlb (n_values n) (dom N (n_id n))) ns
  | UnobserveAll => true
  | SetObservation e => knownb N e && match first_one e with Some _ => true | None => false end
  end.
Lemma valid_callb_ok N c : valid_callb N c = true -> valid_call N c.
Proof.
  destruct c as [es|ns| |e]; simpl; auto.
  - rewrite forallb_forall, Forall_forall. intros H e He. apply knownb_ok; auto.
  - rewrite forallb_forall, Forall_forall. intros H e He. specialize (H e He). apply andb_true_iff in H. destruct H as [H1 H2]. split. apply mem_In; auto.
    unfold eqlb in H2. destruct (list_eq_dec string_dec _ _); auto; discriminate.
  - rewrite andb_true_iff. intros [H1 H2]. split. apply knownb_ok; auto. destruct (first_one e); congruence.
Qed.
Lemma valid_calls_ok N h : forallb (valid_callb N) h = true -> Forall (valid_call N) h.
Proof. rewrite forallb_forall, Forall_forall. intros H c Hc. apply valid_callb_ok; auto. Qed.
Definition hard_callb (c : call) : bool := match c with Update es => forallb hardb es | SetObservation e => hardb e | _ => true end.
Lemma hardb_ok e : hardb e = true -> hard e.
Proof. unfold hardb, hard. destruct (ev_type e); congruence. Qed.
Lemma hard_calls_ok h : forallb hard_callb h = true -> Forall hard_call h.
Proof.
  rewrite forallb_forall, Forall_forall. intros H c Hc. specialize (H c Hc). destruct c as [es|ns| |e]; simpl in *; auto.
  rewrite forallb_forall in H. apply Forall_forall. intros e He. apply hardb_ok; auto. apply hardb_ok; auto.
Qed.
