(** EvidenceBuilder *)
From Verif Require Import Py M_Node M_Pptc M_Evb SpecEvb L_Base.
Open Scope nat_scope.

Lemma latest_app {A} (f : ebcall -> option A) cs c : latest f (cs ++ [c]) = match f c with Some a => Some a | None => latest f cs end.
Proof. unfold latest. rewrite flat_map_app, rev_app_distr. simpl. destruct (f c); reflexivity. Qed.
Lemma first_ones_In l v : In v (first_ones l) <-> In v l.
Proof.
  induction l as [|w l IH]; simpl; [tauto|]. rewrite filter_In, IH. destruct (String.eqb_spec v w) as [->|H]; simpl; [tauto|]. split; [tauto|]. intros [->|Q]; [congruence|tauto].
Qed.
Lemma first_ones_app l v : first_ones (l ++ [v]) = if mem v l then first_ones l else first_ones l ++ [v].
Proof.
  induction l as [|w l IH]; simpl; [reflexivity|]. rewrite IH. change (eqb v w) with (String.eqb v w).
  destruct (String.eqb_spec v w) as [->|H]; simpl.
  - destruct (mem w l); [reflexivity|]. rewrite filter_app. simpl. rewrite String.eqb_refl. simpl. rewrite app_nil_r. reflexivity.
  - fold (mem v l). destruct (mem v l); [reflexivity|]. rewrite filter_app. simpl. destruct (String.eqb_spec v w); [congruence|reflexivity].
Qed.

(** the state of the builder after calls *)
Definition says (cs : list ebcall) (b : ebuilder) : Prop :=
  eb_node b = latest node_said cs /\ eb_type b = match latest type_said cs with Some t => t | None => OBSERVATION end /\
  dkeys (eb_values b) = first_ones (named cs) /\ forall v, dget (eb_values b) v = latest (likelihood_said v) cs.
Lemma first_ones_NoDup l : NoDup (first_ones l).
Proof. induction l as [|w l IH]; simpl; constructor. rewrite filter_In, String.eqb_refl. intros [_ Q]; discriminate. apply NoDup_filter, IH. Qed.
Lemma says_step cs b out c : says cs b -> says (cs ++ [c]) (fst (eb_step (b, out) c)).
Proof.
  intros (H1 & H2 & H3 & H4). unfold says, named. rewrite !latest_app, flat_map_app.
  assert (L : forall v, latest (likelihood_said v) (cs ++ [c]) = match likelihood_said v c with Some a => Some a | None => latest (likelihood_said v) cs end) by (intros; apply latest_app).
  destruct c as [n|t|v q|]; cbn [eb_step fst with_node with_type with_evidence eb_node eb_type eb_values node_said type_said flat_map]; rewrite ?app_nil_r.
  - split; auto. split; auto. split; auto. intros w. rewrite L. apply H4.
  - split; auto. split; auto. split; auto. intros w. rewrite L. apply H4.
  - split; auto. split; auto. simpl app. rewrite first_ones_app. fold (named cs). split.
    + destruct (mem_spec v (named cs)) as [Hv|Hv].
      * rewrite dkeys_dset_in; auto. rewrite H3. apply first_ones_In, Hv.
      * rewrite dkeys_dset_notin; [unfold dkeys in *; rewrite map_app, H3; reflexivity|]. rewrite H3, first_ones_In. exact Hv.
    + intros w. rewrite L. cbn [likelihood_said]. rewrite dget_dset. change (eqb w v) with (String.eqb w v). rewrite (String.eqb_sym w v). destruct (String.eqb v w); [reflexivity|apply H4].
  - split; auto. split; auto. split; auto. intros w. rewrite L. apply H4.
Qed.
Lemma fold_add_value l : forall e, NoDup (dkeys (ev_values e) ++ map fst l) ->
  fold_left (fun e p => add_value e (fst p) (snd p)) l e = mkEv (ev_node e) (ev_dom e) (ev_type e) (ev_values e ++ l).
Proof.
  induction l as [|[v q] l IH]; intros e H; cbn [fold_left fst snd map] in *; [rewrite app_nil_r; destruct e; reflexivity|].
  assert (Hv : ~ In v (dkeys (ev_values e))). { apply NoDup_remove_2 in H. rewrite in_app_iff in H. tauto. }
  assert (E : dset (ev_values e) v q = ev_values e ++ [(v, q)]).
  { apply dkeys_dset_notin. exact Hv. }
  rewrite IH; unfold add_value; cbn [ev_node ev_dom ev_type ev_values].
  - rewrite E, <- app_assoc. reflexivity.
  - rewrite E. unfold dkeys in *. rewrite map_app, <- app_assoc. exact H.
Qed.
Lemma says_build cs b : says cs b -> describes cs (eb_build b).
Proof.
  intros (H1 & H2 & H3 & H4). unfold describes, eb_build. rewrite <- H1. destruct (eb_node b) as [n|]; [|exact I].
  rewrite fold_add_value; [|cbn [ev_values dkeys map app]; change (map fst (eb_values b)) with (dkeys (eb_values b)); rewrite H3; apply first_ones_NoDup].
  cbn [ev_node ev_dom ev_type ev_values app]. split; auto.
Qed.
Lemma run_says cs : forall cs0 st, says cs0 (fst st) ->
  exists out, snd (fold_left eb_step cs st) = snd st ++ out /\ (forall k, match before_build k cs with Some cs' => exists e, nth_error out k = Some e /\ describes (cs0 ++ cs') e | None => nth_error out k = None end).
Proof.
  induction cs as [|c cs IH]; intros cs0 [b out0] Hs; cbn [fold_left].
  - exists []. split; [rewrite app_nil_r; reflexivity|]. intros k. destruct k; reflexivity.
  - destruct (IH (cs0 ++ [c]) (eb_step (b, out0) c)) as (out & O1 & O2); [apply (says_step cs0 b out0 c Hs)|].
    assert (Cons : forall k, match option_map (cons c) (before_build k cs) with Some cs' => exists e, nth_error out k = Some e /\ describes (cs0 ++ cs') e | None => nth_error out k = None end).
    { intros k. specialize (O2 k). destruct (before_build k cs) as [cs'|]; cbn [option_map]; [|exact O2]. rewrite <- app_assoc in O2. exact O2. }
    destruct c as [n|t|v q|]; cbn [eb_step fst snd] in O1.
    1-3: exists out; split; [exact O1|exact Cons].
    exists (eb_build b :: out). split; [etransitivity; [exact O1|]; rewrite <- app_assoc; reflexivity|]. intros [|k]; cbn [before_build nth_error].
    + exists (eb_build b). split; [reflexivity|]. rewrite app_nil_r. apply says_build, Hs.
    + apply Cons.
Qed.
Lemma c69_builder : forall cs k,
  match before_build k cs with
  | Some said => exists e, nth_error (eb_run cs) k = Some e /\ describes said e
  | None => nth_error (eb_run cs) k = None
  end.
Proof.
  intros cs k. destruct (run_says cs [] (eb_new, [])) as (out & O1 & O2).
  - split; [reflexivity|]. split; [reflexivity|]. split; [reflexivity|]. intros v. reflexivity.
  - unfold eb_run. rewrite O1. exact (O2 k).
Qed.
Lemma describes_unique cs e e' : describes cs e -> describes cs e' -> e = e'.
Proof.
  unfold describes. destruct (latest node_said cs) as [n|], e as [[a b c d]|], e' as [[a' b' c' d']|]; try tauto. cbn [ev_node ev_dom ev_type ev_values].
  intros (A & B & C & D & E) (A' & B' & C' & D' & E'). f_equal. f_equal; try congruence.
  assert (Hk : dkeys d = dkeys d') by congruence. assert (Hn : NoDup (dkeys d)) by (rewrite D; apply first_ones_NoDup). assert (Hg : forall v, dget d v = dget d' v) by congruence.
  clear - Hk Hn Hg. unfold dkeys in *. revert d' Hk Hg. induction d as [|[k x] d IH]; intros [|[k' x'] d'] Hk Hg; try discriminate; [reflexivity|]. simpl in Hk, Hn. injection Hk as <- Hk. inversion Hn as [|? ? N1 N2]; subst.
  assert (Q := Hg k). simpl in Q. change (eqb k k) with (String.eqb k k) in Q. rewrite String.eqb_refl in Q. injection Q as <-. f_equal. apply IH; auto.
  intros v. specialize (Hg v). simpl in Hg. change (eqb v k) with (String.eqb v k) in Hg. destruct (String.eqb_spec v k) as [Q|Hv]; [rewrite Q|exact Hg].
  transitivity (@None Qc); [apply dget_None; exact N1|symmetry; apply dget_None; unfold dkeys; rewrite <- Hk; exact N1].
Qed.
Lemma c69_chain : forall n t l, eb_run (WithNode n :: WithType t :: map (fun p => WithEvidence (fst p) (snd p)) l ++ [BuildIt]) = [Some (build_evidence n t l)].
Proof.
  intros n t l. unfold eb_run. cbn [fold_left eb_step fst snd]. rewrite fold_left_app. 
  assert (Q : forall b, fold_left eb_step (map (fun p => WithEvidence (fst p) (snd p)) l) (b, []) = (mkEb (eb_node b) (eb_type b) (fold_left (fun d p => dset d (fst p) (snd p)) l (eb_values b)), [])).
  { induction l as [|[v q] l IH]; intros b; cbn [map fold_left eb_step fst snd]; [destruct b; reflexivity|]. rewrite IH. reflexivity. }
  rewrite Q. cbn [fold_left eb_step fst snd app with_type with_node eb_node eb_type eb_values eb_new]. unfold eb_build, build_evidence. cbn [eb_node eb_type eb_values].
  rewrite fold_add_value; [reflexivity|]. cbn [ev_values dkeys map app].
  assert (N : forall l d, NoDup (map fst d) -> NoDup (map fst (fold_left (fun d p => dset d (fst p) (snd p)) l d : list (string * Qc)))).
  { clear. induction l as [|p l IH]; intros d H; cbn [fold_left]; [exact H|]. apply IH. change (NoDup (dkeys (dset d (fst p) (snd p)))). destruct (mem_spec (fst p) (dkeys d)) as [Hv|Hv].
    - rewrite dkeys_dset_in; auto. - rewrite dkeys_dset_notin by auto. unfold dkeys. rewrite map_app. simpl map. apply (Permutation_NoDup (Permutation_cons_append (map fst d) (fst p))). constructor; auto. }
  apply N. constructor.
Qed.
