(** The same joint distribution from a network with other ids, another direction of an edge and another order of values. *)
From Verif Require Import Py M_Graph M_Node M_Pptc Spec SpecNet SpecEv SpecIso L_Base L_Table L_Exact L_Apply L_Net L_Check Ex L_R1 L_Iso.
Local Open Scope string_scope.

Fixpoint takeb {A} (eqd : A -> A -> bool) (x : A) (l : list A) : option (list A) :=
  match l with
  | [] => None
  | y :: t => if eqd x y then Some t else match takeb eqd x t with Some r => Some (y :: r) | None => None end
  end.
Fixpoint permb {A} (eqd : A -> A -> bool) (l l' : list A) : bool :=
  match l with
  | [] => match l' with [] => true | _ => false end
  | x :: t => match takeb eqd x l' with Some r => permb eqd t r | None => false end
  end.
Lemma takeb_ok {A} (eqd : A -> A -> bool) (He : forall x y, eqd x y = true -> x = y) x l r : takeb eqd x l = Some r -> Permutation l (x :: r).
Proof.
  revert r. induction l as [|y l IH]; intros r E; simpl in E; [discriminate|]. destruct (eqd x y) eqn:Ee.
  - inversion E; subst. rewrite (He _ _ Ee). auto.
  - destruct (takeb eqd x l) as [r'|] eqn:Et; [|discriminate]. inversion E; subst. rewrite (IH r' eq_refl). apply perm_swap.
Qed.
Lemma permb_ok {A} (eqd : A -> A -> bool) (He : forall x y, eqd x y = true -> x = y) l : forall l', permb eqd l l' = true -> Permutation l l'.
Proof.
  induction l as [|x l IH]; intros l' E; simpl in E.
  - destruct l'; [auto|discriminate].
  - destruct (takeb eqd x l') as [r|] eqn:Et; [|discriminate]. rewrite (takeb_ok eqd He _ _ _ Et). apply perm_skip, IH, E.
Qed.

Definition same_jointb (f : Z -> Z) (N N' : net) : bool :=
  forallb (fun i => forallb (fun k => negb (Z.eqb (f i) (f k)) || Z.eqb i k) (vars N)) (vars N) &&
  permb Z.eqb (map f (vars N)) (vars N') &&
  forallb (fun i => permb String.eqb (dom N' (f i)) (dom N i)) (vars N) &&
  forallb (fun vs => let a := asg_of (vars N') vs in qeqb (weight N' no_evidence a) (weight N no_evidence (fun v => a (f v))))
    (cartesian (map (dom N') (vars N'))).

Lemma same_jointb_ok f N N' : nshape N -> nshape N' -> same_jointb f N N' = true -> same_joint f N N'.
Proof.
  intros HN HN' H. unfold same_jointb in H. apply andb_true_iff in H. destruct H as [H H4]. apply andb_true_iff in H. destruct H as [H H3]. apply andb_true_iff in H. destruct H as [H1 H2].
  rewrite forallb_forall in H1, H3, H4.
  assert (Pv : Permutation (map f (vars N)) (vars N')) by (apply (permb_ok Z.eqb); auto; intros x y E; apply Z.eqb_eq; auto).
  constructor; auto.
  - intros i k Hi Hk E. specialize (H1 i Hi). rewrite forallb_forall in H1. specialize (H1 k Hk). rewrite E, Z.eqb_refl in H1. simpl in H1. apply Z.eqb_eq; auto.
  - intros i Hi. apply (permb_ok String.eqb); auto. intros x y E; apply String.eqb_eq; auto.
  - intros a Ha.
    assert (Hin : In (map a (vars N')) (cartesian (map (dom N') (vars N')))) by (apply map_okon; auto).
    specialize (H4 _ Hin). cbv zeta in H4. apply qeqb_true in H4.
    assert (D' : dep (vars N') (weight N' no_evidence)) by (apply weight_dep; intros i Hi p Hp; apply (ns_ends _ HN' p i Hp)).
    assert (D : dep (vars N) (weight N no_evidence)) by (apply weight_dep; intros i Hi p Hp; apply (ns_ends _ HN p i Hp)).
    etransitivity; [|etransitivity; [exact H4|]].
    + apply D'. intros u Hu. symmetry. apply (asg_of_in (dom N')); auto.
    + apply D. intros u Hu. apply (asg_of_in (dom N')). apply (Permutation_in _ Pv), in_map, Hu.
Qed.

Definition chain3 : list bop := [AddEdge n_1 n_2; AddEdge n_2 n_3].
Definition w_2 := new_node 20 "v2" ["on"; "off"] [qfrac 9 50; qfrac 41 50].
Definition w_1 := new_node 30 "v1" ["off"; "on"] [qfrac 4 9; qfrac 5 9; qfrac 36 41; qfrac 5 41].
Definition w_3 := new_node 10 "v3" ["on"; "off"] [qfrac 1 3; qfrac 2 3; qfrac 3 4; qfrac 1 4].
(** v1 and v3 with the parent v2 *)
Definition fork3 : list bop := [AddEdge w_2 w_3; AddEdge w_2 w_1].
Definition to_fork (i : Z) : Z := if Z.eqb i 1 then 30%Z else if Z.eqb i 2 then 20%Z else 10%Z.
Lemma chain3_ok : well_shaped chain3. Proof. apply well_shapedb_ok. vm_compute. reflexivity. Qed.
Lemma fork3_ok : well_shaped fork3. Proof. apply well_shapedb_ok. vm_compute. reflexivity. Qed.
Lemma chain3_connected : connected chain3. Proof. apply connectedb_ok. vm_compute. reflexivity. Qed.
Lemma fork3_connected : connected fork3. Proof. apply connectedb_ok. vm_compute. reflexivity. Qed.
Lemma chain3_fork3 : same_joint to_fork (net_of chain3) (net_of fork3).
Proof. apply same_jointb_ok; [apply net_shape, chain3_ok|apply net_shape, fork3_ok|]. vm_compute. reflexivity. Qed.

Definition chain3_calls : history := [(ord_id, Update [build_evidence n_3 OBSERVATION [("off", 1%Qc)]]); (ord_rev, SetObservation (build_evidence n_1 OBSERVATION [("on", 1%Qc)]));
  (ord_id, Unobserve [n_1]); (ord_id, Update [build_evidence n_2 VIRTUAL [("on", qfrac 1 3); ("off", 1%Qc)]])].
Definition fork3_calls : history := [(ord_rev, Update [build_evidence w_3 OBSERVATION [("off", 1%Qc)]]); (ord_id, SetObservation (build_evidence w_1 OBSERVATION [("on", 1%Qc)]));
  (ord_id, Unobserve [w_1]); (ord_rev, Update [build_evidence w_2 VIRTUAL [("on", qfrac 1 3); ("off", 1%Qc)]])].
Lemma chain3_valid : valid_history (net_of chain3) chain3_calls.
Proof. split; [orders|]. apply valid_calls_ok. vm_compute. reflexivity. Qed.
Lemma fork3_valid : valid_history (net_of fork3) fork3_calls.
Proof. split; [orders|]. apply valid_calls_ok. vm_compute. reflexivity. Qed.
Lemma fork3_same : Forall2 (same_call to_fork) (calls chain3_calls) (calls fork3_calls).
Proof.
  assert (G : forall e e', ev_node e' = to_fork (ev_node e) -> (forall v, like_of e' v = like_of e v) -> first_one e' = first_one e -> same_evidence to_fork e e') by (unfold same_evidence; auto).
  constructor; [|constructor; [|constructor; [|constructor; [|constructor]]]]; simpl.
  - constructor; [|constructor]. apply G; reflexivity.
  - apply G; reflexivity.
  - reflexivity.
  - constructor; [|constructor]. apply G; reflexivity.
Qed.
