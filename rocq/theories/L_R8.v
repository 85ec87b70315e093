(** Cases and witnesses: serialisation. *)
From Verif Require Import Py M_Graph M_Node M_Pptc M_Serde Spec SpecNet SpecEv SpecRe SpecSer L_Base L_Check Ex L_R1 L_R7.
Open Scope nat_scope.

Definition mixed_acts : list act :=
  [Do (Evidence ord_id (Update [e_c_on; e_b_xz])); Reload ord_rev ord_id true; Do (Evidence ord_rev (SetObservation e_d_t));
   Do (Reapply ord_id new_cpts); Reload ord_id ord_rev false; Do (Evidence ord_id (Update [e_d_t; e_b_xz]))].

Definition acts_state (ops : list bop) (l : list act) := fold_left after_act l (start ops).

(** a variable the tree of [apply] shows and the restored tree does not *)
Definition losesb (o : Ord) (ops : list bop) (name : string) : bool :=
  match apply o (build ops) with
  | Ok (b, j) => match get_posteriors j, reload o o true b j with
                 | Ok t, Ok j' => match get_posteriors j' with Ok t' => mem name (map fst t) && negb (mem name (map fst t')) | Err _ => false end
                 | _, _ => false
                 end
  | Err _ => false
  end.
Lemma losesb_ok o ops name : losesb o ops name = true ->
  exists b j t j' t', apply o (build ops) = Ok (b, j) /\ get_posteriors j = Ok t /\ reload o o true b j = Ok j' /\ get_posteriors j' = Ok t' /\
    In name (map fst t) /\ ~ In name (map fst t').
Proof.
  unfold losesb. destruct (apply o (build ops)) as [[b j]|]; [|discriminate]. destruct (get_posteriors j) as [t|] eqn:E1; [|discriminate].
  destruct (reload o o true b j) as [j'|] eqn:E2; [|discriminate]. destruct (get_posteriors j') as [t'|] eqn:E3; [|discriminate]. intros H. apply andb_true_iff in H. destruct H as [H1 H2].
  exists b, j, t, j', t'. repeat split; auto. apply mem_In; auto. intros Hi. apply mem_In in Hi. rewrite Hi in H2. discriminate.
Qed.

(** a chain of three and a variable on its own *)
Definition islands : list bop := [AddEdge n_1 n_2; AddEdge n_2 n_3; AddNode n_4].
Lemma islands_ok : well_shaped islands.
Proof. apply well_shapedb_ok. vm_compute. reflexivity. Qed.

Lemma c19_refuted : exists ops, well_shaped ops /\
  exists b j t j' t' name, apply ord_id (build ops) = Ok (b, j) /\ get_posteriors j = Ok t /\
    reload ord_id ord_id true b j = Ok j' /\ get_posteriors j' = Ok t' /\ In name (map fst t) /\ ~ In name (map fst t').
Proof.
  exists islands. split; [exact islands_ok|].
  destruct (losesb_ok ord_id islands "v4"%string) as [b [j [t [j' [t' H]]]]]. { vm_compute. reflexivity. }
  exists b, j, t, j', t', "v4"%string. exact H.
Qed.

Lemma rev_ok : ord_ok ord_rev. Proof. exact ord_rev_ok. Qed.
Lemma mixed_ok : acts_ok (start diamond) mixed_acts.
Proof.
  pose proof ord_id_ok as I. pose proof ord_rev_ok as V. pose proof new_cpts_fit as F. pose proof hard_history_ok as [_ HH].
  simpl. split; [split; [exact I|]|split; [split; auto|split; [split; [exact V|]|split; [split; [exact I|exact F]|split; [split; auto|split; [split; [exact I|]|exact Logic.I]]]]]].
  - inversion HH as [|? ? H1 H2]; subst. exact H1.
  - inversion HH as [|? ? H1 H2]; subst. inversion H2; subst. assumption.
  - inversion HH as [|? ? H1 H2]; subst. inversion H2 as [|? ? K1 K2]; subst. inversion K2 as [|? ? L1 L2]; subst. inversion L2 as [|? ? M1 M2]; subst. inversion M2 as [|? ? P1 P2]; subst. exact P1.
Qed.
