(** A network object with a displaced node. *)
From Verif Require Import Py M_Graph M_Node M_Pptc Spec SpecNet SpecEv SpecRe SpecAgain SpecMute L_Base L_Check Ex L_R1 L_R14 L_Mute4.
Open Scope nat_scope.

Definition presentb (b : bbn) (j : jtree) : bool :=
  forallb (fun p => match n_mclq (snd p) with Some k => mem k (map cl_id (jt_cliques j)) | None => true end) (g_nodes (b_g b)).
Lemma presentb_ok b j : presentb b j = true -> present b j.
Proof. unfold presentb. rewrite forallb_forall. intros H i n k Hi Hk. specialize (H _ Hi). simpl in H. rewrite Hk in H. apply mem_In; auto. Qed.
Lemma obtained_changed cs : forall b, obtained b -> Forall plain_change cs -> obtained (changed b cs).
Proof. induction cs as [|c cs IH]; intros b Hb H; simpl; auto. inversion H; subst. apply IH; auto. constructor; auto. Qed.

Definition whole_caseb (ops : list bop) (cs : list change) (ops' : list bop) (is : list Z) (ds : list bool) : bool :=
  match apply ord_id (build ops), apply ord_id (build ops') with
  | Ok (b, _), Ok (_, jf) => presentb (changed b cs) jf && forallb (fun p => Bool.eqb (displaced ops' (changed b cs) jf (fst p)) (snd p)) (combine is ds)
  | _, _ => false
  end.
Lemma shared_self b o b' j : apply o b = Ok (b', j) -> shared b' j = b'.
Proof.
  unfold apply. intros A. destruct (pot_init b); cbn [rbind] in A; [|discriminate]. destruct (moralize _); cbn [rbind] in A; [|discriminate]. destruct (triangulate _ _); cbn [rbind] in A; [|discriminate].
  destruct (transform _ _ _); cbn [rbind] in A; [|discriminate]. destruct (initialize _); cbn [rbind] in A; [|discriminate]. destruct (propagate _ _); cbn [rbind] in A; [|discriminate]. inversion A; subst. reflexivity.
Qed.
Lemma whole_case ops cs ops' is ds : well_shaped ops -> Forall plain_change cs -> cleared (changed (build ops) cs) = cleared (build ops') -> whole_caseb ops cs ops' is ds = true -> 
  (forall b j, apply ord_id (build ops) = Ok (b, j) -> cleared (changed b cs) = cleared (changed (build ops) cs)) ->
  exists b bf jf, obtained b /\ cleared b = cleared (build ops') /\ apply ord_id (build ops') = Ok (bf, jf) /\ present b jf /\ forall i d, In (i, d) (combine is ds) -> displaced ops' b jf i = d.
Proof.
  intros HW Hp E H Hc. unfold whole_caseb in H. destruct (apply ord_id (build ops)) as [[b j]|] eqn:A; [|discriminate]. destruct (apply ord_id (build ops')) as [[bf jf]|] eqn:A'; [|discriminate].
  apply andb_true_iff in H. destruct H as [H1 H2]. exists (changed b cs), bf, jf. split.
  { apply obtained_changed; auto. rewrite <- (shared_self (build ops) ord_id b j A). apply (ob_apply (build ops) ops ord_id [] b j j None); auto. constructor; auto. apply ord_id_ok. }
  split; [rewrite (Hc b j eq_refl); exact E|]. split; [reflexivity|]. split; [apply presentb_ok; auto|]. intros i d Hi. rewrite forallb_forall in H2. specialize (H2 _ Hi). simpl in H2. apply Bool.eqb_prop; auto.
Qed.

Lemma new_cause_case : exists b bf jf, obtained b /\ cleared b = cleared (build longer) /\ apply ord_id (build longer) = Ok (bf, jf) /\ present b jf /\
  displaced longer b jf 3 = true /\ displaced longer b jf 1 = false /\ displaced longer b jf 4 = false.
Proof.
  destruct (whole_case short new_cause longer [3; 1; 4]%Z [true; false; false]) as (b & bf & jf & H1 & H2 & H3 & H4 & H5).
  - apply well_shapedb_ok. vm_compute. reflexivity.
  - repeat constructor.
  - exact longer_meant.
  - vm_compute. reflexivity.
  - intros b j A. eapply L_Again3.c42_changed; [|apply ord_id_ok|exact A]. apply well_shapedb_ok. vm_compute. reflexivity.
  - exists b, bf, jf. repeat (split; [assumption|]). split; [|split]; apply H5; simpl; auto.
Qed.
