(** Checks for the examples of PropRow. *)
From Verif Require Import Py M_Node M_Pptc Spec SpecNet SpecEv SpecSep SpecRow L_Base L_PD L_Apply L_Check Ex L_Samp L_SepEx L_Row.
Local Open Scope string_scope.
Local Open Scope list_scope.

Definition rowb (N : net) (L : likelihood) (y : Z) (a : asg) : bool :=
  negb (qeqb (total N L) 0%Qc) && mem y (vars N) && freeb N L y && forallb (fun d => freeb N L d || negb (existsb (fun c => below N c d) (kids N y))) (vars N) &&
  forallb (fun p => mem (a p) (dom N p) && forallb (fun v => String.eqb v (a p) || qeqb (L p v) 0%Qc) (dom N p)) (par N y).
Lemma rowb_ok N L y a : rowb N L y a = true -> possible N L /\ In y (vars N) /\ free N L y /\ (forall d, effect_of N y d -> free N L d) /\ causes_known N L y a.
Proof.
  unfold rowb. rewrite !andb_true_iff, !forallb_forall. intros ((((H1 & H2) & H3) & H4) & H5). split; [intros E; rewrite E in H1; discriminate|]. split; [apply mem_In; auto|].
  split; [apply freeb_ok; auto|]. split.
  - intros d (c & P1 & P2). assert (Hd : In d (vars N)). { destruct (path_last _ _ _ P2) as [<-|(z & _ & Q)]; [apply P1|apply Q]. }
    specialize (H4 d Hd). apply orb_true_iff in H4. destruct H4 as [H4|H4]; [apply freeb_ok; auto|]. apply negb_true_iff in H4.
    assert (X : existsb (fun c => below N c d) (kids N y) = true); [|congruence]. apply existsb_exists. exists c. split; [apply kids_In; auto|apply below_ok; auto; apply P1].
  - intros p Hp. specialize (H5 p Hp). apply andb_true_iff in H5. destruct H5 as [A B]. rewrite forallb_forall in B. split; [apply mem_In; auto|]. intros v Hv Hn.
    specialize (B v Hv). apply orb_true_iff in B. destruct B as [B|B]; [apply String.eqb_eq in B; contradiction|]. apply qeqb_true; auto.
Qed.
Fixpoint firstb (N : net) (before l : list Z) : bool := match l with [] => true | i :: l => subset (par N i) before && firstb N (before ++ [i]) l end.
Lemma firstb_ok N l : forall before, firstb N before l = true -> forall l1 i l2, l = l1 ++ i :: l2 -> incl (par N i) (before ++ l1).
Proof.
  induction l as [|x l IH]; intros before H l1 i l2 E; [destruct l1; discriminate|]. simpl in H. apply andb_true_iff in H. destruct H as [A B]. destruct l1 as [|z l1]; simpl in E; injection E as -> E.
  - rewrite app_nil_r. apply subset_spec; auto.
  - replace (before ++ z :: l1)%list with ((before ++ [z]) ++ l1)%list by (rewrite <- app_assoc; reflexivity). eapply IH; eauto.
Qed.
Lemma causes_firstb_ok N l : firstb N [] l = true -> causes_first N l.
Proof. intros H l1 i l2 E. apply (firstb_ok N l [] H l1 i l2 E). Qed.

(** [a] is on, [c] is off; what is said of [c] twice taken back in between *)
Definition world (pairs : list (Z * string)) : asg := fun i => match dget pairs i with Some v => v | None => "" end.
Definition e_c (v : string) := build_evidence n_c OBSERVATION [(v, 1%Qc)].
Definition seen_ac : history := seen_a ++ [(ord_rev, Update [e_c "on"]); (ord_id, SetObservation (e_c "off"))].
Definition one_world : asg := world [(10%Z, "off"); (2%Z, "z"); (1%Z, "off"); (30%Z, "f")].
