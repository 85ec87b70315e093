(** Checkers used by the examples on potentials. *)
From Verif Require Import Py M_Graph M_Node M_Pptc Spec SpecNet SpecEv SpecPot Ex L_Base L_PD L_Sums L_Table L_P4.
Open Scope nat_scope.

Lemma rank_acyclic {K} (R : K -> K -> Prop) (r : K -> nat) : (forall x y, R x y -> r x < r y) -> acyclic R.
Proof.
  intros H x y H1 H2. assert (G : forall a b, path R a b -> r a <= r b). { intros a b. induction 1; auto. specialize (H _ _ H0). lia. }
  apply G in H2. apply H in H1. lia.
Qed.
Definition rankedb (N : net) (r : Z -> nat) : bool := forallb (fun v => forallb (fun p => Nat.ltb (r p) (r v)) (par N v)) (vars N).
Lemma rankedb_ok N r : rankedb N r = true -> acyclic (is_parent N).
Proof.
  intros H. apply rank_acyclic with r. intros x y [Hy Hx]. unfold rankedb in H. rewrite forallb_forall in H. specialize (H y Hy).
  rewrite forallb_forall in H. specialize (H x Hx). apply Nat.ltb_lt in H. auto.
Qed.
Definition stochasticb (N : net) : bool :=
  forallb (fun v => forallb (fun ws => qeqb (qsum (map (fun x => cpt_entry N v (upd (asg_of (par N v) ws) v x)) (dom N v))) 1%Qc)
                            (cartesian (map (dom N) (par N v)))) (vars N).
Lemma stochasticb_ok N : stochasticb N = true -> stochastic N.
Proof.
  intros H v a Hv Ha. unfold stochasticb in H. rewrite forallb_forall in H. specialize (H v Hv). rewrite forallb_forall in H.
  specialize (H _ (map_okon _ _ _ Ha)). apply qeqb_true in H. etransitivity; [|exact H]. apply qsum_map_ext. intros x _. apply cpt_dep. intros u Hu.
  unfold upd. destruct (Z.eqb_spec u v) as [->|Hn]; auto. apply in_app_or in Hu. destruct Hu as [Hu|[Hu|[]]]; [symmetry; apply (asg_of_in (dom N)); auto|congruence].
Qed.
Definition diamond_rank (i : Z) : nat := if Z.eqb i 10 then 0 else if Z.eqb i 30 then 2 else 1.
