(** Checks for the examples of PropCause. *)
From Verif Require Import Py M_Graph M_Node M_Pptc M_Ace Spec SpecNet SpecEv SpecPot SpecAce SpecRow SpecCause L_Base L_Sums L_Table L_Apply L_Net L_P9 L_Check L_R1 L_R4 L_Cause2.
Local Open Scope Qc_scope.

Definition combinableb (N : net) (x : Z) (xv : string) : bool :=
  forallb (fun ws => negb (qeqb (marginal N no_evidence (x :: par N x) (upd (asg_of (par N x) ws) x xv)) 0)) (cartesian (map (dom N) (par N x))).
Lemma combinableb_ok N x xv : combinableb N x xv = true -> combinable N x xv.
Proof.
  intros H a Ha _ E. unfold combinableb in H. rewrite forallb_forall in H. specialize (H _ (map_okon _ _ _ Ha)). apply negb_true_iff, qeqb_false in H. apply H. rewrite <- E.
  unfold marginal. apply sums_ext. intros b.
  assert (Es : same_on (x :: par N x) b (upd (asg_of (par N x) (map a (par N x))) x xv) = same_on (x :: par N x) b (upd a x xv)); [|rewrite Es; reflexivity].
  unfold same_on. assert (G : forall l, incl l (x :: par N x) -> forallb (fun v => String.eqb (b v) (upd (asg_of (par N x) (map a (par N x))) x xv v)) l = forallb (fun v => String.eqb (b v) (upd a x xv v)) l); [|apply G, incl_refl].
  induction l as [|v l IH]; intros I; auto. cbn [forallb]. rewrite IH by (intros w Hw; apply I; right; auto). f_equal. f_equal. assert (Hv : In v (x :: par N x)) by (apply I; left; auto). unfold upd. destruct (Z.eqb_spec v x); auto. apply (asg_of_in (dom N)). destruct Hv; [congruence|auto].
Qed.
(** the numbers for the values [vs] of [y], for [x] = [xv] *)
Definition ace_numbers (ops : list bop) (x y : Z) (xv : string) (vs : list string) : list (option Q) := map (fun yv => option_map (fun q => this q) (ace_number ord_id ops x y xv yv)) vs.
