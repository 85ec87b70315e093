(** Covariances of sums of independent parts. *)
From Verif Require Import Py M_Gauss SpecGauss SpecCov L_Base L_Sums L_Gauss L_Gauss2 L_P11 L_Cov.
Open Scope Qc_scope.

(** every variable is the sum of independent parts of variance 1, [f s] of part [f] *)
Definition parts (H : list string) (c : string -> string -> Qc) (fs : list (string -> Qc)) : Prop :=
  forall s t, In s H -> In t H -> c s t = qsum (map (fun f => f s * f t) fs).
Definition amount (a : combination) (f : string -> Qc) : Qc := qsum (map (fun p => fst p * f (snd p)) a).
Lemma parts_variance H c fs a : parts H c fs -> incl (map snd a) H -> variance c a = qsum (map (fun f => amount a f * amount a f) fs).
Proof.
  intros HP I. unfold variance, combined_cov.
  transitivity (qsum (map (fun x => qsum (map (fun f => fst x * f (snd x) * amount a f) fs)) a)).
  - apply qsum_map_ext. intros x Hx. unfold amount.
    rewrite (qsum_map_ext (fun f => fst x * f (snd x) * qsum (map (fun p => fst p * f (snd p)) a)) (fun f => qsum (map (fun p => fst x * f (snd x) * (fst p * f (snd p))) a))) by (intros; rewrite qsum_map_mult; reflexivity).
    rewrite qsum_swap. apply qsum_map_ext. intros y Hy. rewrite (HP (snd x) (snd y)) by (apply I, in_map; auto). rewrite <- qsum_map_mult. apply qsum_map_ext. intros f _. ring.
  - rewrite qsum_swap. apply qsum_map_ext. intros f _. rewrite qsum_map_mult_r. reflexivity.
Qed.
Lemma square_pos (k : Qc) : 0 <= k * k.
Proof.
  destruct (Qclt_le_dec k 0) as [Hl|Hl]; [|apply Qcle_0_mult; auto]. replace (k * k) with (- k * - k) by ring. assert (0 <= - k) by (apply Qclt_le_weak in Hl; apply Qcopp_le_compat in Hl; exact Hl). apply Qcle_0_mult; auto.
Qed.
Lemma parts_no_negative H c fs : parts H c fs -> no_negative c H.
Proof. intros HP a I. rewrite (parts_variance H c fs a HP I). apply qsum_nonneg. intros x Hx. apply in_map_iff in Hx. destruct Hx as (f & <- & _). apply square_pos. Qed.
(** each variable has a part of its own *)
Definition own (s : string) : string -> Qc := fun t => if string_dec t s then 1 else 0.
Lemma parts_unfixed H c fs : parts H c fs -> (forall s, In s H -> In (own s) fs) -> unfixed c H.
Proof.
  intros HP HO a I (N & p & P1 & P2) V. rewrite (parts_variance H c fs a HP I) in V. apply P2.
  assert (Z : amount a (own (snd p)) * amount a (own (snd p)) = 0).
  { apply (qsum_zero_nonneg (map (fun f => amount a f * amount a f) fs)); auto. { intros x Hx. apply in_map_iff in Hx. destruct Hx as (f & <- & _). apply square_pos. }
    apply in_map_iff. exists (own (snd p)). split; auto. apply HO, I, in_map; auto. }
  apply Qcmult_integral in Z. assert (Z' : amount a (own (snd p)) = 0) by tauto. rewrite <- Z'. clear - N P1. unfold amount, own. induction a as [|q a IH]; [destruct P1|]. cbn [map] in *. inversion N as [|? ? M1 M2]; subst. rewrite qsum_cons.
  destruct P1 as [ ->|P1].
  - destruct (string_dec (snd p) (snd p)) as [_|]; [|contradiction]. rewrite qsum_map_zero; [ring|]. intros x Hx. destruct (string_dec (snd x) (snd p)) as [E|]; [|ring]. exfalso. apply M1. rewrite <- E. apply in_map; auto.
  - destruct (string_dec (snd q) (snd p)) as [E|]. { exfalso. apply M1. rewrite E. apply in_map; auto. } rewrite <- IH by auto. ring.
Qed.

Definition triple_parts : list (string -> Qc) := [fun _ => 1; own "a"; own "b"; own "c"]%string.
Lemma triple_made m : parts (gi_H (triple m)) (cov_of (triple m)) triple_parts.
Proof. intros s t Hs Ht. simpl in Hs, Ht. destruct Hs as [<-|[<-|[<-|[]]]]; destruct Ht as [<-|[<-|[<-|[]]]]; apply Qc_is_canon; vm_compute; reflexivity. Qed.
Lemma triple_own m s : In s (gi_H (triple m)) -> In (own s) triple_parts.
Proof. intros [<-|[<-|[<-|[]]]]; unfold triple_parts; simpl; auto. Qed.
(** two names for one variable *)
Definition twins : ginf := {| gi_H := ["a"; "b"]%string; gi_M := [0; 0]; gi_n := 2; gi_E := fun _ _ => 1; gi_meta := [] |}.
Lemma twins_wf : gwf twins.
Proof. split; [repeat constructor; simpl; intuition discriminate|]. split; [reflexivity|]. split; [reflexivity|]. split; [intros s _ []|constructor]. Qed.
Lemma twins_symmetric : symmetric twins. Proof. intros s t _ _. reflexivity. Qed.
Lemma twins_made : parts (gi_H twins) (cov_of twins) [fun _ => 1].
Proof. intros s t _ _. unfold cov_of, twins. cbn [gi_E map]. rewrite qsum_cons. change (qsum []) with 0. ring. Qed.
Definition both_twins : combination := [(1, "a"); (- (1), "b")]%string.
Lemma both_twins_nontrivial : nontrivial both_twins.
Proof. split; [repeat constructor; simpl; intuition discriminate|]. exists (1, "a"%string). split; [left; auto|discriminate]. Qed.
Lemma twins_fixed : variance (cov_of twins) both_twins = 0.
Proof. apply Qc_is_canon. vm_compute. reflexivity. Qed.
