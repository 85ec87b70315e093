(** The example of PropDraw: the mean of the Dirichlet distribution for every row. *)
From Verif Require Import Py M_Graph M_Node M_Nx M_Gen M_GenAlpha Spec SpecNet SpecNx SpecDraw L_Base.
Open Scope nat_scope.

Definition num (a : Z) : Qc := Q2Qc (inject_Z a).
Definition mean_rvs (i : Z) (k : nat) (al : list Z) : list Qc := map (fun a => 1 / qsum (map num al) * num a)%Qc al.
Lemma num_pos a : (1 <= a)%Z -> (0 < num a)%Qc.
Proof. intros H. unfold num, Qclt. change (Qred 0 < Qred (inject_Z a))%Q. rewrite !Qred_correct. unfold Qlt, inject_Z. simpl. lia. Qed.
Lemma num_sum_pos al : al <> [] -> Forall (fun a => 1 <= a)%Z al -> (0 < qsum (map num al))%Qc.
Proof.
  intros Hn F. destruct al as [|a al]; [congruence|]. inversion F as [|? ? H1 H2]; subst. cbn [map]. rewrite qsum_cons. assert (P : (0 <= qsum (map num al))%Qc).
  { apply qsum_nonneg. intros x Hx. apply in_map_iff in Hx. destruct Hx as (b & <- & Hb). rewrite Forall_forall in H2. apply Qclt_le_weak, num_pos; auto. }
  apply Qclt_le_trans with (num a); [apply num_pos; auto|]. replace (num a) with (num a + 0)%Qc at 1 by ring. apply Qcplus_le_compat; [apply Qcle_refl|exact P].
Qed.
Lemma mean_ok A i k al : 2 <= List.length al -> Forall (fun a => 1 <= a <= A)%Z al -> prob_vector (List.length al) (mean_rvs i k al).
Proof.
  intros H F. assert (F' : Forall (fun a => 1 <= a)%Z al) by (eapply Forall_impl; [|exact F]; intros a [Ha _]; exact Ha).
  assert (P : (0 < qsum (map num al))%Qc) by (apply num_sum_pos; [destruct al; [simpl in H; lia|discriminate]|auto]). assert (Nz : qsum (map num al) <> 0%Qc) by (intros Q; rewrite Q in P; discriminate P).
  split; [apply map_length|]. split.
  - apply Forall_forall. intros q Hq. apply in_map_iff in Hq. destruct Hq as (a & <- & Ha). rewrite Forall_forall in F'. apply Qcle_0_mult; [|apply Qclt_le_weak, num_pos; auto].
    apply qdiv_nonneg; [discriminate|apply Qclt_le_weak; auto].
  - unfold mean_rvs. rewrite qsum_map_mult. field. auto.
Qed.
Definition ex_alphas : list Z := [3; 1; 2; 10; 4; 4; 1; 1; 5; 7; 7; 2; 9; 1; 6; 8; 8; 1; 1; 2; 3; 3; 2; 5; 5; 4; 2; 10; 1; 1; 3; 6; 5]%Z.
Definition rows_drawn : option (list (nat * nat) * nat) :=
  match generate_multi_bbn_a mean_rvs 3 1 3 10 [0; 2]%Z [2; 0; 1] ex_alphas with
  | Ok (_, p, rest) => Some (map (fun x => gp_shape (snd x)) p, List.length rest)
  | Err _ => None
  end.
