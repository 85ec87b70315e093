(** Witnesses and checkers for the generator. *)
From Verif Require Import Py M_Graph M_Node M_Pptc M_Nx M_Gen Spec SpecNet SpecEv SpecPot SpecNx Ex L_Base L_Sums L_Check L_Nx L_Gen L_Gen2.
Open Scope nat_scope.

(** evenly distributed vectors *)
Definition even_dir (i : Z) (k m : nat) : list Qc := repeat (qfrac 1 (Pos.of_nat m)) m.
Lemma qfrac_sum m : m <> 0 -> qsum (repeat (qfrac 1 (Pos.of_nat m)) m) = 1%Qc.
Proof.
  intros Hm. assert (G : forall q k, qsum (repeat q k) = (Q2Qc (inject_Z (Z.of_nat k)) * q)%Qc).
  { intros q k. induction k as [|k IH]. { change (0 = 0 * q)%Qc. ring. }
    cbn [repeat]. rewrite qsum_cons, IH.
    replace (Q2Qc (inject_Z (Z.of_nat (S k)))) with (1 + Q2Qc (inject_Z (Z.of_nat k)))%Qc; [ring|].
    apply Qc_is_canon. rewrite Nat2Z.inj_succ. unfold Z.succ, Qcplus, Q2Qc. cbn [this]. rewrite !Qred_correct. rewrite inject_Z_plus. unfold inject_Z. ring. }
  rewrite G. apply Qc_is_canon. unfold qfrac, Qcmult, Q2Qc. cbn [this]. rewrite !Qred_correct. unfold Qeq, Qmult, inject_Z. cbn [Qnum Qden]. lia.
Qed.
Lemma even_ok i k m : 2 <= m -> prob_vector m (even_dir i k m).
Proof.
  intros H. split; [apply repeat_length|]. split.
  - apply Forall_forall. intros q Hq. apply repeat_spec in Hq. subst. unfold qfrac, Qcle, Q2Qc. cbn [this]. rewrite !Qred_correct. unfold Qle; cbn [Qnum Qden]; lia.
  - apply qfrac_sum. lia.
Qed.

(** edges of an outcome *)
Definition edges_of (r : res digraph) : list (Z * Z) := match r with Ok g => dg_edges g | Err _ => [] end.
Definition belowb (n : nat) (l : list Z) : bool := forallb (fun i => (0 <=? i)%Z && (i <? Z.of_nat n)%Z) l.
Lemma belowb_ok n l : belowb n l = true -> Forall (below_n n) l.
Proof. unfold belowb. rewrite forallb_forall, Forall_forall. intros H i Hi. specialize (H i Hi). apply andb_true_iff in H as [H1 H2]. apply Z.leb_le in H1. apply Z.ltb_lt in H2. split; auto. Qed.

(** C49: 0->1->2 with the edge 0->2 added last *)
Lemma c49_refuted : exists dir n max_iter max_values ints draws g p ops i x,
  n <> 0 /\ max_values <> 0 /\ Forall (below_n n) ints /\ (forall i k m, 2 <= m -> prob_vector m (dir i k m)) /\
  generate_multi_bbn dir n max_iter max_values ints draws = Ok (g, p) /\ convert_calls g p = Ok ops /\
  dget p i = Some x /\ gp_parents x = [1; 0]%Z /\ net_par ops i = [0; 1]%Z.
Proof.
  assert (E : exists g p ops x, generate_multi_bbn even_dir 3 1 2 [0; 2]%Z [1; 1; 1] = Ok (g, p) /\ convert_calls g p = Ok ops /\
     dget p 2%Z = Some x /\ gp_parents x = [1; 0]%Z /\ net_par ops 2%Z = [0; 1]%Z).
  { eexists _, _, _, _. split; [vm_compute; reflexivity|]. split; [vm_compute; reflexivity|]. split; [vm_compute; reflexivity|]. split; vm_compute; reflexivity. }
  destruct E as (g & p & ops & x & E). exists even_dir, 3, 1, 2, [0; 2]%Z, [1; 1; 1], g, p, ops, 2%Z, x. split; [lia|]. split; [lia|].
  split; [apply belowb_ok; vm_compute; reflexivity|]. split; [apply even_ok|]. exact E.
Qed.
