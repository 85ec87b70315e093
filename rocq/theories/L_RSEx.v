(** Sums that are rounded below 1. *)
From Verif Require Import Py M_Graph M_Node M_Pptc M_Str M_Round M_Sampling M_RoundSamp Spec SpecNet SpecSamp SpecRound SpecStored L_Base L_Check L_SampEx L_RS3 L_RS4.
Open Scope nat_scope.
Local Open Scope string_scope.
Local Open Scope list_scope.

Definition tenth : Qc := digits 53 (qfrac 1 10).
Definition ten_sided : bnode := new_node 1 "die" ["0"; "1"; "2"; "3"; "4"; "5"; "6"; "7"; "8"; "9"] (repeat tenth 10).
Definition die : list bop := [AddNode ten_sided].
Definition last_number : Qc := Q2Qc ((2 ^ 53 - 1) # (2 ^ 53)).

Lemma sort_one (srt : sorter) x lt : sorter_ok srt -> srt lt [x] = [x].
Proof. intros (_ & H & _). rewrite H; [reflexivity|simpl; lia]. Qed.
Lemma die_tables : exists t t', get_tables (build die) = Ok [(1%Z, t)] /\ get_tables_r (digits 53) (build die) = Ok [(1%Z, t')] /\
  get_value t last_number [] = Ok "9" /\ get_value t' last_number [] = Err IndexError.
Proof.
  eexists. eexists. split; [vm_compute; reflexivity|]. split; [vm_compute; reflexivity|]. split; vm_compute; reflexivity.
Qed.
Theorem c109_refuted : exists ops u, well_shaped ops /\ net_vars ops = [1%Z] /\ stored_net (digits 53) 10 (build ops) /\ (1 <= qsum (net_cpt ops 1))%Qc /\ bits53 u /\
  forall srt, sorter_ok srt -> exists s s', logic_sampler srt (build ops) = Ok s /\ logic_sampler_r (digits 53) srt (build ops) = Ok s' /\
    (exists d, get_samples s [] 1 [[u]] = Ok [d]) /\ get_samples s' [] 1 [[u]] = Err IndexError.
Proof.
  exists die, last_number. split; [apply well_shapedb_ok; vm_compute; reflexivity|]. split; [reflexivity|]. split.
  { intros n Hn. assert (n = ten_sided) as ->. { vm_compute in Hn. destruct Hn as [<-|[]]. reflexivity. }
    split; [|simpl; lia]. apply Forall_forall. intros q Hq. apply repeat_spec in Hq. subst q. exists (qfrac 1 10). split; [discriminate|reflexivity]. }
  split; [vm_compute; discriminate|]. split; [exists (2 ^ 53 - 1)%Z; split; [lia|reflexivity]|].
  intros srt Hs. destruct die_tables as (t & t' & T1 & T2 & V1 & V2). unfold logic_sampler, logic_sampler_r. rewrite T1, T2. cbn [rbind].
  assert (E : topological_sort srt (build die) = [1%Z]). { unfold topological_sort. change (get_nodes (b_g (build die))) with [ten_sided]. cbn [map]. rewrite sort_one; auto. }
  rewrite E. eexists. eexists. split; [reflexivity|]. split; [reflexivity|]. split.
  - exists [(1%Z, "9")]. unfold get_samples. cbn [samples_loop sample_once combine sp_tables sp_nodes]. unfold sample_once. cbn [combine sp_nodes sp_tables sample_walk]. unfold dgetE. cbn [dget]. simpl eqb. cbv iota. cbn [rbind]. rewrite V1. reflexivity.
  - unfold get_samples. cbn [samples_loop]. unfold sample_once. cbn [combine sp_nodes sp_tables sample_walk]. unfold dgetE. cbn [dget]. simpl eqb. cbv iota. cbn [rbind]. rewrite V2. reflexivity.
Qed.

(** a root and a child; 0.1 + 0.2 is more than 0.3 *)
Definition f64 (n : Z) (d : positive) : Qc := digits 53 (qfrac n d).
Definition r_a : bnode := new_node 1 "a" ["x"; "y"; "z"] [f64 1 10; f64 2 10; f64 7 10].
Definition r_b : bnode := new_node 2 "b" ["p"; "q"; "r"] [f64 1 10; f64 2 10; f64 7 10; f64 1 3; f64 1 3; f64 1 3; f64 0 1; f64 1 10; f64 9 10].
Definition uneven : list bop := [AddNode r_a; AddNode r_b; AddEdge r_a r_b].
(** between the exact sum and the rounded one *)
Definition narrow : Qc := ((f64 1 10 + f64 2 10 + digits 53 (f64 1 10 + f64 2 10)) / (1 + 1))%Qc.
Definition storedb (p : Z) (q : Qc) : bool := qleb 0 q && qeqb (digits p q) q.
Lemma storedb_ok p q : storedb p q = true -> stored (digits p) q.
Proof. unfold storedb. intros H. apply andb_true_iff in H. destruct H as [H1 H2]. apply qeqb_true in H2. exists q. split; [apply qleb_le; auto|auto]. Qed.
Definition stored_netb (p : Z) (k : nat) (b : bbn) : bool := forallb (fun n => forallb (storedb p) (n_probs n) && Nat.leb (List.length (n_probs n)) k) (get_nodes (b_g b)).
Lemma stored_netb_ok p k b : stored_netb p k b = true -> stored_net (digits p) k b.
Proof.
  unfold stored_netb, stored_net. intros H n Hn. rewrite forallb_forall in H. apply H in Hn. apply andb_true_iff in Hn. destruct Hn as [H1 H2]. split; [|apply Nat.leb_le; auto]. apply Forall_forall. intros q Hq. rewrite forallb_forall in H1. apply storedb_ok. auto.
Qed.
Definition drawn (r : res sampler) (draws : list (list Qc)) : list sample := match r with Ok s => match get_samples s [] (List.length draws) draws with Ok l => l | Err _ => [] end | Err _ => [] end.
