(** Cases and witnesses: reapply. *)
From Verif Require Import Py M_Graph M_Node M_Pptc Spec SpecNet SpecEv SpecRe L_Base L_Check Ex L_R1.
Open Scope nat_scope.

Definition new_cpts : list (Z * list Qc) :=
  [(10%Z, [qfrac 3 5; qfrac 2 5]); (77%Z, []); (1%Z, [qfrac 1 10; qfrac 9 10; 1%Qc; 0%Qc])].

Definition fittingb (N : net) (cpts : list (Z * list Qc)) : bool :=
  nodupb (dkeys cpts) &&
  forallb (fun p => negb (mem (fst p) (vars N)) ||
                    (size (dom N) (par N (fst p) ++ [fst p]) <=? List.length (snd p)) && forallb (qleb 0%Qc) (snd p)) cpts.
Lemma fittingb_ok N cpts : fittingb N cpts = true -> fitting N cpts.
Proof.
  unfold fittingb. intros E. apply andb_true_iff in E. destruct E as [E1 E2]. rewrite forallb_forall in E2. split; [apply nodupb_ok; auto|].
  intros i c Hc Hi. specialize (E2 (i, c) Hc). simpl in E2. apply mem_In in Hi. rewrite Hi in E2. simpl in E2. apply andb_true_iff in E2. destruct E2 as [A B].
  split; [apply Nat.leb_le; auto|]. apply Forall_forall. intros q Hq. rewrite forallb_forall in B. apply qleb_ok; auto.
Qed.
Lemma new_cpts_fit : fitting (net_of diamond) new_cpts.
Proof. apply fittingb_ok. vm_compute. reflexivity. Qed.
Lemma valid_replaced N c h : valid_history N h -> valid_history (replaced N c) h.
Proof. exact (fun H => H). Qed.
Lemma hard_history_ok2 : valid_history (replaced (net_of diamond) new_cpts) hard_history.
Proof. apply valid_replaced, hard_history_ok. Qed.

(** the posteriors shown are the exact ones of the network (compared entry by entry) *)
Definition table_isb (N : net) (nm : Z -> string) (L : likelihood) (j : jtree) : bool :=
  match get_posteriors j with
  | Ok t => forallb (fun i => match dget t (nm i) with
                              | Some m => eqlb (map fst m) (dom N i) && forallb (fun p => qeqb (snd p) (exact_posterior N L i (fst p))) m
                              | None => false
                              end) (vars N)
  | Err _ => false
  end.
