(** What the generator draws. Nothing but theorems and examples. *)
From Verif Require Import Py M_Graph M_Node M_Nx M_Gen M_GenAlpha M_Pptc Spec SpecNet SpecNx SpecDraw L_Base L_Draw2 L_DrawEx.
Open Scope nat_scope.

(** C108. Whatever is drawn, the generator never asks for something that is refused; the network is valid; and every number drawn
    is used once, in order: the rows of the tables take one hyperparameter per value, node after node. *)
Theorem C108_multi : forall rvs n max_iter max_values A ints draws alphas, n <> 0 -> max_values <> 0 -> draws_ok rvs A n ints alphas ->
  match generate_multi_bbn_a rvs n max_iter max_values A ints draws alphas with
  | Ok (g, p, rest) => (exists ops, convert_for_exact_inference g p = Ok (build ops) /\ valid_net n (dg_edges g) ops) /\
      exists T : list (Z * list (list Z)), map fst T = dg_nodes g /\ alphas = List.concat (flat_map snd T) ++ rest /\ forall i bl, In (i, bl) T -> exists x, dget p i = Some x /\ drawn_with rvs A i x bl
  | Err x => x = OutOfFuel
  end.
Proof. exact c108_multi. Qed.
Print Assumptions C108_multi.

Theorem C108_singly : forall rvs n max_iter max_values A ints units draws alphas, n <> 0 -> max_values <> 0 -> draws_ok rvs A n ints alphas ->
  match generate_singly_bbn_a rvs n max_iter max_values A ints units draws alphas with
  | Ok (g, p, rest) => (exists ops, convert_for_exact_inference g p = Ok (build ops) /\ valid_net n (dg_edges g) ops) /\
      exists T : list (Z * list (list Z)), map fst T = dg_nodes g /\ alphas = List.concat (flat_map snd T) ++ rest /\ forall i bl, In (i, bl) T -> exists x, dget p i = Some x /\ drawn_with rvs A i x bl
  | Err x => x = OutOfFuel
  end.
Proof. exact c108_singly. Qed.
Print Assumptions C108_singly.

(** Without a positive greatest hyperparameter nothing is generated. *)
Theorem C108_refused : forall rvs n max_iter max_values A ints draws alphas, n <> 0 -> max_values <> 0 -> (A < 1)%Z -> Forall (below_n n) ints -> n <= List.length draws ->
  match generate_multi_bbn_a rvs n max_iter max_values A ints draws alphas with Ok _ => False | Err x => x = ValueError \/ x = OutOfFuel /\ multi_structure n max_iter ints = Err OutOfFuel end.
Proof. exact c108_refused. Qed.
Print Assumptions C108_refused.

(** Every variable has from 2 to max_values values, or 2 if max_values is less. *)
Theorem C108_values : forall n max_values draws nv, Forall (fun d => d < max_values) draws -> num_values n max_values draws = Ok nv ->
  List.length nv = n /\ Forall (fun k => 2 <= k <= Nat.max 2 max_values) nv.
Proof. exact c108_values. Qed.
Print Assumptions C108_values.

(** The numbers of values are not drawn uniformly, as the documentation says: *)
Theorem C108_uniform_refuted : exists mv f, 2 <= mv /\ (forall d, num_values 1 mv [d] = Ok [f d]) /\ exists k k', 2 <= k <= mv /\ 2 <= k' <= mv /\ ways f mv k <> ways f mv k'.
Proof. exact c108_uniform_refuted. Qed.
Print Assumptions C108_uniform_refuted.

(** two values come up twice as often as any other number of values. *)
Theorem C108_ways : forall mv f, 2 <= mv -> (forall d, num_values 1 mv [d] = Ok [f d]) -> ways f mv 2 = 2 /\ forall k, 3 <= k <= mv -> ways f mv k = 1.
Proof. exact c108_ways. Qed.
Print Assumptions C108_ways.

(** three nodes; 0 has three values and is a parent of 1, both are parents of 2 *)
Example C108_case : draws_ok mean_rvs 10 3 [0; 2]%Z ex_alphas /\ rows_drawn = Some ([(1, 3); (3, 2); (6, 2)], 12) /\
  (match generate_multi_bbn_a mean_rvs 3 1 3 0 [0; 2]%Z [2; 0; 1] ex_alphas with Err ValueError => true | _ => false end) = true.
Proof.
  split. { split; [lia|]. split; [intros i k al; apply mean_ok|]. split; [repeat (apply Forall_cons; [unfold below_n; lia|]); constructor|]. unfold ex_alphas. repeat (apply Forall_cons; [lia|]). constructor. }
  split; vm_compute; reflexivity.
Qed.
