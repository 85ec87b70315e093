(** Witness: an edge added to a network after a join tree was made from it. *)
From Verif Require Import Py M_Graph M_Node M_Pptc Spec SpecNet SpecEv SpecRe SpecAgain SpecMany L_Base L_Evid L_Check L_P1 Ex L_R1 L_R7 L_Again3 L_Many3 L_R14.
Open Scope nat_scope.

(** apply, add to the network, reapply the tree; the number then reported *)
Definition late (ops new : list bop) (cpts : list (Z * list Qc)) : res jtree :=
  bj <- apply ord_id (build ops) ;; reapply ord_id (aliased (fold_left bstep new (shared (fst bj) (snd bj))) (snd bj)) cpts.
Definition late_number (ops new : list bop) (cpts : list (Z * list Qc)) (name value : string) : option Qc :=
  match late ops new cpts with
  | Ok j => match get_posteriors j with Ok t => match dget t name with Some m => dget m value | None => None end | Err _ => None end
  | Err _ => None
  end.
Definition laterb (ops new : list bop) (cpts : list (Z * list Qc)) (name value : string) (q q' : Qc) : bool :=
  match late_number ops new cpts name value with Some x => negb (qeqb x q) && negb (qeqb x q') | None => false end.
Lemma laterb_ok ops new cpts name value q q' : laterb ops new cpts name value q q' = true ->
  exists b j j1 t m x, apply ord_id (build ops) = Ok (b, j) /\ reapply ord_id (aliased (fold_left bstep new (shared b j)) j) cpts = Ok j1 /\ get_posteriors j1 = Ok t /\
    dget t name = Some m /\ dget m value = Some x /\ x <> q /\ x <> q'.
Proof.
  unfold laterb, late_number, late. destruct (apply ord_id (build ops)) as [[b j]|] eqn:E0; cbn [rbind fst snd]; [|discriminate].
  destruct (reapply ord_id _ cpts) as [j1|] eqn:E1; [|discriminate]. destruct (get_posteriors j1) as [t|] eqn:E2; [|discriminate].
  destruct (dget t name) as [m|] eqn:E3; [|discriminate]. destruct (dget m value) as [x|] eqn:E4; [|discriminate].
  rewrite andb_true_iff. intros [H1 H2]. exists b, j, j1, t, m, x. do 5 (split; [first [assumption|reflexivity]|]).
  split; apply qneqb; [destruct (qeqb x q)|destruct (qeqb x q')]; auto; discriminate.
Qed.

Definition late_edge : list bop := [AddEdge n_1 n_3].

Theorem c60_refuted : exists ops new cpts ops' b j j1 t i y m q, well_shaped ops /\ connected ops /\ fitting (net_of ops) cpts /\ well_shaped ops' /\
  cleared (changed (build ops) (map Add new ++ [Assign cpts])) = cleared (build ops') /\
  apply ord_id (build ops) = Ok (b, j) /\ reapply ord_id (aliased (fold_left bstep new (shared b j)) j) cpts = Ok j1 /\ get_posteriors j1 = Ok t /\
  In i (net_vars ops) /\ In y (net_dom ops i) /\ dget t (net_name ops i) = Some m /\ dget m y = Some q /\
  q <> exact_posterior (replaced (net_of ops) cpts) no_evidence i y /\ q <> exact_posterior (net_of ops') no_evidence i y.
Proof.
  destruct (laterb_ok chain3 late_edge [(3%Z, c_3)] "v3" "on" (exact_posterior (replaced (net_of chain3) [(3%Z, c_3)]) no_evidence 3%Z "on") (exact_posterior (net_of triangle) no_evidence 3%Z "on"))
    as (b & j & j1 & t & m & x & H1 & H2 & H3 & H4 & H5 & H6 & H7); [vm_compute; reflexivity|].
  exists chain3, late_edge, [(3%Z, c_3)], triangle, b, j, j1, t, 3%Z, "on"%string, m, x.
  split; [apply well_shapedb_ok; vm_compute; reflexivity|]. split; [apply connectedb_ok; vm_compute; reflexivity|]. split; [apply fittingb_ok; vm_compute; reflexivity|].
  split; [apply well_shapedb_ok; vm_compute; reflexivity|]. split; [exact triangle_meant|]. split; [exact H1|]. split; [exact H2|]. split; [exact H3|].
  split; [vm_compute; auto|]. split; [left; reflexivity|]. split; [exact H4|]. split; [exact H5|]. split; [exact H6|exact H7].
Qed.

(** ** a run with four trees of the diamond: all the tables against the definition of the posterior *)
Definition diamond_moves : list move :=
  [Another ord_rev; Tell 0 ord_id (Update [e_d_t]); Another ord_id; Probs new_cpts; Copy 0 ord_rev [(10%Z, [qfrac 1 7; qfrac 6 7])]; Tell 1 ord_rev (Update [e_d_t]);
   Another ord_rev; Tell 0 ord_id UnobserveAll; Tell 2 ord_id (Update [e_d_t])].
Definition all_isb (ops : list bop) (ms : list move) : bool :=
  match moves ops ms with
  | Ok w => let s := sc_trees (fold_left ensue ms (opening ops)) in
            Nat.eqb (List.length s) (List.length (w_trees w)) &&
            forallb (fun p => table_isb (fst (snd (fst p))) (net_name ops) (snd (snd (snd (fst p)))) (seen w (snd p))) (combine s (w_trees w))
  | Err _ => false
  end.
Definition report_is (ops : list bop) (ms : list move) (k : nat) (name value : string) (q : Qc) : bool := reportb ops ms k name value q true.
Definition late_isb (ops new : list bop) (cpts : list (Z * list Qc)) : bool :=
  match late ops new cpts with Ok j => table_isb (replaced (net_of ops) cpts) (net_name ops) no_evidence j | Err _ => false end.
