(** Witnesses: changing a network between two calls of apply. *)
From Verif Require Import Py M_Graph M_Node M_Pptc Spec SpecNet SpecEv SpecRe SpecAgain L_Base L_Evid L_Check L_P1 Ex L_R1 L_R7 L_Again3.
Open Scope nat_scope.

Local Notation onoff := (["on"%string; "off"%string]).
Definition w_3 := new_node 3 "v3" onoff [qfrac 1 5; qfrac 4 5].
Definition w_1 := new_node 1 "v1" onoff [qfrac 9 10; qfrac 1 10; qfrac 1 4; qfrac 3 4].
Definition w_4 := new_node 4 "v4" onoff [qfrac 1 3; qfrac 2 3].
(** a new cause of v3 and the CPT that goes with it *)
Definition w_cpt : list Qc := [qfrac 1 2; qfrac 1 2; qfrac 1 10; qfrac 9 10].
Definition short : list bop := [AddEdge w_3 w_1].
Definition new_cause : list change := [Add (AddEdge w_4 w_3); Assign [(3%Z, w_cpt)]].
(** the network meant *)
Definition longer : list bop := [AddEdge (new_node 3 "v3" onoff w_cpt) w_1; AddEdge w_4 (new_node 3 "v3" onoff w_cpt)].

(** v1 -> v2 -> v3, then an edge v1 -> v3 *)
Definition chain3 : list bop := [AddEdge n_1 n_2; AddEdge n_2 n_3].
Definition c_3 : list Qc := [qfrac 1 2; qfrac 1 2; qfrac 1 3; qfrac 2 3; qfrac 1 4; qfrac 3 4; qfrac 1 5; qfrac 4 5].
Definition shortcut : list change := [Add (AddEdge n_1 n_3); Assign [(3%Z, c_3)]].
Definition triangle : list bop := let n := new_node 3 "v3" onoff c_3 in [AddEdge n_1 n_2; AddEdge n_2 n; AddEdge n_1 n].

Definition again (ops : list bop) (cs : list change) : res jtree :=
  bj <- apply ord_id (build ops) ;; bj <- apply ord_id (changed (fst bj) cs) ;; Ok (snd bj).

Definition wrongb (ops : list bop) (cs : list change) (ops' : list bop) (i : Z) (y : string) : bool :=
  match apply ord_id (build ops) with
  | Ok (b, _) => match apply ord_id (changed b cs) with
                 | Ok (_, j) => match get_posteriors j with
                                | Ok t => match dget t (net_name ops' i) with
                                          | Some m => match dget m y with Some q => negb (qeqb q (exact_posterior (net_of ops') no_evidence i y)) | None => false end
                                          | None => false end
                                | Err _ => false end
                 | Err _ => false end
  | Err _ => false end.
Lemma wrongb_ok ops cs ops' i y : wrongb ops cs ops' i y = true ->
  exists b j b' j' t m q, apply ord_id (build ops) = Ok (b, j) /\ apply ord_id (changed b cs) = Ok (b', j') /\ get_posteriors j' = Ok t /\
    dget t (net_name ops' i) = Some m /\ dget m y = Some q /\ q <> exact_posterior (net_of ops') no_evidence i y.
Proof.
  unfold wrongb. destruct (apply ord_id (build ops)) as [[b j]|] eqn:E0; [|discriminate]. destruct (apply ord_id (changed b cs)) as [[b' j']|] eqn:E1; [|discriminate]. destruct (get_posteriors j') as [t|] eqn:E2; [|discriminate].
  destruct (dget t _) as [m|] eqn:E3; [|discriminate]. destruct (dget m y) as [q|] eqn:E4; [|discriminate]. intros H. exists b, j, b', j', t, m, q.
  repeat (split; [assumption||reflexivity|]). apply qneqb. destruct (qeqb q _); [discriminate|reflexivity].
Qed.
(** equality of networks with a decision by parts *)
Definition same_nodeb (n m : bnode) : bool :=
  Z.eqb (n_id n) (n_id m) && String.eqb (n_name n) (n_name m) && eqlb (n_values n) (n_values m) && (if list_eq_dec Qc_eq_dec (n_probs n) (n_probs m) then true else false).
Lemma same_nodeb_ok n m : same_nodeb n m = true -> clear n = clear m.
Proof.
  unfold same_nodeb, eqlb. rewrite !andb_true_iff. intros [[[H1 H2] H3] H4]. apply Z.eqb_eq in H1. apply String.eqb_eq in H2.
  destruct (list_eq_dec string_dec _ _); [|discriminate]. destruct (list_eq_dec Qc_eq_dec _ _); [|discriminate]. unfold clear. congruence.
Qed.
Lemma longer_meant : cleared (changed (build short) new_cause) = cleared (build longer).
Proof. vm_compute. reflexivity. Qed.
Lemma triangle_meant : cleared (changed (build chain3) shortcut) = cleared (build triangle).
Proof. vm_compute. reflexivity. Qed.

Theorem c42_refuted : exists ops o cs ops' b j b' j' t i y m q, well_shaped ops /\ connected ops /\ well_shaped ops' /\ connected ops' /\ ord_ok o /\
  cleared (changed (build ops) cs) = cleared (build ops') /\
  apply o (build ops) = Ok (b, j) /\ apply o (changed b cs) = Ok (b', j') /\ get_posteriors j' = Ok t /\
  In i (net_vars ops') /\ In y (net_dom ops' i) /\ dget t (net_name ops' i) = Some m /\ dget m y = Some q /\ q <> exact_posterior (net_of ops') no_evidence i y.
Proof.
  destruct (wrongb_ok short new_cause longer 3%Z "on"%string) as (b & j & b' & j' & t & m & q & H1 & H2 & H3 & H4); [vm_compute; reflexivity|].
  exists short, ord_id, new_cause, longer, b, j, b', j', t, 3%Z, "on"%string, m, q.
  split; [apply well_shapedb_ok; vm_compute; reflexivity|]. split; [apply connectedb_ok; vm_compute; reflexivity|]. split; [apply well_shapedb_ok; vm_compute; reflexivity|]. split; [apply connectedb_ok; vm_compute; reflexivity|].
  split; [apply ord_id_ok|]. split; [exact longer_meant|]. split; [exact H1|]. split; [exact H2|]. split; [exact H3|]. split; [left; reflexivity|]. split; [left; reflexivity|]. exact H4.
Qed.

(** stored cliques of the network object after the changes *)
Definition stored_cliques (ops : list bop) (cs : list change) : res (list (Z * option string)) :=
  bj <- apply ord_id (build ops) ;; Ok (map (fun p => (fst p, n_mclq (snd p))) (g_nodes (b_g (changed (fst bj) cs)))).
Definition clique_ids (ops : list bop) : res (list string) := bj <- apply ord_id (build ops) ;; Ok (map cl_id (jt_cliques (snd bj))).

(** a change that leaves the stored cliques good: a new effect of v1 *)
Definition w_5 := new_node 5 "v5" onoff [qfrac 1 2; qfrac 1 2; qfrac 1 10; qfrac 9 10].
Definition new_effect : list change := [Add (AddEdge w_1 w_5)].
Definition fits_b (ops : list bop) (b : bbn) (j : jtree) : bool :=
  forallb (fun p => match n_mclq (snd p) with
                    | Some k => existsb (fun c => String.eqb (cl_id c) k && subset (net_par ops (fst p) ++ [fst p]) (cl_nodes c)) (jt_cliques j)
                    | None => true end) (g_nodes (b_g b)).
Lemma fits_b_ok ops b j : fits_b ops b j = true -> fits ops b j.
Proof.
  unfold fits_b. rewrite forallb_forall. intros H i n k Hn Ek. specialize (H (i, n) Hn). cbn [fst snd] in H. rewrite Ek in H. apply existsb_exists in H. destruct H as [c [H1 H2]].
  apply andb_true_iff in H2. destruct H2 as [H2 H3]. apply String.eqb_eq in H2. apply subset_spec in H3. exists c. auto.
Qed.
Definition fitsb_after (ops : list bop) (cs : list change) (ops' : list bop) : bool :=
  match apply ord_id (build ops) with
  | Ok (b, _) => match apply ord_id (build ops') with Ok (_, jf) => fits_b ops' (changed b cs) jf | Err _ => false end
  | Err _ => false end.
Lemma fitsb_after_ok ops cs ops' : fitsb_after ops cs ops' = true ->
  exists b j bf jf, apply ord_id (build ops) = Ok (b, j) /\ apply ord_id (build ops') = Ok (bf, jf) /\ fits ops' (changed b cs) jf.
Proof.
  unfold fitsb_after. destruct (apply ord_id (build ops)) as [[b j]|]; [|discriminate]. destruct (apply ord_id (build ops')) as [[bf jf]|]; [|discriminate]. intros H. exists b, j, bf, jf.
  split; [reflexivity|]. split; [reflexivity|]. apply fits_b_ok; exact H.
Qed.
Lemma fits_case : exists b j bf jf, apply ord_id (build short) = Ok (b, j) /\ apply ord_id (build (short ++ [AddEdge w_1 w_5])) = Ok (bf, jf) /\ fits (short ++ [AddEdge w_1 w_5]) (changed b new_effect) jf.
Proof. apply fitsb_after_ok. vm_compute. reflexivity. Qed.

(** a run of turns on the diamond *)
Definition diamond_turns : list deed := map (fun p => Evidence (fst p) (snd p)) hard_history ++ [Reapply ord_rev new_cpts; Evidence ord_id (Update [e_d_t]); Reapply ord_id []].
Definition turns_isb (o : Ord) (ops : list bop) (ds : list deed) : bool :=
  let s := fold_left after ds (start ops) in match turns o ops ds with Ok (_, j) => table_isb (fst s) (net_name ops) (snd (snd s)) j | Err _ => false end.
