(** Texts that are alike though what they stand for is not. *)
From Coq Require Import Ascii.
From Verif Require Import Py M_Graph M_Node M_Pptc M_Str Spec SpecNet SpecEv SpecStr L_Base L_Check Ex.
Local Open Scope string_scope.

Definition row_one : pentry := mkPE [(0%Z, "a,1=b")] (qfrac 1 2).
Definition row_two : pentry := mkPE [(0%Z, "a"); (1%Z, "b")] (qfrac 1 2).
Lemma c78_refuted : exists e e', NoDup (map fst (pe_map e)) /\ NoDup (map fst (pe_map e')) /\ ~ Permutation (pe_map e) (pe_map e') /\ entry_str e = entry_str e'.
Proof.
  exists row_one, row_two. repeat split; try (apply nodupb_ok; vm_compute; reflexivity).
  - intros P. apply Permutation_length in P. discriminate.
Qed.

(** [c] is a parent of ["a,b"], [a] and [b]; [a] is a parent of [b] *)
Definition comma_net : list bop :=
  let c := new_node 0 "c" ["t"; "f"] [qfrac 1 2; qfrac 1 2] in
  let x := new_node 1 "a,b" ["t"; "f"] [qfrac 1 2; qfrac 1 2; qfrac 1 4; qfrac 3 4] in
  let a := new_node 2 "a" ["t"; "f"] [qfrac 1 3; qfrac 2 3; qfrac 1 4; qfrac 3 4] in
  let b := new_node 3 "b" ["t"; "f"] [qfrac 1 2; qfrac 1 2; qfrac 1 4; qfrac 3 4; qfrac 1 2; qfrac 1 2; qfrac 1 5; qfrac 4 5] in
  [AddNode c; AddNode x; AddNode a; AddNode b; AddEdge c x; AddEdge c a; AddEdge a b; AddEdge c b].
Definition twins (j : jtree) : bool :=
  existsb (fun c => existsb (fun d => negb (String.eqb (cl_id c) (cl_id d)) && String.eqb (clique_str (jt_heap j) c) (clique_str (jt_heap j) d)) (jt_cliques j)) (jt_cliques j).
Lemma twins_ok ops o : well_shapedb ops = true -> ord_ok o -> match session o ops [] with Ok j => twins j | Err _ => false end = true ->
  exists j c d, well_shaped ops /\ session o ops [] = Ok j /\ In c (jt_cliques j) /\ In d (jt_cliques j) /\ c <> d /\ clique_str (jt_heap j) c = clique_str (jt_heap j) d.
Proof.
  intros HW Ho H. destruct (session o ops []) as [j|]; [|discriminate]. unfold twins in H. apply existsb_exists in H. destruct H as [c [Hc H]]. apply existsb_exists in H. destruct H as [d [Hd H]].
  apply andb_true_iff in H. destruct H as [H1 H2]. exists j, c, d. split; [apply well_shapedb_ok; auto|]. repeat split; auto.
  - intros ->. rewrite String.eqb_refl in H1. discriminate.
  - apply String.eqb_eq. auto.
Qed.
Lemma c79_refuted : exists ops o j c d, well_shaped ops /\ ord_ok o /\ session o ops [] = Ok j /\ In c (jt_cliques j) /\ In d (jt_cliques j) /\ c <> d /\
  clique_str (jt_heap j) c = clique_str (jt_heap j) d.
Proof.
  exists comma_net, ord_id. destruct (twins_ok comma_net ord_id) as [j [c [d [H1 H2]]]]; [vm_compute; reflexivity|apply ord_id_ok|vm_compute; reflexivity|].
  exists j, c, d. split; [exact H1|]. split; [apply ord_id_ok|exact H2].
Qed.

(** checkers *)
Definition plain_valueb (v : string) : bool := forallb (fun c => negb (Ascii.eqb c ",") && negb (Ascii.eqb c "|") && negb (Ascii.eqb c line_feed)) (list_ascii_of_string v).
Lemma plain_valueb_ok v : plain_valueb v = true -> plain_value v.
Proof.
  intros H c Hc. unfold plain_valueb in H. rewrite forallb_forall in H. specialize (H c Hc). rewrite !andb_true_iff, !negb_true_iff in H. destruct H as [[H1 H2] H3].
  apply Ascii.eqb_neq in H1. apply Ascii.eqb_neq in H2. apply Ascii.eqb_neq in H3. auto.
Qed.
Lemma plain_valuesb_ok l : forallb plain_valueb l = true -> Forall plain_value l.
Proof. intros H. apply Forall_forall. intros v Hv. rewrite forallb_forall in H. apply plain_valueb_ok. auto. Qed.
Definition lacksb (c : ascii) (s : string) : bool := forallb (fun x => negb (Ascii.eqb x c)) (list_ascii_of_string s).
Lemma lacksb_ok c s : lacksb c s = true -> lacks c s.
Proof. intros H K. unfold lacksb in H. rewrite forallb_forall in H. specialize (H c K). rewrite Ascii.eqb_refl in H. discriminate. Qed.
Definition all_lackb (c : ascii) (ops : list bop) : bool := forallb (fun i => lacksb c (net_name ops i)) (vars (net_of ops)).
Lemma all_lackb_ok c ops : all_lackb c ops = true -> forall i, In i (vars (net_of ops)) -> lacks c (net_name ops i).
Proof. intros H i Hi. unfold all_lackb in H. rewrite forallb_forall in H. apply lacksb_ok. auto. Qed.
Definition reads_as (s : string) (rows : list (list (Z * string) * Qc)) : bool :=
  match read_table s with
  | Some l => Nat.eqb (List.length l) (List.length rows) &&
      forallb (fun p => Nat.eqb (List.length (fst (fst p))) (List.length (fst (snd p))) &&
        forallb (fun q => Z.eqb (fst (fst q)) (fst (snd q)) && String.eqb (snd (fst q)) (snd (snd q))) (combine (fst (fst p)) (fst (snd p))) && qeqb (snd (fst p)) (snd (snd p))) (combine l rows)
  | None => false
  end.
