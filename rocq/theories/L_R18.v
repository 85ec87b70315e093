(** C68: the theorems and examples. *)
From Verif Require Import Py M_Graph M_Node M_Pptc Spec SpecNet SpecEv SpecChord L_Base L_Check Ex L_R1 L_Shape L_Chord L_Chord2.
Open Scope nat_scope.

Lemma c68_elimination ops o h : well_shaped ops -> ord_ok o -> valid_history (net_of ops) h ->
  let N := net_of ops in let size i := Z.of_nat (List.length (dom N i)) in
  exists j steps, session o ops h = Ok j /\ eliminates size (vars N) (moral_edge N) steps /\
    (forall c, In c (jt_cliques j) -> exists v nbrs, In (v, nbrs) steps /\ same_members (cl_nodes c) (v :: nbrs)) /\
    (forall v nbrs, In (v, nbrs) steps -> exists c, In c (jt_cliques j) /\ incl (v :: nbrs) (cl_nodes c)).
Proof. intros H Ho Hh N size. destruct (session_result ops o h H Ho Hh) as (j & steps & E & R & _). exists j, steps. split; [exact E|exact R]. Qed.
Lemma c68_chordal ops o h : well_shaped ops -> ord_ok o -> valid_history (net_of ops) h ->
  let N := net_of ops in
  exists j, session o ops h = Ok j /\
    let joined x y := x <> y /\ exists c, In c (jt_cliques j) /\ In x (cl_nodes c) /\ In y (cl_nodes c) in
    chordal (vars N) joined /\
    (forall C, C <> [] -> incl C (vars N) -> all_joined joined C -> exists c, In c (jt_cliques j) /\ incl C (cl_nodes c)).
Proof. intros H Ho Hh N. destruct (session_result ops o h H Ho Hh) as (j & steps & E & _ & R1 & R2 & _). exists j. split; [exact E|]. split; [exact R1|exact R2]. Qed.
Lemma c68_no_fill ops o h : well_shaped ops -> ord_ok o -> valid_history (net_of ops) h ->
  let N := net_of ops in
  exists j, session o ops h = Ok j /\
    (chordal (vars N) (moral_edge N) <-> forall c, In c (jt_cliques j) -> all_joined (moral_edge N) (cl_nodes c)).
Proof. intros H Ho Hh N. destruct (session_result ops o h H Ho Hh) as (j & steps & E & _ & _ & _ & R). exists j. split; [exact E|exact R]. Qed.
Lemma c08_edges ops o u m cs : well_shaped ops -> ord_ok o -> moralize (b_g (build ops)) = Ok u -> triangulate o u = Ok (m, cs) ->
  forall x y, moral_edge (net_of ops) x y -> exists c, In c cs /\ In x (cl_nodes c) /\ In y (cl_nodes c).
Proof. intros H Ho E T. destruct (triangulate_build ops o u H Ho E) as (m' & cs' & T' & _ & Q & _). rewrite T in T'. injection T' as <- <-. exact Q. Qed.
Lemma c68_graph ops o : well_shaped ops -> ord_ok o -> let N := net_of ops in
  let size i := Z.of_nat (List.length (dom N i)) in
  exists u m cs steps, moralize (b_g (build ops)) = Ok u /\ triangulate o u = Ok (m, cs) /\
    eliminates size (vars N) (moral_edge N) steps /\
    (forall x y, In y (get_neighbors m x) <-> x <> y /\ (moral_edge N x y \/ exists v nbrs, In (v, nbrs) steps /\ In x (v :: nbrs) /\ In y (v :: nbrs))) /\
    chordal (vars N) (fun x y => In y (get_neighbors m x)) /\
    (chordal (vars N) (moral_edge N) -> forall x y, In y (get_neighbors m x) <-> moral_edge N x y).
Proof.
  intros H Ho N size. destruct (triangulate_result ops o H Ho) as (u & m & cs & steps & E & T & (R1 & R2 & R3) & (S1 & S2 & S3) & A). fold N in R1, S1, S2, S3.
  pose proof (c08_edges ops o u m cs H Ho E T) as B. exists u, m, cs, steps. split; [exact E|]. split; [exact T|]. split; [exact R1|]. split; [|split].
  - intros x y. rewrite A. unfold share. split.
    + intros (Hn & c & Hc & Hx & Hy). split; [exact Hn|]. right. destruct (R2 c Hc) as (v & nbrs & Hs & Q). exists v, nbrs. split; [exact Hs|]. split; apply Q; assumption.
    + intros (Hn & [Q|(v & nbrs & Hs & Hx & Hy)]); (split; [exact Hn|]); [exact (B x y Q)|]. destruct (R3 v nbrs Hs) as (c & Hc & I). exists c. split; [exact Hc|]. split; apply I; assumption.
  - apply chordal_ext with (2 := S1). intros x y. symmetry. apply A.
  - intros Hch x y. rewrite A. split; [|intros Q; split; [apply Q|exact (B x y Q)]]. intros (Hn & c & Hc & Hx & Hy). exact (proj1 S3 Hch c Hc x y Hx Hy Hn).
Qed.

Local Open Scope string_scope.
(** 1 is a parent of 2 and 3, 2 of 4, 3 of 5, and 4 and 5 of 6; 1 has three values *)
Definition r_1 := new_node 1 "v1" ["a"; "b"; "c"] [qfrac 1 2; qfrac 1 4; qfrac 1 4].
Definition r_2 := new_node 2 "v2" ["a"; "b"] [qfrac 1 3; qfrac 2 3; qfrac 1 4; qfrac 3 4; 0%Qc; 1%Qc].
Definition r_3 := new_node 3 "v3" ["a"; "b"] [qfrac 1 5; qfrac 4 5; qfrac 1 2; qfrac 1 2; 1%Qc; 0%Qc].
Definition r_4 := new_node 4 "v4" ["a"; "b"] [qfrac 1 3; qfrac 2 3; qfrac 1 4; qfrac 3 4].
Definition r_5 := new_node 5 "v5" ["a"; "b"] [qfrac 1 2; qfrac 1 2; qfrac 1 6; qfrac 5 6].
Definition r_6 := new_node 6 "v6" ["a"; "b"] [qfrac 1 3; qfrac 2 3; qfrac 1 4; qfrac 3 4; qfrac 1 5; qfrac 4 5; qfrac 1 6; qfrac 5 6].
Definition ring : list bop :=
  [AddNode r_1; AddNode r_2; AddNode r_3; AddNode r_4; AddNode r_5; AddNode r_6; AddEdge r_1 r_2; AddEdge r_1 r_3; AddEdge r_2 r_4; AddEdge r_3 r_5; AddEdge r_4 r_6; AddEdge r_5 r_6].
Lemma ring_ok : well_shaped ring. Proof. apply well_shapedb_ok. vm_compute. reflexivity. Qed.
Lemma c68_case : well_shaped ring /\ ~ chordal (vars (net_of ring)) (moral_edge (net_of ring)) /\
  (match session ord_rev ring [] with Ok j => map cl_nodes (jt_cliques j) | Err _ => [] end) = [[5; 4; 6]; [5; 2; 4]; [2; 3; 5]; [3; 2; 1]]%Z /\
  well_shaped diamond /\ valid_history (net_of diamond) hard_history /\ chordal (vars (net_of diamond)) (moral_edge (net_of diamond)).
Proof.
  split; [exact ring_ok|]. split; [intros Q; apply (no_fillb_ok ring ring_ok) in Q; vm_compute in Q; discriminate|]. split; [vm_compute; reflexivity|].
  split; [exact diamond_ok|]. split; [exact hard_history_ok|]. apply (no_fillb_ok diamond diamond_ok). vm_compute. reflexivity.
Qed.
