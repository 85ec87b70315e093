(** Networks for which the sampler goes wrong, and checkers for concrete networks. *)
From Verif Require Import Py M_Graph M_Node M_Sampling Spec SpecNet SpecPot SpecSamp L_Base L_Sums L_Table L_UG L_Moral L_Build L_Apply L_Net L_Check L_P4 L_Samp L_Sort L_Samp2 L_P5 L_R4 Ex.
Open Scope nat_scope.

(** ** checkers *)
Definition parb (ops : list bop) (p v : Z) : bool := mem p (net_par ops v).
Definition precedesb (ops : list bop) (x y : Z) : bool := parb ops x y || (negb (parb ops y x) && Z.ltb x y).
Definition consistentb (ops : list bop) : bool :=
  forallb (fun x => forallb (fun y => forallb (fun z => implb (precedesb ops x y && precedesb ops y z) (precedesb ops x z)) (net_vars ops)) (net_vars ops)) (net_vars ops).
Lemma precedesb_ok ops x y : precedesb ops x y = true <-> precedes (net_of ops) x y.
Proof.
  unfold precedesb, precedes, parb. simpl par. rewrite orb_true_iff, andb_true_iff, negb_true_iff, Z.ltb_lt, mem_In.
  assert (mem y (net_par ops x) = false <-> ~ In y (net_par ops x)). { rewrite <- mem_In. destruct (mem y _); split; congruence. } tauto.
Qed.
Lemma consistentb_ok ops : consistentb ops = true -> consistent (net_of ops).
Proof.
  intros H x y z Hx Hy Hz H1 H2. unfold consistentb in H. rewrite forallb_forall in H. specialize (H x Hx). rewrite forallb_forall in H. specialize (H y Hy).
  rewrite forallb_forall in H. specialize (H z Hz). apply precedesb_ok. apply precedesb_ok in H1, H2. rewrite H1, H2 in H. auto.
Qed.
Fixpoint no_commab (s : string) : bool := match s with EmptyString => true | String c t => negb (Ascii.eqb c ","%char) && no_commab t end.
Lemma no_commab_ok s : no_commab s = true -> no_comma s.
Proof. induction s as [|c t IH]; simpl; auto. rewrite andb_true_iff, negb_true_iff. intros [H1 H2]. split; auto. apply Ascii.eqb_neq; auto. Qed.
Definition cleanb (ops : list bop) : bool := forallb (fun i => forallb no_commab (net_dom ops i)) (net_vars ops).
Lemma cleanb_ok ops : cleanb ops = true -> clean ops.
Proof. intros H i x Hi Hx. unfold cleanb in H. rewrite forallb_forall in H. specialize (H i Hi). rewrite forallb_forall in H. apply no_commab_ok; auto. Qed.
Fixpoint ascb (l : list Z) : bool := match l with x :: t => forallb (Z.ltb x) t && ascb t | [] => true end.
Lemma ascb_ok l : ascb l = true -> ascending l.
Proof.
  induction l as [|x t IH]; simpl. intros _ a x b y c E. destruct a; discriminate.
  rewrite andb_true_iff. intros [H1 H2] a y b z c E. destruct a as [|x' a]; simpl in E; injection E as -> E.
  - rewrite forallb_forall in H1. apply Z.ltb_lt, H1. rewrite E. apply in_or_app; simpl; auto.
  - apply (IH H2 a y b z c); auto.
Qed.
Definition all_ascb (ops : list bop) : bool := forallb (fun v => ascb (net_par ops v)) (net_vars ops).
Lemma all_ascb_ok ops : all_ascb ops = true -> forall v, In v (net_vars ops) -> ascending (net_par ops v).
Proof. intros H v Hv. unfold all_ascb in H. rewrite forallb_forall in H. apply ascb_ok; auto. Qed.
Definition uniformb (u : Qc) : bool := negb (qltb u 0) && qltb u 1.
Lemma uniformb_ok u : uniformb u = true -> uniform u.
Proof. unfold uniformb, uniform. rewrite andb_true_iff, negb_true_iff. intros [H1 H2]. split. apply qltb_false; auto. apply qltb_lt; auto. Qed.
Definition drawb (ops : list bop) (us : list Qc) : bool := Nat.eqb (List.length us) (List.length (net_vars ops)) && forallb uniformb us.
Lemma drawb_ok ops us : drawb ops us = true -> draw_for (net_of ops) us.
Proof. unfold drawb. rewrite andb_true_iff, Nat.eqb_eq, forallb_forall. intros [H1 H2]. split; auto. apply Forall_forall. intros u Hu. apply uniformb_ok; auto. Qed.

Definition small : sorter := fun lt l => small_sort lt l.
Lemma short srt b : sorter_ok srt -> Nat.ltb (List.length (get_nodes (b_g b))) 64 = true -> logic_sampler srt b = logic_sampler small b.
Proof.
  intros K H. unfold logic_sampler. destruct (get_tables b); auto. cbn [rbind]. do 2 f_equal. unfold topological_sort. f_equal. apply (proj1 (proj2 K)).
  rewrite map_length. apply Nat.ltb_lt; auto.
Qed.

(** ** C29: 0, 1, 2 with 2 -> 0 *)
Definition m_0 := new_node 0 "m0"%string ["on"; "off"]%string [qfrac 1 2; qfrac 1 2; qfrac 1 4; qfrac 3 4].
Definition m_1 := new_node 1 "m1"%string ["on"; "off"]%string [qfrac 1 2; qfrac 1 2].
Definition m_2 := new_node 2 "m2"%string ["on"; "off"]%string [qfrac 1 2; qfrac 1 2].
Definition crossed : list bop := [AddNode m_0; AddNode m_1; AddNode m_2; AddEdge m_2 m_0].

(** the node [v] comes first although [p] is a parent of it, and sampling raises KeyError *)
Definition bad_orderb (ops : list bop) (v p : Z) (us : list Qc) : bool :=
  Nat.ltb (List.length (get_nodes (b_g (build ops)))) 64 && parb ops p v &&
  match logic_sampler small (build ops) with
  | Ok s => eqb (hd p (sp_nodes s)) v && negb (eqb v p) && match sp_nodes s with [] => false | _ => true end &&
            match sample_once s [] us with Err KeyError => true | _ => false end
  | Err _ => false
  end.
Lemma bad_order ops v p us : bad_orderb ops v p us = true -> forall srt, sorter_ok srt ->
  exists s, logic_sampler srt (build ops) = Ok s /\ ~ topological (net_of ops) (sp_nodes s) /\ forall n draws, get_samples s [] n (us :: draws) = Err KeyError.
Proof.
  unfold bad_orderb. rewrite !andb_true_iff. intros [[H1 H2] H3] srt K. rewrite (short srt _ K H1). destruct (logic_sampler small (build ops)) as [s|]; [|discriminate].
  rewrite !andb_true_iff, negb_true_iff in H3. destruct H3 as [[[H3 H4] H5] H6]. exists s. split; auto. split.
  - intros [_ T]. destruct (sp_nodes s) as [|w l] eqn:Es; [discriminate|]. apply Z.eqb_eq in H3. simpl in H3. subst w.
    apply (T [] v l p eq_refl). apply mem_In. exact H2.
  - intros n draws. unfold get_samples. cbn [samples_loop]. destruct (sample_once s [] us) as [|[]]; try discriminate; auto.
Qed.

(** ** C30: 1 -> 2 with evidence on 2 *)
Definition pair12 : list bop := [AddEdge n_1 n_2].
Definition hasb (d : list (Z * string)) (i : Z) (x : string) : bool := match dget d i with Some z => eqb z x | None => false end.
Lemma hasb_ok d i x : hasb d i x = true -> dget d i = Some x.
Proof. unfold hasb. destruct (dget d i) as [z|]; [|discriminate]. destruct (eqb_spec z x); congruence. Qed.
Definition keptb (ops : list bop) (ev : sample) (us : list Qc) (i : Z) (x y : string) : bool :=
  Nat.ltb (List.length (get_nodes (b_g (build ops)))) 64 && hasb ev i x && negb (eqb x y) &&
  match logic_sampler small (build ops) with
  | Ok s => match sample_once s [] us, get_samples s ev 1 [us] with
            | Ok full, Ok [d] => hasb full i y && hasb d i x
            | _, _ => false
            end
  | Err _ => false
  end.
Lemma kept_bad ops ev us i x y : keptb ops ev us i x y = true -> forall srt, sorter_ok srt ->
  exists s full d, logic_sampler srt (build ops) = Ok s /\ sample_once s [] us = Ok full /\ ~ fits ev full /\ get_samples s ev 1 [us] = Ok [d].
Proof.
  unfold keptb. rewrite !andb_true_iff. intros [[[H1 H2] H3] H4] srt K. rewrite (short srt _ K H1). destruct (logic_sampler small (build ops)) as [s|]; [|discriminate].
  destruct (sample_once s [] us) as [full|] eqn:E1; [|discriminate]. destruct (get_samples s ev 1 [us]) as [[|d [|]]|] eqn:E2; try discriminate.
  apply andb_true_iff in H4 as [H4 _]. exists s, full, d. split; auto. split; auto. split; auto. intros F.
  apply hasb_ok in H2, H4. rewrite (F i x H2) in H4. injection H4 as ->. rewrite eqb_refl in H3. discriminate.
Qed.

(** ** C31: parents of 3 added in the order 2, 1 *)
Definition t_1 := new_node 1 "t1"%string ["a"; "b"]%string [qfrac 1 2; qfrac 1 2].
Definition t_2 := new_node 2 "t2"%string ["a"; "b"]%string [qfrac 1 2; qfrac 1 2].
(** given (2 = a, 1 = b) the value is certainly x *)
Definition t_3 := new_node 3 "t3"%string ["x"; "y"]%string [qfrac 1 2; qfrac 1 2; 1%Qc; 0%Qc; 0%Qc; 1%Qc; qfrac 1 2; qfrac 1 2].
Definition swapped : list bop := [AddNode t_1; AddNode t_2; AddNode t_3; AddEdge t_2 t_3; AddEdge t_1 t_3].
Definition asg_12 (x y : string) : asg := fun i => if eqb i 1%Z then x else if eqb i 2%Z then y else "x"%string.
Definition misreadb (ops : list bop) (v : Z) (a : asg) (u : Qc) (x : string) : bool :=
  Nat.ltb (List.length (get_nodes (b_g (build ops)))) 64 && mem v (net_vars ops) && forallb (fun i => mem (a i) (net_dom ops i)) (net_vars ops) && uniformb u &&
  qeqb (cpt_entry (net_of ops) v (upd a v x)) 0%Qc &&
  match logic_sampler small (build ops) with
  | Ok s => match dget (sp_tables s) v with Some t => match get_value t u (map (fun i => (i, a i)) (net_par ops v)) with Ok y => eqb x y | _ => false end | None => false end
  | Err _ => false
  end.
Lemma misread ops v a u x : misreadb ops v a u x = true -> forall srt, sorter_ok srt ->
  exists s t, logic_sampler srt (build ops) = Ok s /\ dget (sp_tables s) v = Some t /\ In v (net_vars ops) /\ okon (net_dom ops) (net_vars ops) a /\ uniform u /\
    get_value t u (map (fun i => (i, a i)) (net_par ops v)) = Ok x /\ cpt_entry (net_of ops) v (upd a v x) = 0%Qc.
Proof.
  unfold misreadb. rewrite !andb_true_iff. intros [[[[[H1 H2] H3] H4] H5] H6] srt K. rewrite (short srt _ K H1). destruct (logic_sampler small (build ops)) as [s|]; [|discriminate].
  destruct (dget (sp_tables s) v) as [t|] eqn:Et; [|discriminate]. destruct (get_value t u _) as [y|] eqn:Eg; [|discriminate]. exists s, t.
  split; auto. split; auto. split; [apply mem_In; auto|]. split. { intros i Hi. rewrite forallb_forall in H3. apply mem_In; auto. } split; [apply uniformb_ok; auto|].
  split. { rewrite Eg. f_equal. symmetry. apply String.eqb_eq; auto. } apply qeqb_true; auto.
Qed.

(** ** the refutations *)
Definition k_1 : bnode := new_node 1 "p"%string ["a"; "b"]%string [].
Definition k_2 : bnode := new_node 2 "q"%string ["c"; "d"]%string [].
Definition k_3 : bnode := new_node 3 "c"%string ["x"; "y"; "z"]%string (map (fun k => Q2Qc (Qmake (Z.of_nat k) 10)) [1; 2; 7; 0; 10; 0; 3; 3; 4; 5; 0; 5]).
Definition dm_28 (i : Z) : list string := if eqb i 1%Z then n_values k_1 else if eqb i 2%Z then n_values k_2 else n_values k_3.
Definition shown (r : res table) (d : list (Z * string)) (us : list Qc) : list (res string) :=
  match r with Ok t => map (fun u => get_value t u d) us | Err _ => [] end.
Definition comma_1 : bnode := new_node 1 "p"%string ["a"; "a,2=b"]%string [].
Definition comma_2 : bnode := new_node 2 "q"%string ["b,2=c"; "c"]%string [].
Definition comma_3 : bnode := new_node 3 "c"%string ["x"; "y"]%string [1%Qc; 0%Qc; qfrac 1 2; qfrac 1 2; qfrac 1 2; qfrac 1 2; 0%Qc; 1%Qc].
Definition diamond_asc : list bop :=
  [AddNode n_a; AddNode n_b; AddNode n_c; AddNode n_d; AddEdge n_a n_b; AddEdge n_a n_c; AddEdge n_c n_d; AddEdge n_b n_d].
Definition samples_of (ops : list bop) (ev : sample) (n : nat) (draws : list (list Qc)) : list Z * res (list sample) :=
  match logic_sampler small (build ops) with Ok s => (sp_nodes s, get_samples s ev n draws) | Err e => ([], Err e) end.
Lemma c28_comma_refuted : exists dm n ps t a s u x, proper_nodes dm (ps ++ [n]) /\ ascending (map n_id ps) /\
  size dm (map n_id ps ++ [n_id n]) = List.length (n_probs n) /\
  mk_table n ps = Ok t /\ okon dm (map n_id ps) a /\ records s (map n_id ps) a /\ uniform u /\
  get_value t u s = Ok x /\ this (nth (row_index dm (map n_id ps ++ [n_id n]) (upd a (n_id n) x)) (n_probs n) 1%Qc) = 0%Q.
Proof.
  exists (fun i => if eqb i 1%Z then n_values comma_1 else if eqb i 2%Z then n_values comma_2 else n_values comma_3), comma_3, [comma_1; comma_2].
  destruct (mk_table comma_3 [comma_1; comma_2]) as [t|] eqn:E; [|vm_compute in E; discriminate].
  exists t, (asg_12 "a" "b,2=c"), [(1%Z, "a"%string); (2%Z, "b,2=c"%string)], (qfrac 1 2), "y"%string.
  split; [|split; [apply ascb_ok; reflexivity|split; [reflexivity|split; [reflexivity|]]]].
  - split; [repeat constructor; simpl; intuition discriminate|]. intros n [<-|[<-|[<-|[]]]]; (split; [reflexivity|]); repeat constructor; simpl; intuition discriminate.
  - split. { intros i [<-|[<-|[]]]; simpl; auto. } split. { intros i [<-|[<-|[]]]; reflexivity. } split; [apply uniformb_ok; reflexivity|].
    vm_compute in E. injection E as <-. vm_compute. auto.
Qed.
Lemma c28_unsorted_refuted : exists n ps t s u, map n_id ps = [2; 1]%Z /\ mk_table n ps = Ok t /\
  dkeys s = [1; 2]%Z /\ uniform u /\ get_value t u s = Err KeyError.
Proof.
  exists k_3, [k_2; k_1]. destruct (mk_table k_3 [k_2; k_1]) as [t|] eqn:E; [|vm_compute in E; discriminate].
  exists t, [(1%Z, "b"%string); (2%Z, "d"%string)], (qfrac 1 2). repeat split; try (apply uniformb_ok; reflexivity).
  vm_compute in E. injection E as <-. vm_compute. reflexivity.
Qed.
Lemma c29_topological_refuted : exists ops us, well_shaped ops /\ clean ops /\ acyclic (is_parent (net_of ops)) /\ stochastic (net_of ops) /\
  draw_for (net_of ops) us /\
  forall srt, sorter_ok srt -> exists s, logic_sampler srt (build ops) = Ok s /\ ~ topological (net_of ops) (sp_nodes s) /\
    forall n draws, get_samples s [] n (us :: draws) = Err KeyError.
Proof.
  exists crossed, [qfrac 1 2; qfrac 1 2; qfrac 1 2]. split; [apply well_shapedb_ok; vm_compute; reflexivity|]. split; [apply cleanb_ok; vm_compute; reflexivity|].
  split. { apply rankedb_ok with (fun i => Z.to_nat (2 - i)). vm_compute. reflexivity. } split; [apply stochasticb_ok; vm_compute; reflexivity|].
  split; [apply drawb_ok; vm_compute; reflexivity|]. apply bad_order with 0%Z 2%Z. vm_compute. reflexivity.
Qed.
Lemma c30_rejection_refuted : exists ops ev us, well_shaped ops /\ clean ops /\ stochastic (net_of ops) /\ consistent (net_of ops) /\
  acyclic (is_parent (net_of ops)) /\ evidence_on (net_of ops) ev /\ draw_for (net_of ops) us /\
  forall srt, sorter_ok srt -> exists s full d, logic_sampler srt (build ops) = Ok s /\
    sample_once s [] us = Ok full /\ ~ fits ev full /\ get_samples s ev 1 [us] = Ok [d].
Proof.
  exists pair12, [(2%Z, "on"%string)], [qfrac 1 2; qfrac 1 2]. split; [apply well_shapedb_ok; vm_compute; reflexivity|]. split; [apply cleanb_ok; vm_compute; reflexivity|].
  split; [apply stochasticb_ok; vm_compute; reflexivity|]. split; [apply consistentb_ok; vm_compute; reflexivity|].
  split. { apply rankedb_ok with Z.to_nat. vm_compute. reflexivity. } split. { split; [repeat constructor; simpl; tauto|]. intros i [<-|[]]. vm_compute. auto. }
  split; [apply drawb_ok; vm_compute; reflexivity|]. apply kept_bad with 2%Z "on"%string "off"%string. vm_compute. reflexivity.
Qed.
Lemma c31_same_cpt_refuted : exists ops v a u x, well_shaped ops /\ clean ops /\ stochastic (net_of ops) /\ acyclic (is_parent (net_of ops)) /\
  forall srt, sorter_ok srt -> exists s t, logic_sampler srt (build ops) = Ok s /\ dget (sp_tables s) v = Some t /\
    In v (net_vars ops) /\ okon (net_dom ops) (net_vars ops) a /\ uniform u /\
    get_value t u (map (fun i => (i, a i)) (net_par ops v)) = Ok x /\ cpt_entry (net_of ops) v (upd a v x) = 0%Qc.
Proof.
  exists swapped, 3%Z, (asg_12 "b" "a"), (qfrac 1 2), "y"%string. split; [apply well_shapedb_ok; vm_compute; reflexivity|]. split; [apply cleanb_ok; vm_compute; reflexivity|].
  split; [apply stochasticb_ok; vm_compute; reflexivity|]. split. { apply rankedb_ok with Z.to_nat. vm_compute. reflexivity. }
  apply misread. vm_compute. reflexivity.
Qed.

(** ** C32: parents not in ascending order *)
Lemma by_id_net ops : by_id (net_of ops) (fun v => isort Z.leb (net_par ops v)).
Proof. apply by_id_exists. intros v _. apply firsts_NoDup. Qed.
Definition asg_d (i : Z) : string := (if Z.eqb i 10 then "on" else if Z.eqb i 2 then "y" else if Z.eqb i 1 then "off" else "t")%string.
Definition reads_otherb (ops : list bop) (a : asg) : bool :=
  forallb (fun v => mem (a v) (net_dom ops v)) (net_vars ops) &&
  negb (qeqb (weight (read_with (net_of ops) (fun v => isort Z.leb (net_par ops v))) no_evidence a) (weight (net_of ops) no_evidence a)).
Lemma reads_otherb_ok ops a : reads_otherb ops a = true -> exists ps a, by_id (net_of ops) ps /\ okon (net_dom ops) (net_vars ops) a /\
    weight (read_with (net_of ops) ps) no_evidence a <> weight (net_of ops) no_evidence a.
Proof.
  unfold reads_otherb. rewrite andb_true_iff, negb_true_iff. intros [H1 H2]. eexists _, a. split; [apply by_id_net|]. split.
  - intros v Hv. rewrite forallb_forall in H1. apply mem_In. apply (H1 v Hv).
  - apply qeqb_false. exact H2.
Qed.
Lemma c32_any_case : well_shaped diamond /\ clean diamond /\ stochastic (net_of diamond) /\
  (exists s, logic_sampler small (build diamond) = Ok s /\ topological (net_of diamond) (sp_nodes s)) /\
  net_par diamond 30 = [2; 1]%Z /\
  exists ps a, by_id (net_of diamond) ps /\ okon (net_dom diamond) (net_vars diamond) a /\
    weight (read_with (net_of diamond) ps) no_evidence a <> weight (net_of diamond) no_evidence a.
Proof.
  assert (W : well_shaped diamond) by (apply well_shapedb_ok; vm_compute; reflexivity).
  assert (C : clean diamond) by (apply cleanb_ok; vm_compute; reflexivity).
  split; auto. split; auto. split; [apply stochasticb_ok; vm_compute; reflexivity|]. split.
  - assert (A : acyclic (is_parent (net_of diamond))) by (apply rankedb_ok with diamond_rank; vm_compute; reflexivity).
    assert (Co : consistent (net_of diamond)) by (apply consistentb_ok; vm_compute; reflexivity).
    destruct (c29 small diamond small_sorter_ok W C A Co) as (s & E & T & _). exists s. auto.
  - split; [vm_compute; reflexivity|]. apply reads_otherb_ok with asg_d. vm_compute. reflexivity.
Qed.
