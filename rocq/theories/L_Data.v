(** Networks from data frames. *)
From Verif Require Import Py M_Graph M_Node M_Factory Spec SpecNet SpecFactory L_Base L_Table L_Build L_Apply L_Samp L_Samp2 L_P8 L_Plain L_Fac L_Lib L_Serde L_Kahn L_Gauss2.
Open Scope nat_scope.

(** ** the graph of cells *)
Lemma edge_eqb_spec a b : reflect (a = b) (edge_eqb a b).
Proof. destruct a as [a1 a2], b as [b1 b2]. unfold edge_eqb. cbn [fst snd]. destruct (String.eqb_spec a1 b1), (String.eqb_spec a2 b2); constructor; congruence. Qed.
Lemma sg_edge_In g a b e : In e (sg_edges (sg_add_edge g a b)) <-> In e (sg_edges g) \/ e = (a, b).
Proof.
  unfold sg_add_edge. cbn [sg_edges]. destruct (existsb (edge_eqb (a, b)) (sg_edges g)) eqn:E.
  - split; [tauto|]. intros [H| ->]; [exact H|]. apply existsb_exists in E. destruct E as (x & Hx & Ex). destruct (edge_eqb_spec (a, b) x); [subst; exact Hx|discriminate].
  - rewrite in_app_iff. cbn. intuition.
Qed.
Record sg_good (g : sgraph) : Prop := { gg_n : NoDup (sg_nodes g); gg_e : NoDup (sg_edges g); gg_ends : forall u v, In (u, v) (sg_edges g) -> In u (sg_nodes g) /\ In v (sg_nodes g) }.
Lemma sg_add_good g a b : sg_good g -> sg_good (sg_add_edge g a b).
Proof.
  intros [G1 G2 G3]. constructor.
  - unfold sg_add_edge. cbn [sg_nodes]. apply sadd_NoDup, sadd_NoDup, G1.
  - unfold sg_add_edge. cbn [sg_edges]. destruct (existsb (edge_eqb (a, b)) (sg_edges g)) eqn:E; [exact G2|]. apply NoDup_app_intro; [exact G2|constructor; [intros []|constructor]|].
    intros x Hx [<-|[]]. assert (X : existsb (edge_eqb (a, b)) (sg_edges g) = true); [|congruence]. apply existsb_exists. exists (a, b). split; [exact Hx|]. destruct (edge_eqb_spec (a, b) (a, b)); congruence.
  - intros u v H. apply sg_edge_In in H. unfold sg_add_edge. cbn [sg_nodes]. rewrite !sadd_In. destruct H as [H|H]; [apply G3 in H; tauto|]. inversion H; subst. tauto.
Qed.
Definition frame_edges (df : frame) : list (string * string) := flat_map (fun c => map (fun pa => (pa, fst c)) (snd c)) df.
Lemma frame_fold df : forall g, fold_left (fun g c => fold_left (fun g pa => sg_add_edge g pa (fst c)) (snd c) g) df g =
  fold_left (fun g e => sg_add_edge g (fst e) (snd e)) (frame_edges df) g.
Proof.
  induction df as [|[c l] t IH]; intros g; [reflexivity|]. unfold frame_edges in *. cbn [fold_left flat_map fst snd]. rewrite fold_left_app, <- IH. f_equal.
  clear. revert g. induction l as [|x l IH]; intros g; [reflexivity|]. cbn [fold_left map fst snd]. apply IH.
Qed.
Lemma edges_fold es : forall g, sg_good g -> let g' := fold_left (fun g e => sg_add_edge g (fst e) (snd e)) es g in
  sg_good g' /\ (forall e, In e (sg_edges g') <-> In e (sg_edges g) \/ In e es) /\ (forall v, In v (sg_nodes g) -> In v (sg_nodes g')).
Proof.
  induction es as [|[a b] t IH]; intros g Hg; cbn [fold_left fst snd]. { cbv zeta. split; [exact Hg|]. split; [|auto]. intros e. cbn. tauto. }
  destruct (IH (sg_add_edge g a b) (sg_add_good g a b Hg)) as (I1 & I2 & I3). split; [exact I1|]. split.
  - intros e. rewrite I2, sg_edge_In. cbn [In]. intuition congruence.
  - intros v Hv. apply I3. unfold sg_add_edge. cbn [sg_nodes]. rewrite !sadd_In. tauto.
Qed.
Lemma frame_nodes df : forall g, NoDup (sg_nodes g) -> let g' := fold_left (fun g c => mkSG (sadd (sg_nodes g) (fst c)) (sg_edges g)) df g in
  NoDup (sg_nodes g') /\ sg_edges g' = sg_edges g /\ forall v, In v (sg_nodes g') <-> In v (sg_nodes g) \/ In v (columns df).
Proof.
  unfold columns. induction df as [|[c l] t IH]; intros g Hg; cbn [fold_left fst snd map]. { cbv zeta. split; [exact Hg|]. split; [reflexivity|]. cbn. tauto. }
  destruct (IH (mkSG (sadd (sg_nodes g) c) (sg_edges g))) as (I1 & I2 & I3); [cbn; apply sadd_NoDup, Hg|]. cbn [sg_nodes sg_edges] in *. cbv zeta. split; [exact I1|]. split; [exact I2|].
  intros v. rewrite I3, sadd_In. cbn. intuition.
Qed.
Lemma cell_in_edges df : NoDup (columns df) -> forall u v, In (u, v) (frame_edges df) <-> cell_in df u v.
Proof.
  intros ND u v. unfold frame_edges, cell_in, columns, cells. rewrite in_flat_map. split.
  - intros ([c l] & H & Hx). apply in_map_iff in Hx. destruct Hx as (x & E & Hx). cbn [fst snd] in *. inversion E; subst. split; [apply in_map_iff; exists (v, l); auto|].
    rewrite (In_dget df v l ND H). exact Hx.
  - intros [H1 H2]. destruct (dget df v) as [l|] eqn:E; [|destruct H2]. exists (v, l). split; [apply dget_In, E|]. cbn [fst snd]. apply in_map_iff. exists u. auto.
Qed.
Lemma frame_graph_spec df : NoDup (columns df) -> sg_good (frame_graph df) /\ (forall u v, sedge (frame_graph df) u v <-> cell_in df u v) /\ incl (columns df) (sg_nodes (frame_graph df)).
Proof.
  intros ND. unfold frame_graph. rewrite frame_fold. destruct (frame_nodes df (mkSG [] []) (NoDup_nil _)) as (N1 & N2 & N3).
  set (g0 := fold_left (fun g c => mkSG (sadd (sg_nodes g) (fst c)) (sg_edges g)) df (mkSG [] [])) in *.
  assert (G0 : sg_good g0). { constructor; [exact N1|rewrite N2; constructor|]. rewrite N2. intros u v []. }
  destruct (edges_fold (frame_edges df) g0 G0) as (E1 & E2 & E3). cbv zeta in *. split; [exact E1|]. split.
  - intros u v. unfold sedge. rewrite E2, N2, (cell_in_edges df ND). cbn. tauto.
  - intros c Hc. apply E3, N3. right. exact Hc.
Qed.

(** ** numbering *)
Lemma enum_get (l : list string) c : forall k, In c l -> dget (map (fun p => (snd p, Z.of_nat (fst p))) (combine (seq k (List.length l)) l)) c = Some (Z.of_nat (k + pos c l)).
Proof.
  induction l as [|x t IH]; intros k H; [destruct H|]. cbn [List.length seq combine map dget pos fst snd]. change (eqb c x) with (String.eqb c x). destruct (String.eqb_spec c x) as [->|Ne].
  - f_equal. f_equal. lia.
  - destruct H as [->|H]; [congruence|]. rewrite (IH (S k) H). f_equal. f_equal. lia.
Qed.
Lemma pos_inj l x y : In x l -> In y l -> pos x l = pos y l -> x = y.
Proof.
  induction l as [|z t IH]; intros Hx Hy; [destruct Hx|]. cbn [pos]. destruct (String.eqb_spec x z), (String.eqb_spec y z); try discriminate; try congruence.
  intros E. destruct Hx as [->|Hx]; [congruence|]. destruct Hy as [->|Hy]; [congruence|]. apply IH; auto.
Qed.
Lemma data_n2i_spec df : NoDup (columns df) ->
  (acyclic (cell_in df) -> exists n2i id, data_n2i df = Ok n2i /\ (forall c, In c (columns df) -> dgetE n2i c = Ok (id c)) /\ (forall x y, In x (columns df) -> In y (columns df) -> id x = id y -> x = y)) /\
  (~ acyclic (cell_in df) -> data_n2i df = Err NetworkXError).
Proof.
  intros ND. destruct (frame_graph_spec df ND) as ([G1 G2 G3] & GE & GC).
  assert (AC : acyclic (sedge (frame_graph df)) <-> acyclic (cell_in df)).
  { assert (P : forall R S : string -> string -> Prop, (forall a b, S a b -> R a b) -> acyclic R -> acyclic S).
    { intros R S H HR x y Hs Hp. apply (HR x y); [apply H, Hs|]. clear - H Hp. induction Hp; [constructor|]. econstructor; eauto. }
    split; apply P; intros; apply GE; assumption. }
  destruct (topological_spec (frame_graph df) G1 G2 G3) as [(l & T & L1 & L2 & L3)|(T & N)]; unfold data_n2i; rewrite T; cbn [rbind]; split.
  - intros _. exists (fold_left (fun d p => dset d (snd p) (Z.of_nat (fst p))) (combine (seq 0 (List.length l)) l) []), (fun c => Z.of_nat (pos c l)). split; [reflexivity|].
    assert (K : map snd (combine (seq 0 (List.length l)) l) = l). { clear. generalize 0. induction l as [|x t IH]; intros k; [reflexivity|]. cbn. f_equal. apply IH. }
    rewrite fold_dset_nil by (rewrite K; exact L1). split.
    + intros c Hc. unfold dgetE. rewrite enum_get by (apply L2, GC, Hc). reflexivity.
    + intros x y Hx Hy E. apply Nat2Z.inj in E. apply (pos_inj l); auto; apply L2, GC; assumption.
  - intros NA. exfalso. apply NA, AC. apply (ordered_acyclic _ l L1 L2); [|exact L3]. intros u v H. apply (G3 u v H).
  - intros A. exfalso. apply N, AC, A.
  - reflexivity.
Qed.

(** ** values of a column *)
Definition cvals (df : frame) (c : string) : list string := isort str_leb (sof (cells df c)).
Lemma cvals_In df c x : In x (cvals df c) <-> In x (cells df c).
Proof. unfold cvals. rewrite isort_In. apply sof_In. Qed.
Lemma cvals_NoDup df c : NoDup (cvals df c).
Proof. eapply Permutation_NoDup; [apply Permutation_sym, isort_perm|apply sof_NoDup]. Qed.
Lemma by_name_isort l : by_name (isort str_leb l).
Proof. apply isort_sorted; [intros; apply str_leb_total|intros a b d; apply str_leb_trans]. Qed.
Lemma by_name_unique l l' : by_name l -> by_name l' -> Permutation l l' -> l = l'.
Proof. apply ss_perm_unique. intros x y. apply str_leb_anti. Qed.
Lemma isort_by_name l : by_name l -> isort str_leb l = l.
Proof. intros H. apply by_name_unique; [apply by_name_isort|exact H|apply isort_perm]. Qed.
Lemma cvals_spec df c : values_of df c (cvals df c).
Proof. split; [apply cvals_NoDup|]. split; [apply by_name_isort|]. intros x. apply cvals_In. Qed.
Lemma isort_map {A B} (g : A -> B) la lb l : (forall x y, lb (g x) (g y) = la x y) -> isort lb (map g l) = map g (isort la l).
Proof.
  intros H. induction l as [|x t IH]; [reflexivity|]. cbn [map isort]. rewrite IH. generalize (isort la t). intros r. induction r as [|y r IHr]; [reflexivity|]. cbn [map insert]. rewrite H.
  destruct (la x y); [reflexivity|]. cbn [map]. f_equal. exact IHr.
Qed.
Lemma profile_spec df : NoDup (columns df) -> get_profile df = map (fun c => (c, cvals df c)) (columns df).
Proof.
  intros ND. unfold get_profile. rewrite (fold_dset_nil (fun c : string * list string => fst c) (fun c => isort str_leb (sof (snd c)))) by exact ND.
  unfold columns. rewrite map_map. apply map_ext_in. intros [c l] H. cbn [fst snd]. unfold cvals, cells. rewrite (In_dget df c l ND H). reflexivity.
Qed.
Lemma profile_sorted df : map (fun kv => (fst kv, isort str_leb (snd kv))) (map (fun c => (c, cvals df c)) (columns df)) = map (fun c => (c, cvals df c)) (columns df).
Proof. rewrite map_map. apply map_ext. intros c. cbn [fst snd]. rewrite isort_by_name; [reflexivity|]. apply by_name_isort. Qed.

(** ** counting *)
Section Count.
  Context (df : frame) (n : nat) (OK : frame_ok df n).
  Let recs := records df n.

  Lemma cells_len c : In c (columns df) -> List.length (cells df c) = n.
  Proof using OK.
    intros H. unfold columns in H. apply in_map_iff in H. destruct H as ([c' l] & E & H). cbn in E. subst c'. unfold cells. rewrite (In_dget df c l (proj1 (fo_cols _ _ OK)) H). apply (fo_len _ _ OK c l H).
  Qed.
  Lemma n_rows_n : n_rows df = n.
  Proof using OK.
    unfold n_rows. destruct df as [|[c l] t] eqn:E; [destruct (fo_cols _ _ OK) as [_ H]; cbn in H; congruence|]. apply (fo_len _ _ OK c l). left. reflexivity.
  Qed.
  Lemma cell_row c i : In c (columns df) -> i < n -> cell df c i = Some (row df i c).
  Proof using OK.
    intros Hc Hi. pose proof (cells_len c Hc) as L. unfold cell, row, cells in *. destruct (dget df c) as [l|]; [|cbn in L; lia]. apply nth_error_nth'. lia.
  Qed.
  Lemma rows_with_count cs a : incl cs (columns df) -> rows_with df (map (fun c => (c, a c)) cs) = List.length (agreeing recs cs a).
  Proof using OK.
    intros Hc. unfold rows_with, agreeing, recs, records. rewrite n_rows_n.
    assert (G : forall l, (forall i, In i l -> i < n) -> List.length (filter (fun i => forallb (fun nv => match cell df (fst nv) i with Some x => String.eqb x (snd nv) | None => false end) (map (fun c => (c, a c)) cs)) l) =
      List.length (filter (fun r => forallb (fun c => String.eqb (r c) (a c)) cs) (map (row df) l))).
    { induction l as [|i t IH]; intros H; [reflexivity|]. cbn [map filter].
      assert (E : forallb (fun nv => match cell df (fst nv) i with Some x => String.eqb x (snd nv) | None => false end) (map (fun c => (c, a c)) cs) = forallb (fun c => String.eqb (row df i c) (a c)) cs).
      { clear IH. induction cs as [|c r IHc]; [reflexivity|]. cbn [map forallb fst snd]. rewrite cell_row; [|apply Hc; left; reflexivity|apply H; left; reflexivity]. rewrite IHc by (intros x Hx; apply Hc; right; exact Hx). reflexivity. }
      rewrite E. destruct (forallb (fun c => String.eqb (row df i c) (a c)) cs); cbn [List.length]; rewrite IH by (intros j Hj; apply H; right; exact Hj); reflexivity. }
    apply G. intros i Hi. apply in_seq in Hi. lia.
  Qed.
  Lemma recs_cell c r : In c (columns df) -> In r recs -> In (r c) (cvals df c).
  Proof using OK.
    intros Hc Hr. unfold recs, records in Hr. apply in_map_iff in Hr. destruct Hr as (i & <- & Hi). apply in_seq in Hi. apply cvals_In. unfold row. apply nth_In. rewrite cells_len by exact Hc. lia.
  Qed.
End Count.

Lemma agreeing_perm l cs cs' a : Permutation cs cs' -> agreeing l cs a = agreeing l cs' a.
Proof.
  intros P. unfold agreeing. apply filter_ext. intros r. induction P; cbn [forallb]; auto.
  - rewrite IHP. reflexivity.
  - destruct (String.eqb (r x) (a x)), (String.eqb (r y) (a y)); reflexivity.
  - congruence.
Qed.
Lemma agreeing_ext l cs a b : (forall c, In c cs -> a c = b c) -> agreeing l cs a = agreeing l cs b.
Proof.
  intros H. unfold agreeing. apply filter_ext. intros r. induction cs as [|c t IH]; [reflexivity|]. cbn [forallb]. rewrite (H c) by (left; reflexivity). rewrite IH; [reflexivity|]. intros; apply H; right; assumption.
Qed.
Lemma qn_plus a b : qn (a + b) = (qn a + qn b)%Qc.
Proof. unfold qn. rewrite Nat2Z.inj_add. apply Qc_is_canon. unfold Qcplus, Q2Qc, this. rewrite !Qred_correct. unfold Qeq, Qplus. cbn. lia. Qed.
Lemma qn_0 : qn 0 = 0%Qc.
Proof. reflexivity. Qed.
Lemma qn_le a b : a <= b -> (qn a <= qn b)%Qc.
Proof. intros H. unfold qn, Qcle. cbn [this Q2Qc]. rewrite !Qred_correct. unfold Qle. cbn [Qnum Qden]. lia. Qed.
Lemma qn_nonneg a : (0 <= qn a)%Qc.
Proof. change 0%Qc with (qn 0). apply qn_le. lia. Qed.
Lemma qn_pos a : 0 < a -> (0 < qn a)%Qc.
Proof. intros H. apply Qclt_le_trans with (qn 1); [reflexivity|]. apply qn_le. lia. Qed.
Lemma qn_neq0 a : 0 < a -> qn a <> 0%Qc.
Proof. intros H E. apply qn_pos in H. rewrite E in H. apply (Qclt_not_eq _ _ H). reflexivity. Qed.

(** every record has exactly one of the values *)
Lemma count_partition l c cs (vs : list string) (a : string -> string) : NoDup vs -> (forall r, In r l -> In (r c) vs) -> ~ In c cs ->
  qsum (map (fun v => qn (List.length (agreeing l (c :: cs) (fun x => if String.eqb x c then v else a x)))) vs) = qn (List.length (agreeing l cs a)).
Proof.
  intros ND HV Nc. unfold agreeing. induction l as [|r t IH]; cbn [filter].
  - apply qsum_map_zero. intros; reflexivity.
  - assert (E : forall v, forallb (fun x => String.eqb (r x) (if String.eqb x c then v else a x)) (c :: cs) = String.eqb (r c) v && forallb (fun x => String.eqb (r x) (a x)) cs).
    { intros v. cbn [forallb]. rewrite String.eqb_refl. f_equal. clear - Nc. induction cs as [|y s IH]; [reflexivity|]. cbn [forallb]. destruct (String.eqb_spec y c) as [->|]; [exfalso; apply Nc; left; reflexivity|].
      f_equal. apply IH. intros H. apply Nc. right. exact H. }
    rewrite (qsum_map_ext _ (fun v => ((if forallb (fun x => String.eqb (r x) (a x)) cs then 1 else 0) * (if string_dec v (r c) then 1 else 0) + qn (List.length (filter (fun r => forallb (fun x => String.eqb (r x) (if String.eqb x c then v else a x)) (c :: cs)) t)))%Qc)).
    + rewrite qsum_map_plus, IH by (intros; apply HV; right; assumption). rewrite (qsum_delta (fun _ => if forallb (fun x => String.eqb (r x) (a x)) cs then 1%Qc else 0%Qc)) by (try exact ND; apply HV; left; reflexivity).
      destruct (forallb (fun x => String.eqb (r x) (a x)) cs); [|ring]. cbn [List.length]. change (S (List.length (filter (fun r0 => forallb (fun c0 => String.eqb (r0 c0) (a c0)) cs) t))) with (1 + List.length (filter (fun r0 => forallb (fun c0 => String.eqb (r0 c0) (a c0)) cs) t)). rewrite qn_plus. reflexivity.
    + intros v _. rewrite E. destruct (string_dec v (r c)) as [->|Ne]; [rewrite String.eqb_refl|destruct (String.eqb_spec (r c) v); [congruence|]]; cbn [andb]; [|ring]. destruct (forallb (fun x => String.eqb (r x) (a x)) cs); [|ring].
      cbn [List.length]. rewrite (qn_plus 1). change (qn 1) with 1%Qc. ring.
Qed.
