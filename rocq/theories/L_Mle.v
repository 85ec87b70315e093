(** Learned tables make the data as probable as possible. *)
From Verif Require Import Py M_Graph M_Node M_Pptc M_Factory Spec SpecNet SpecPot SpecFactory SpecLearn SpecMle L_Base L_Sums L_Table L_UG L_Exact L_Apply L_Net L_P4 L_Data L_Data2 L_R12 L_Learn.
Open Scope Qc_scope.

Lemma le_sub a b : 0 <= b - a -> a <= b.
Proof. intros H. apply Qcle_minus_iff. exact H. Qed.
Lemma sub_le a b : a <= b -> 0 <= b - a.
Proof. intros H. apply Qcle_minus_iff in H. exact H. Qed.
Lemma inv_nonneg x : 0 < x -> 0 <= / x.
Proof.
  intros H. apply Qcnot_lt_le. intros C. assert (Hx : x <> 0) by (intros ->; apply (Qclt_not_eq _ _ H); reflexivity).
  assert (L : / x * x < 0 * x) by (apply Qcmult_lt_compat_r; auto). rewrite Qcmult_inv_l in L by auto. replace (0 * x) with 0 in L by ring. discriminate L.
Qed.
Lemma qprod_small l : (forall x, In x l -> 0 <= x) -> (forall x, In x l -> x <= 1) -> qprod l <= 1.
Proof.
  induction l as [|x l IH]; intros H0 H1; [discriminate|]. rewrite qprod_cons. assert (A : qprod l <= 1) by (apply IH; intros; [apply H0|apply H1]; right; auto).
  apply Qcle_trans with (1 * qprod l). - apply Qcmult_le_compat_r; [apply H1; left; auto|apply qprod_nonneg; intros; apply H0; right; auto]. - rewrite Qcmult_1_l. exact A.
Qed.
Lemma qsum_big l : (forall x, In x l -> 1 <= x) -> qn (List.length l) <= qsum l.
Proof.
  induction l as [|x l IH]; intros H; [discriminate|]. rewrite qsum_cons. cbn [List.length]. change (S (List.length l)) with (1 + List.length l)%nat. rewrite qn_plus. apply Qcplus_le_compat; [apply H; left; auto|apply IH; intros; apply H; right; auto].
Qed.
(** numbers that are 1 on average have a product of at most 1 *)
Lemma product_small : forall n l, List.length l = n -> (forall x, In x l -> 0 <= x) -> qsum l <= qn n -> qprod l <= 1.
Proof.
  induction n as [|n IH]; intros l Hn H0 HS.
  { destruct l; [discriminate|discriminate Hn]. }
  destruct (existsb (fun x => negb (qleb x 1)) l) eqn:E.
  - apply existsb_exists in E. destruct E as [x [Hx E]]. apply negb_true_iff in E. apply in_split in Hx. destruct Hx as [l1 [l2 ->]].
    assert (X1 : 1 < x). { apply Qcnot_le_lt. intros C. apply qleb_le in C. congruence. }
    assert (P : Permutation (l1 ++ x :: l2) (x :: l1 ++ l2)) by (apply Permutation_sym, Permutation_middle).
    rewrite (qprod_perm _ _ P). rewrite (qsum_perm _ _ P) in HS. apply Permutation_length in P as PL. rewrite Hn in PL. simpl in PL.
    assert (H0' : forall z, In z (x :: l1 ++ l2) -> 0 <= z) by (intros z Hz; apply H0; apply (Permutation_in _ (Permutation_sym P)); auto).
    clear P H0 Hn. set (m := l1 ++ l2) in *. assert (LM : List.length m = n) by lia.
    destruct (existsb (fun y => negb (qleb 1 y)) m) eqn:F.
    + apply existsb_exists in F. destruct F as [y [Hy F]]. apply negb_true_iff in F. assert (Y1 : y < 1). { apply Qcnot_le_lt. intros C. apply qleb_le in C. congruence. }
      apply in_split in Hy. destruct Hy as [m1 [m2 Em]]. assert (P : Permutation m (y :: m1 ++ m2)) by (rewrite Em; apply Permutation_sym, Permutation_middle).
      rewrite qprod_cons, (qprod_perm _ _ P), qprod_cons. rewrite qsum_cons, (qsum_perm _ _ P), qsum_cons in HS. assert (LL := Permutation_length P). simpl in LL.
      assert (Hy0 : 0 <= y). { apply H0'. right. apply (Permutation_in _ (Permutation_sym P)). left. auto. }
      assert (Hz : forall z, In z (m1 ++ m2) -> 0 <= z). { intros z Hz. apply H0'. right. apply (Permutation_in _ (Permutation_sym P)). right. auto. }
      assert (G : qprod ((x + y - 1) :: m1 ++ m2) <= 1).
      { apply IH. - simpl. lia.
        - intros z [<-|Hz']; auto. apply sub_le in Hy0. apply Qclt_le_weak, sub_le in X1. replace (x + y - 1) with ((x - 1) + (y - 0)) by ring. apply Qcle_0_plus; auto.
        - rewrite qsum_cons. change (S n) with (1 + n)%nat in HS. rewrite qn_plus in HS. replace (qn 1) with 1 in HS by reflexivity. apply le_sub. apply sub_le in HS. replace (qn n - (x + y - 1 + qsum (m1 ++ m2))) with (1 + qn n - (x + (y + qsum (m1 ++ m2)))) by ring. exact HS. }
      rewrite qprod_cons in G. eapply Qcle_trans; [|exact G]. rewrite Qcmult_assoc. apply Qcmult_le_compat_r; [|apply qprod_nonneg; auto].
      apply le_sub. replace (x + y - 1 - x * y) with ((x - 1) * (1 - y)) by ring. apply Qcle_0_mult; apply sub_le, Qclt_le_weak; auto.
    + exfalso. assert (B : qn (List.length m) <= qsum m). { apply qsum_big. intros z Hz. destruct (qleb 1 z) eqn:Q; [apply qleb_le in Q; auto|]. assert (C : existsb (fun y => negb (qleb 1 y)) m = true); [|congruence]. apply existsb_exists. exists z. rewrite Q. auto. }
      rewrite LM in B. rewrite qsum_cons in HS. change (S n) with (1 + n)%nat in HS. rewrite qn_plus in HS. replace (qn 1) with 1 in HS by reflexivity.
      assert (C : x <= 1). { apply le_sub. apply sub_le in HS, B. replace (1 - x) with ((1 + qn n - (x + qsum m)) + (qsum m - qn n)) by ring. apply Qcle_0_plus; auto. }
      apply (Qcle_not_lt _ _ C X1).
  - apply qprod_small; auto. intros x Hx. destruct (qleb x 1) eqn:Q; [apply qleb_le in Q; auto|]. assert (C : existsb (fun y => negb (qleb y 1)) l = true); [|congruence]. apply existsb_exists. exists x. rewrite Q. auto.
Qed.
Lemma qprod_swap {A B} (F : A -> B -> Qc) la lb : qprod (map (fun x => qprod (map (fun y => F x y) lb)) la) = qprod (map (fun y => qprod (map (fun x => F x y) la)) lb).
Proof.
  induction la as [|a la IH]; cbn [map].
  - rewrite qprod_nil. induction lb as [|b lb IHb]; cbn [map]; [reflexivity|]. rewrite qprod_cons, <- IHb. ring.
  - rewrite qprod_cons, IH. rewrite <- qprod_map_mult. apply qprod_map_ext. intros y _. rewrite qprod_cons. reflexivity.
Qed.
Lemma qprod_le {A} (f g : A -> Qc) l : (forall x, In x l -> 0 <= f x) -> (forall x, In x l -> f x <= g x) -> qprod (map f l) <= qprod (map g l).
Proof.
  induction l as [|x l IH]; intros H0 H; cbn [map]; [apply Qcle_refl|]. rewrite !qprod_cons. assert (P : 0 <= qprod (map f l)). { apply qprod_nonneg. intros z Hz. apply in_map_iff in Hz. destruct Hz as [y [<- Hy]]. apply H0. right. auto. }
  assert (Q : qprod (map f l) <= qprod (map g l)) by (apply IH; intros; [apply H0|apply H]; right; auto).
  apply Qcle_trans with (g x * qprod (map f l)). - apply Qcmult_le_compat_r; auto. apply H. left. auto.
  - rewrite (Qcmult_comm (g x)), (Qcmult_comm (g x)). apply Qcmult_le_compat_r; auto. apply Qcle_trans with (f x); [apply H0|apply H]; left; auto.
Qed.
Lemma qsum_le {A} (f g : A -> Qc) l : (forall x, In x l -> f x <= g x) -> qsum (map f l) <= qsum (map g l).
Proof. induction l as [|x l IH]; intros H; cbn [map]; [apply Qcle_refl|]. rewrite !qsum_cons. apply Qcplus_le_compat; [apply H; left; auto|apply IH; intros; apply H; right; auto]. Qed.
(** records by the cell of a column *)
Lemma by_cell (A : list (string -> string)) c (vs : list string) (F : string -> Qc) : NoDup vs -> (forall r, In r A -> In (r c) vs) ->
  qsum (map (fun r => F (r c)) A) = qsum (map (fun v => qn (List.length (filter (fun r => String.eqb (r c) v) A)) * F v) vs).
Proof.
  intros ND. induction A as [|r A IH]; intros H.
  - cbn [map filter List.length]. rewrite qn_0, qsum_nil. symmetry. rewrite (qsum_map_ext _ (fun _ => 0)) by (intros; ring). rewrite qconst. ring.
  - cbn [map]. rewrite qsum_cons, IH by (intros; apply H; right; auto).
    rewrite (qsum_map_ext (fun v => qn (List.length (filter (fun r0 => String.eqb (r0 c) v) (r :: A))) * F v) (fun v => (if String.eqb (r c) v then F v else 0) + qn (List.length (filter (fun r0 => String.eqb (r0 c) v) A)) * F v)).
    2:{ intros v _. cbn [filter]. destruct (String.eqb (r c) v); [|ring]. cbn [List.length]. change (S ?k) with (1 + k)%nat. rewrite qn_plus. replace (qn 1) with 1 by reflexivity. ring. }
    rewrite qsum_map_plus. f_equal. assert (Hv : In (r c) vs) by (apply H; left; auto). clear - ND Hv. induction vs as [|v vs IHv]; [destruct Hv|]. inversion ND; subst. cbn [map]. rewrite qsum_cons. destruct Hv as [->|Hv].
    + rewrite String.eqb_refl. rewrite (qsum_map_ext _ (fun _ => 0)). 2:{ intros w Hw. destruct (String.eqb_spec (r c) w) as [E|]; auto. subst. contradiction. } rewrite qconst. ring.
    + destruct (String.eqb_spec (r c) v) as [E|]; [subst; contradiction|]. rewrite <- IHv by auto. ring.
Qed.
Lemma agreeing_cons (l : list (string -> string)) c cs a : agreeing l (c :: cs) a = filter (fun r => String.eqb (r c) (a c)) (agreeing l cs a).
Proof. unfold agreeing. induction l as [|r l IH]; auto. simpl in *. destruct (forallb (fun c0 => String.eqb (r c0) (a c0)) cs) eqn:E; simpl; destruct (String.eqb (r c) (a c)) eqn:F; simpl; rewrite ?IH; auto. Qed.

Section Best.
  Context (structure : list (string * list string)) (df : frame) (n : nat) (OK : frame_ok df n) (SO : structure_ok structure df).
  Context (ops : list bop) (id : string -> Z) (vals : string -> list string).
  Notation N := (net_of ops).
  Notation pars := (parents_of structure).
  Notation R := (records df n).
  Context (W : well_shaped ops) (VV : forall c, In c (columns df) -> values_of df c (vals c)).
  Context (D : describes ops (columns df) id vals pars pars (fun c a => frequency R c (pars c) (List.length (vals c)) a)).
  Context (EN : forall c a, In c (columns df) -> okon (net_dom ops) (net_par ops (id c) ++ [id c]) a ->
      cpt_entry N (id c) a = frequency R c (pars c) (List.length (vals c)) (fun x => a (id x))).
  Context (N' : net) (HD : same_structure N N') (HP : no_negative N') (HS : stochastic N').
  Notation w := (world_of ops).
  Let wid := world_id structure df n ops id vals D.

  Lemma entry_nonneg i a : 0 <= cpt_entry N' i a.
  Proof using HP. unfold cpt_entry. destruct (nth_in_or_default (row_index (dom N') (par N' i ++ [i]) a) (cpt N' i) 0) as [H| ->]; [apply (HP i); auto|discriminate]. Qed.
  Lemma learned_entry r c : In r R -> In c (columns df) -> cpt_entry N (id c) (w r) = qn (List.length (agreeing R (c :: pars c) r)) / qn (List.length (agreeing R (pars c) r)).
  Proof using All.
    intros Hr Hc. destruct (pars_ok structure df SO c Hc) as [_ [I Nc]]. rewrite EN; auto.
    - rewrite (frequency_ext _ _ _ _ _ r). 2:{ intros x Hx. apply wid. destruct Hx as [<-|Hx]; auto. }
      unfold frequency, count. pose proof (agree_pos df n r (pars c) Hr) as P1. destruct (Nat.eqb_spec (List.length (agreeing R (pars c) r)) 0); [lia|reflexivity].
    - intros j Hj. apply (world_ok structure df n OK ops id vals VV D r Hr). apply in_app_or in Hj. destruct Hj as [Hj|[<-|[]]]; [|apply (id_vars structure df n ops id vals D); auto]. apply (ns_ends _ (net_shape ops W) j (id c) Hj).
  Qed.
  (** the records with the parents of one of them *)
  Lemma one_row r c : In r R -> In c (columns df) ->
    qsum (map (fun s => cpt_entry N' (id c) (w s) / qn (List.length (agreeing R (c :: pars c) s))) (agreeing R (pars c) r)) <= 1.
  Proof using All.
    intros Hr Hc. destruct (pars_ok structure df SO c Hc) as [_ [I Nc]]. destruct (VV c Hc) as [V1 [V2 V3]]. destruct HD as [HDv [HDd HDp]].
    set (A := agreeing R (pars c) r). set (K := fun v => List.length (filter (fun s => String.eqb (s c) v) A)). set (q := fun v => cpt_entry N' (id c) (upd (w r) (id c) v)).
    assert (HA : forall s, In s A -> In s R /\ forall p, In p (pars c) -> s p = r p).
    { intros s Hs. apply filter_In in Hs. destruct Hs as [S1 S2]. split; auto. rewrite forallb_forall in S2. intros p Hp. apply String.eqb_eq, S2, Hp. }
    rewrite (qsum_map_ext _ (fun s => (fun v => q v / qn (K v)) (s c))).
    2:{ intros s Hs. destruct (HA s Hs) as [S1 S2]. cbv beta. f_equal.
        - unfold q. apply cpt_dep. intros u Hu. rewrite HDp in Hu. apply in_app_or in Hu. destruct Hu as [Hu|[<-|[]]].
          + rewrite (par_id structure df n ops id vals D c Hc) in Hu. apply in_map_iff in Hu. destruct Hu as [p [<- Hp]]. unfold upd. destruct (Z.eqb_spec (id p) (id c)) as [E|]; [apply (ds_id _ _ _ _ _ _ _ D) in E; auto; subst; contradiction|]. rewrite !wid by auto. auto.
          + rewrite upd_eq, wid by auto. auto.
        - f_equal. f_equal. rewrite agreeing_cons. unfold K, A. rewrite (agreeing_ext R (pars c) s r); auto. }
    rewrite (by_cell A c (vals c) (fun v => q v / qn (K v)) V1) by (intros s Hs; apply (cells_in df n OK vals VV c s Hc), HA, Hs).
    apply Qcle_trans with (qsum (map q (vals c))).
    - apply qsum_le. intros v Hv. fold (K v). assert (Q0 : 0 <= q v) by apply entry_nonneg. destruct (K v) as [|k] eqn:EK.
      + rewrite qn_0. replace (0 * (q v / 0)) with 0 by ring. exact Q0.
      + replace (qn (S k) * (q v / qn (S k))) with (q v); [apply Qcle_refl|]. field. apply qn_neq0. lia.
    - assert (T := HS (id c) (w r)). rewrite HDd in T. rewrite (dom_id structure df n ops id vals D c Hc) in T. unfold q. rewrite T; [apply Qcle_refl| |].
      + rewrite HDv. apply (id_vars structure df n ops id vals D); auto.
      + intros u Hu. rewrite HDp in Hu. rewrite HDd. apply (world_ok structure df n OK ops id vals VV D r Hr). apply (ns_ends _ (net_shape ops W) u (id c) Hu).
  Qed.
  Lemma one_column c : In c (columns df) -> qprod (map (fun r => cpt_entry N' (id c) (w r)) R) <= qprod (map (fun r => cpt_entry N (id c) (w r)) R).
  Proof using All.
    intros Hc. set (x := fun r => cpt_entry N' (id c) (w r) * qn (List.length (agreeing R (pars c) r)) / qn (List.length (agreeing R (c :: pars c) r))).
    assert (PF : forall r, In r R -> qn (List.length (agreeing R (c :: pars c) r)) <> 0) by (intros r Hr; apply qn_neq0, agree_pos, Hr).
    assert (PP : forall r, In r R -> qn (List.length (agreeing R (pars c) r)) <> 0) by (intros r Hr; apply qn_neq0, agree_pos, Hr).
    assert (E : qprod (map (fun r => cpt_entry N' (id c) (w r)) R) = qprod (map x R) * qprod (map (fun r => cpt_entry N (id c) (w r)) R)).
    { rewrite <- qprod_map_mult. apply qprod_map_ext. intros r Hr. rewrite learned_entry by auto. unfold x. field. auto. }
    rewrite E. assert (B : qprod (map x R) <= 1).
    { apply (product_small n).
      - rewrite map_length. apply all_records.
      - intros z Hz. apply in_map_iff in Hz. destruct Hz as [r [<- Hr]]. unfold x. apply Qcle_0_mult. + apply Qcle_0_mult; [apply entry_nonneg|apply qn_nonneg]. + apply inv_nonneg, qn_pos, agree_pos, Hr.
      - rewrite (qsum_map_ext _ (fun r => qsum (map (fun s => if forallb (fun p => String.eqb (r p) (s p)) (pars c) then cpt_entry N' (id c) (w r) / qn (List.length (agreeing R (c :: pars c) r)) else 0) R))).
        2:{ intros r Hr. unfold x. transitivity (qsum (map (fun _ => cpt_entry N' (id c) (w r) / qn (List.length (agreeing R (c :: pars c) r))) (agreeing R (pars c) r))).
            - rewrite qconst. field. auto.
            - assert (AG : agreeing R (pars c) r = filter (fun s => forallb (fun p => String.eqb (s p) (r p)) (pars c)) R) by reflexivity. rewrite AG, qsum_filter. clear AG. apply qsum_map_ext. intros s _. assert (F : forall l, forallb (fun p => String.eqb (s p) (r p)) l = forallb (fun p => String.eqb (r p) (s p)) l) by (induction l as [|p l IH]; auto; cbn [forallb]; rewrite IH, String.eqb_sym; auto). rewrite F. reflexivity. }
        rewrite qsum_swap. apply Qcle_trans with (qsum (map (fun _ : string -> string => 1) R)).
        + apply qsum_le. intros r Hr. rewrite <- qsum_filter. apply one_row; auto.
        + rewrite qconst, all_records. rewrite Qcmult_1_r. apply Qcle_refl. }
    apply Qcle_trans with (1 * qprod (map (fun r => cpt_entry N (id c) (w r)) R)); [|rewrite Qcmult_1_l; apply Qcle_refl]. apply Qcmult_le_compat_r; auto.
    apply qprod_nonneg. intros z Hz. apply in_map_iff in Hz. destruct Hz as [r [<- Hr]]. rewrite learned_entry by auto. apply Qcle_0_mult; [apply qn_nonneg|]. apply inv_nonneg, qn_pos, agree_pos, Hr.
  Qed.
  Lemma best : data_probability N' (net_name ops) R <= data_probability N (net_name ops) R.
  Proof using All.
    unfold data_probability. assert (E : forall M, qprod (map (fun r => weight M no_evidence (fun i => r (net_name ops i))) R) = qprod (map (fun v => qprod (map (fun r => cpt_entry M v (w r)) R)) (vars M))).
    { intros M. rewrite <- qprod_swap. apply qprod_map_ext. intros r _. apply weight_prior. }
    rewrite !E. destruct HD as [HDv _]. rewrite HDv. apply qprod_le.
    - intros i _. apply qprod_nonneg. intros z Hz. apply in_map_iff in Hz. destruct Hz as [r [<- _]]. apply entry_nonneg.
    - intros i Hi. apply (vars_id structure df n ops id vals D) in Hi. destruct Hi as [c [Hc ->]]. apply one_column; auto.
  Qed.
End Best.
Theorem c117 structure df n : frame_ok df n -> structure_ok structure df -> acyclic (cell_in df) -> (forall c, In c (columns df) -> by_name (parents_of structure c)) ->
  exists ops id vals, from_data structure df = Ok (build ops) /\
    describes ops (columns df) id vals (parents_of structure) (parents_of structure) (fun c a => frequency (records df n) c (parents_of structure c) (List.length (vals c)) a) /\
    forall N', same_structure (net_of ops) N' -> no_negative N' -> stochastic N' ->
      data_probability N' (net_name ops) (records df n) <= data_probability (net_of ops) (net_name ops) (records df n).
Proof.
  intros OK SO HA HB. destruct (c37_partial' structure df n OK SO HA HB) as (ops & id & vals & E & W & VV & D & EN). exists ops, id, vals. split; auto. split; auto.
  intros N' H1 H2 H3. apply (best structure df n OK SO ops id vals W VV D EN N' H1 H2 H3).
Qed.

(** one half everywhere *)
Definition halves (N : net) : net := mkNet (vars N) (dom N) (par N) (fun i => map (fun _ => qfrac 1 2) (cpt N i)).
Lemma halves_same N : same_structure N (halves N).
Proof. split; [reflexivity|]. split; intros; reflexivity. Qed.
Lemma halves_pos N : no_negative (halves N).
Proof. intros i q H. apply in_map_iff in H. destruct H as [x [<- _]]. discriminate. Qed.
