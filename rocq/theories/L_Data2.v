(** Networks from data frames: the tables. *)
From Verif Require Import Py M_Graph M_Node M_Factory Spec SpecNet SpecFactory L_Base L_Table L_Build L_Apply L_Samp L_Samp2 L_P8 L_Plain L_Fac L_Lib L_Serde L_Kahn L_Gauss2 L_Data.
Open Scope nat_scope.

Lemma tiny : qfrac 1 100000 <> 0%Qc.
Proof. intros H. apply (f_equal (fun x => Qnum (this x))) in H. vm_compute in H. discriminate. Qed.
Lemma foldM_app_rows {A} (f : A -> res (list Qc)) (F : A -> list Qc) l : (forall x, In x l -> f x = Ok (F x)) -> forall acc,
  foldM (fun acc x => r <- f x ;; Ok (acc ++ r)) l acc = Ok (acc ++ flat_map F l).
Proof.
  induction l as [|x t IH]; intros H acc; cbn [foldM flat_map]; [rewrite app_nil_r; reflexivity|]. rewrite H by (left; reflexivity). cbn [rbind]. rewrite IH by (intros; apply H; right; assumption). rewrite app_assoc. reflexivity.
Qed.
Lemma foldM_dset {A V} (k : A -> string) (g : A -> V) (step : list (string * V) -> A -> res (list (string * V))) l :
  (forall d x, In x l -> step d x = Ok (dset d (k x) (g x))) -> NoDup (map k l) -> foldM step l [] = Ok (map (fun x => (k x, g x)) l).
Proof.
  intros H ND. rewrite (foldM_ext step (fun d x => Ok (dset d (k x) (g x)))) by (intros; apply H; assumption). rewrite foldM_pure. f_equal. apply fold_dset_nil, ND.
Qed.

Section Tables.
  Context (df : frame) (n : nat) (OK : frame_ok df n).
  Let recs := records df n.
  Let N := qn n.
  Let ND : NoDup (columns df) := proj1 (fo_cols _ _ OK).

  Definition raw (c : string) (ps vs : list string) (v : string) : Qc :=
    let numer := (qn (rows_with df ((c, v) :: combine ps vs)) / qn (n_rows df))%Qc in
    let denom := (qn (rows_with df (combine ps vs)) / qn (n_rows df))%Qc in
    if qeqb denom 0%Qc then qfrac 1 100000 else (numer / denom)%Qc.
  Definition dF (c : string) (ps vs : list string) : list Qc :=
    match ps with
    | [] => map (fun v => (qn (rows_with df [(c, v)]) / qn (n_rows df))%Qc) (cvals df c)
    | _ => let probs := map (raw c ps vs) (cvals df c) in map (fun p => (p / qsum probs)%Qc) probs
    end.

  Lemma query_ok q : q <> [] -> (forall c v, In (c, v) q -> In c (columns df) /\ In v (cells df c)) -> query df q = Ok (rows_with df q).
  Proof using OK.
    intros Hq H. unfold query. destruct q as [|x t]; [congruence|]. set (q := x :: t) in *. assert (E : forallb (fun nv => identifier (fst nv) && plain_text (snd nv)) q = true); [|rewrite E; reflexivity].
    apply forallb_forall. intros [c v] Hc. destruct (H c v Hc) as [H1 H2]. cbn [fst snd]. rewrite (fo_ident _ _ OK c H1), (fo_text _ _ OK c v H2). reflexivity.
  Qed.
  Lemma combine_combination ps vs : combination (cvals df) ps vs -> forall c v, In (c, v) (combine ps vs) -> In c ps /\ In v (cells df c).
  Proof.
    intros H c v Hc. split; [apply in_combine_l in Hc; exact Hc|]. induction H as [|p x ps vs Hx Ht IH]; [destruct Hc|]. destruct Hc as [E|Hc]; [|apply IH, Hc]. inversion E; subst. apply cvals_In, Hx.
  Qed.
  Lemma domains_spec parents : NoDup parents -> incl parents (columns df) ->
    isort (fun a b => str_leb (fst a) (fst b)) (filter (fun kv => mem (fst kv) (isort str_leb parents)) (map (fun c => (c, cvals df c)) (columns df))) =
    map (fun c => (c, cvals df c)) (isort str_leb parents).
  Proof using OK.
    intros NP IP. assert (E : filter (fun kv => mem (fst kv) (isort str_leb parents)) (map (fun c => (c, cvals df c)) (columns df)) = map (fun c => (c, cvals df c)) (filter (fun c => mem c (isort str_leb parents)) (columns df))).
    { generalize (columns df). intros l. induction l as [|c t IH]; [reflexivity|]. cbn [map filter fst]. destruct (mem c (isort str_leb parents)); cbn [map]; rewrite IH; reflexivity. }
    rewrite E. rewrite (isort_map (fun c => (c, cvals df c)) str_leb) by reflexivity. f_equal. apply by_name_unique; try apply by_name_isort.
    eapply Permutation_trans; [apply isort_perm|]. apply NoDup_Permutation; [apply NoDup_filter, ND|eapply Permutation_NoDup; [apply Permutation_sym, isort_perm|exact NP]|].
    intros c. rewrite filter_In, mem_In, isort_In. split; [tauto|]. intros H. split; [apply IP, H|exact H].
  Qed.
  Lemma profile_get c : In c (columns df) -> dgetE (map (fun c => (c, cvals df c)) (columns df)) c = Ok (cvals df c).
  Proof using OK.
    intros Hc. unfold dgetE. rewrite (In_dget (map (fun c => (c, cvals df c)) (columns df)) c (cvals df c)); [reflexivity| |].
    - unfold dkeys. rewrite map_map, map_id. exact ND.
    - apply in_map_iff. exists c. auto.
  Qed.
  Lemma get_cpt_spec c parents : In c (columns df) -> NoDup parents -> incl parents (columns df) ->
    get_cpt c parents (get_profile df) df = Ok (flat_map (dF c (isort str_leb parents)) (cartesian (map (cvals df) (isort str_leb parents)))).
  Proof using OK.
    intros Hc NP IP. unfold get_cpt. rewrite profile_spec by exact ND. rewrite profile_sorted. rewrite profile_get by exact Hc. cbn [rbind].
    pose proof (domains_spec parents NP IP) as DS. assert (IP' : incl (isort str_leb parents) (columns df)) by (intros x Hx; apply isort_In in Hx; apply IP, Hx).
    destruct (isort str_leb parents) as [|p0 ps0] eqn:Ep.
    - cbn [map cartesian flat_map dF]. rewrite app_nil_r. reflexivity.
    - set (ps := p0 :: ps0) in *. change (if false then ?x else ?y) with y in DS. cbv zeta. rewrite DS. rewrite !map_map. cbn [fst snd]. rewrite map_id.
      rewrite (foldM_ext _ (fun acc vs => r <- Ok (dF c ps vs) ;; Ok (acc ++ r))).
      + rewrite (foldM_app_rows (fun vs => Ok (dF c ps vs)) (dF c ps)); [reflexivity|]. intros; reflexivity.
      + intros acc vs Hvs. apply cartesian_combination in Hvs. pose proof (combine_combination ps vs Hvs) as CC.
        assert (Nq : combine ps vs <> []). { unfold ps in *. unfold combination in Hvs. inversion Hvs; subst. discriminate. }
        rewrite (mapM_all _ (raw c ps vs)).
        * cbn [rbind]. unfold dF, ps. reflexivity.
        * intros v Hv. rewrite query_ok.
          -- cbn [rbind]. rewrite query_ok; [reflexivity|exact Nq|]. intros d w Hd. destruct (CC d w Hd). split; [apply IP'; assumption|assumption].
          -- discriminate.
          -- intros d w [E|Hd]; [inversion E; subst; split; [exact Hc|apply cvals_In, Hv]|]. destruct (CC d w Hd). split; [apply IP'; assumption|assumption].
  Qed.

  Lemma dF_length c ps vs : List.length (dF c ps vs) = List.length (cvals df c).
  Proof. unfold dF. destruct ps; cbv zeta; rewrite !map_length; reflexivity. Qed.
  Lemma raw_nonneg c ps vs v : (0 <= raw c ps vs v)%Qc.
  Proof. unfold raw. destruct (qeqb _ _); [discriminate|]. repeat apply qdiv_nonneg; apply qn_nonneg. Qed.
  Lemma dF_nonneg c ps vs q : In q (dF c ps vs) -> (0 <= q)%Qc.
  Proof.
    unfold dF. destruct ps; cbv zeta; intros H; apply in_map_iff in H; destruct H as (x & <- & Hx).
    - apply qdiv_nonneg; apply qn_nonneg.
    - apply qdiv_nonneg.
      + apply in_map_iff in Hx. destruct Hx as (v & <- & _). apply raw_nonneg.
      + apply qsum_nonneg. intros y Hy. apply in_map_iff in Hy. destruct Hy as (v & <- & _). apply raw_nonneg.
  Qed.

  Lemma nth_pos_map (f : string -> Qc) l x : In x l -> nth (pos x l) (map f l) 0%Qc = f x.
  Proof.
    induction l as [|y t IH]; intros H; [destruct H|]. cbn [pos map]. destruct (String.eqb_spec x y) as [->|Ne]; [reflexivity|]. destruct H as [->|H]; [congruence|]. apply IH, H.
  Qed.
  Lemma combine_map {A B} (f : A -> B) l : combine l (map f l) = map (fun x => (x, f x)) l.
  Proof. induction l as [|x t IH]; [reflexivity|]. cbn [map combine]. rewrite IH. reflexivity. Qed.

  Lemma raw_spec c ps a v : In c (columns df) -> incl ps (columns df) -> ~ In c ps ->
    raw c ps (map a ps) v = if Nat.eqb (List.length (agreeing recs ps a)) 0 then qfrac 1 100000
                            else (qn (List.length (agreeing recs (c :: ps) (fun x => if String.eqb x c then v else a x))) / qn (List.length (agreeing recs ps a)))%Qc.
  Proof using OK.
    intros Hc Hp Nc. unfold raw. rewrite combine_map. rewrite (n_rows_n df n OK).
    assert (E : (c, v) :: map (fun x => (x, a x)) ps = map (fun x => (x, if String.eqb x c then v else a x)) (c :: ps)).
    { cbn [map]. rewrite String.eqb_refl. f_equal. apply map_ext_in. intros x Hx. destruct (String.eqb_spec x c) as [->|]; [contradiction|reflexivity]. }
    rewrite E. rewrite (rows_with_count df n OK (c :: ps) (fun x => if String.eqb x c then v else a x)) by (intros x [<-|Hx]; [exact Hc|apply Hp, Hx]). rewrite (rows_with_count df n OK ps a Hp). fold recs. fold N.
    assert (HN : N <> 0%Qc) by (apply qn_neq0, (fo_some _ _ OK)).
    destruct (Nat.eqb_spec (List.length (agreeing recs ps a)) 0) as [Z|Z].
    - rewrite Z. replace (qn 0 / N)%Qc with 0%Qc by (rewrite qn_0; field; exact HN). reflexivity.
    - assert (HD : qn (List.length (agreeing recs ps a)) <> 0%Qc) by (apply qn_neq0; lia).
      destruct (qeqb (qn (List.length (agreeing recs ps a)) / N) 0) eqn:Q.
      + exfalso. apply qeqb_true in Q. apply HD. transitivity ((qn (List.length (agreeing recs ps a)) / N) * N)%Qc; [field; exact HN|]. rewrite Q. ring.
      + field. split; assumption.
  Qed.
  Lemma qsum_const {A} (e : Qc) (l : list A) : qsum (map (fun _ => e) l) = (qn (List.length l) * e)%Qc.
  Proof. induction l as [|x t IH]; cbn [map List.length]; [rewrite qsum_nil, qn_0; ring|]. rewrite qsum_cons, IH. rewrite (qn_plus 1). change (qn 1) with 1%Qc. ring. Qed.

  Lemma dF_entry c ps a : In c (columns df) -> incl ps (columns df) -> ~ In c ps -> In (a c) (cvals df c) ->
    nth (pos (a c) (cvals df c)) (dF c ps (map a ps)) 0%Qc = frequency recs c ps (List.length (cvals df c)) a.
  Proof using OK.
    intros Hc Hp Nc Ha. unfold frequency, count. destruct ps as [|p ps'] eqn:Eps.
    - cbn [dF]. rewrite nth_pos_map by exact Ha. rewrite (n_rows_n df n OK). fold N.
      pose proof (rows_with_count df n OK [c] a) as R. cbn [map] in R. rewrite R by (intros x [<-|[]]; exact Hc). fold recs.
      assert (A : agreeing recs [] a = recs). { unfold agreeing. generalize recs. intros l. induction l as [|r t IH]; [reflexivity|]. cbn [filter forallb]. f_equal. exact IH. }
      rewrite A. assert (L : List.length recs = n) by (unfold recs, records; rewrite map_length, seq_length; reflexivity). rewrite L. pose proof (fo_some _ _ OK). destruct (Nat.eqb_spec n 0); [lia|reflexivity].
    - rewrite <- Eps in *. assert (D : dF c ps (map a ps) = map (fun q => (q / qsum (map (raw c ps (map a ps)) (cvals df c)))%Qc) (map (raw c ps (map a ps)) (cvals df c))) by (rewrite Eps; reflexivity).
      rewrite D, map_map. rewrite nth_pos_map by exact Ha. rewrite (map_ext (raw c ps (map a ps)) _ (fun v => raw_spec c ps a v Hc Hp Nc)). rewrite raw_spec by assumption.
      destruct (Nat.eqb_spec (List.length (agreeing recs ps a)) 0) as [Z|Z].
      + rewrite qsum_const. assert (Hk : qn (List.length (cvals df c)) <> 0%Qc). { apply qn_neq0. destruct (cvals df c); [destruct Ha|cbn; lia]. }
        pose proof tiny. field. split; assumption.
      + assert (HD : qn (List.length (agreeing recs ps a)) <> 0%Qc) by (apply qn_neq0; lia).
        assert (T : qsum (map (fun v => (qn (List.length (agreeing recs (c :: ps) (fun x => if String.eqb x c then v else a x))) / qn (List.length (agreeing recs ps a)))%Qc) (cvals df c)) = 1%Qc).
        { unfold Qcdiv. rewrite qsum_map_mult_r. rewrite count_partition; [|apply cvals_NoDup|intros r Hr; apply (recs_cell df n OK); assumption|exact Nc]. field. exact HD. }
        rewrite T.
        assert (EA : agreeing recs (c :: ps) (fun x => if String.eqb x c then a c else a x) = agreeing recs (c :: ps) a). { apply agreeing_ext. intros x _. destruct (String.eqb_spec x c) as [->|]; reflexivity. }
        rewrite EA. unfold Qcdiv at 1. replace (/ 1)%Qc with 1%Qc by reflexivity. ring.
  Qed.
End Tables.

Section FromData.
  Context (structure : list (string * list string)) (df : frame) (n : nat) (OK : frame_ok df n) (SO : structure_ok structure df).
  Let ND : NoDup (columns df) := proj1 (fo_cols _ _ OK).
  Let pars := parents_of structure.
  Let rows (c : string) := isort str_leb (pars c).
  Lemma pars_In c ps : In (c, ps) structure -> pars c = ps.
  Proof using SO. intros H. unfold pars, parents_of. rewrite (In_dget structure c ps (proj1 (so_keys _ _ SO)) H). reflexivity. Qed.
  Lemma pars_ok c : In c (columns df) -> NoDup (pars c) /\ incl (pars c) (columns df) /\ ~ In c (pars c).
  Proof using SO.
    intros H. apply (proj2 (so_keys _ _ SO)) in H. apply in_map_iff in H. destruct H as ([c' ps] & E & H). cbn in E. subst c'. rewrite (pars_In c ps H). apply (so_pars _ _ SO c ps H).
  Qed.
  Context (id : string -> Z).
  Definition dnode (c : string) : bnode := new_node (id c) c (cvals df c) (flat_map (dF df c (rows c)) (cartesian (map (cvals df) (rows c)))).

  Lemma from_data_ops n2i : data_n2i df = Ok n2i -> (forall c, In c (columns df) -> dgetE n2i c = Ok (id c)) ->
    from_data structure df = Ok (build (plain_ops (map dnode (columns df)) (flat_map (fun c => map (fun p => (dnode p, dnode c)) (pars c)) (map fst structure)))).
  Proof using OK SO.
    intros E1 E2. unfold from_data. cbv zeta. rewrite E1. cbn [rbind].
    assert (C1 : forall c ps, In (c, ps) structure -> In c (columns df)). { intros c ps H. apply (proj2 (so_keys _ _ SO)). apply in_map_iff. exists (c, ps). auto. }
    rewrite (foldM_dset (fun kv : string * list string => fst kv) (fun kv => flat_map (dF df (fst kv) (rows (fst kv))) (cartesian (map (cvals df) (rows (fst kv)))))).
    2:{ intros d [c ps] H. cbn [fst snd]. destruct (so_pars _ _ SO c ps H) as (P1 & P2 & P3). rewrite (get_cpt_spec df n OK c ps (C1 c ps H) P1 P2). cbn [rbind]. unfold rows. rewrite (pars_In c ps H). reflexivity. }
    2:{ apply (so_keys _ _ SO). }
    cbn [rbind]. rewrite profile_spec by exact ND.
    rewrite (foldM_dset (fun kv : string * list string => fst kv) (fun kv => dnode (fst kv))).
    2:{ intros d kv H. apply in_map_iff in H. destruct H as (c & <- & Hc). cbn [fst snd]. rewrite E2 by exact Hc. cbn [rbind].
        assert (G : dgetE (map (fun x : string * list string => (fst x, flat_map (dF df (fst x) (rows (fst x))) (cartesian (map (cvals df) (rows (fst x)))))) structure) c = Ok (flat_map (dF df c (rows c)) (cartesian (map (cvals df) (rows c))))).
        { unfold dgetE. apply (proj2 (so_keys _ _ SO)) in Hc. apply in_map_iff in Hc. destruct Hc as ([c' ps] & E & H). cbn in E. subst c'.
          rewrite (In_dget _ c (flat_map (dF df c (rows c)) (cartesian (map (cvals df) (rows c))))); [reflexivity| |].
          - unfold dkeys. rewrite map_map. cbn [fst]. apply (so_keys _ _ SO).
          - apply in_map_iff. exists (c, ps). auto. }
        rewrite G. reflexivity. }
    2:{ rewrite map_map, map_id. exact ND. }
    cbn [rbind]. rewrite map_map. cbn [fst snd].
    assert (Find : forall c, In c (columns df) -> dgetE (map (fun x => (x, dnode x)) (columns df)) c = Ok (dnode c)).
    { intros c Hc. unfold dgetE. rewrite (In_dget _ c (dnode c)); [reflexivity| |]. { unfold dkeys. rewrite map_map, map_id. exact ND. } apply in_map_iff. exists c. auto. }
    rewrite <- assemble_build. unfold assemble. unfold dvals at 1. rewrite map_map. cbn [snd].
    assert (G : forall l, incl l structure -> forall b, foldM (fun b kv => ch <- dgetE (map (fun x => (x, dnode x)) (columns df)) (fst kv) ;;
         foldM (fun b pa => p <- dgetE (map (fun x => (x, dnode x)) (columns df)) pa ;; Ok (bbn_add_edge b (mkEdge p ch DIRECTED))) (snd kv) b) l b =
       Ok (fold_left (fun b e => bbn_add_edge b (mkEdge (fst e) (snd e) DIRECTED)) (flat_map (fun c => map (fun p => (dnode p, dnode c)) (pars c)) (map fst l)) b)).
    { induction l as [|[c ps] t IH]; intros Hl b; [reflexivity|]. cbn [foldM map flat_map fst snd]. assert (Hin : In (c, ps) structure) by (apply Hl; left; reflexivity).
      rewrite Find by (apply (C1 c ps Hin)). cbn [rbind]. rewrite fold_left_app. rewrite (pars_In c ps Hin).
      destruct (so_pars _ _ SO c ps Hin) as (_ & P2 & _).
      assert (I : forall qs, incl qs (columns df) -> forall b, foldM (fun b pa => p <- dgetE (map (fun x => (x, dnode x)) (columns df)) pa ;; Ok (bbn_add_edge b (mkEdge p (dnode c) DIRECTED))) qs b =
         Ok (fold_left (fun b e => bbn_add_edge b (mkEdge (fst e) (snd e) DIRECTED)) (map (fun p => (dnode p, dnode c)) qs) b)).
      { induction qs as [|q qs IHq]; intros Hq b0; [reflexivity|]. cbn [foldM map fold_left fst snd]. rewrite Find by (apply Hq; left; reflexivity). cbn [rbind]. apply IHq. intros x Hx. apply Hq. right. exact Hx. }
      rewrite (I ps P2). cbn [rbind]. apply IH. intros x Hx. apply Hl. right. exact Hx. }
    apply (G structure (incl_refl _)).
  Qed.
End FromData.

(** The tables are laid out for the parents in name order, whatever their order in the structure. *)
Theorem c37_table structure df n : frame_ok df n -> structure_ok structure df -> acyclic (cell_in df) ->
  exists ops id vals, from_data structure df = Ok (build ops) /\ well_shaped ops /\ (forall c, In c (columns df) -> values_of df c (vals c)) /\
    describes ops (columns df) id vals (parents_of structure) (fun c => isort str_leb (parents_of structure c))
      (fun c a => frequency (records df n) c (parents_of structure c) (List.length (vals c)) a).
Proof.
  intros OK SO HA. destruct (data_n2i_spec df (proj1 (fo_cols _ _ OK))) as [D _]. destruct (D HA) as (n2i & id & E1 & E2 & E3).
  set (pars := parents_of structure). set (rows := fun c => isort str_leb (pars c)).
  pose proof (from_data_ops structure df n OK SO id n2i E1 E2) as E. fold pars in E.
  set (ns := map (dnode structure df id) (columns df)) in *.
  assert (PO := pars_ok structure df SO). fold pars in PO.
  assert (HW : Permutation (map fst structure) (columns df)). { destruct (so_keys _ _ SO) as [S1 S2]. apply NoDup_Permutation; [exact S1|apply (fo_cols _ _ OK)|exact S2]. }
  assert (HF : forall c vs, In c (columns df) -> In vs (cartesian (map (cvals df) (rows c))) -> List.length (dF df c (rows c) vs) = List.length (cvals df c) /\ forall q, In q (dF df c (rows c) vs) -> (0 <= q)%Qc).
  { intros c vs _ _. split; [apply dF_length|]. intros q. apply dF_nonneg. }
  assert (Hv : forall c, In c (columns df) -> NoDup (cvals df c) /\ cvals df c <> []).
  { intros c Hc. split; [apply cvals_NoDup|]. pose proof (cells_len df n OK c Hc) as L. pose proof (fo_some _ _ OK). intros Z. destruct (cells df c) as [|x t] eqn:Ec; [cbn in L; lia|].
    assert (X : In x (cvals df c)) by (apply cvals_In; rewrite Ec; left; reflexivity). rewrite Z in X. destruct X. }
  assert (HR : forall c, In c (columns df) -> Permutation (rows c) (pars c)) by (intros c _; apply isort_perm).
  eexists _, id, (cvals df). split; [exact E|]. split; [|split].
  - apply (named_shaped (columns df) (map fst structure) id (cvals df) pars rows (fun c => dF df c (rows c)) ns); auto; apply (fo_cols _ _ OK).
  - intros c _. apply cvals_spec.
  - pose proof (named_describes (columns df) (map fst structure) id (cvals df) pars rows (fun c => dF df c (rows c)) ns (proj1 (fo_cols _ _ OK)) HW (Permutation_refl _) E3 PO HR HF) as D'.
    destruct D' as [D1 D2 D3 D4 D5 D6 D7 D8]. constructor; auto. intros c a Hc Ha. etransitivity; [exact (D8 c a Hc Ha)|]. clear D8.
    destruct (PO c Hc) as (P1 & P2 & P3). set (a' := fun x => a (id x)).
    assert (Hac : In (a' c) (cvals df c)). { assert (X := Ha (id c)). assert (Y : In (id c) (map id (rows c) ++ [id c])) by (apply in_or_app; right; left; reflexivity). specialize (X Y). exact (eq_rect _ (fun l => In (a (id c)) l) X _ (D4 c Hc)). }
    etransitivity.
    { apply (dF_entry df n OK c (rows c) a' Hc); [intros x Hx; apply P2, (Permutation_in _ (HR c Hc) Hx)|intros H; apply P3, (Permutation_in _ (HR c Hc) H)|exact Hac]. }
    unfold frequency, count. rewrite !(agreeing_perm _ (rows c) (pars c)) by apply HR, Hc. rewrite (agreeing_perm _ (c :: rows c) (c :: pars c)) by (constructor; apply HR, Hc). reflexivity.
Qed.
Theorem c37_fails structure df n : frame_ok df n -> ~ acyclic (cell_in df) -> from_data structure df = Err NetworkXError.
Proof.
  intros OK HA. destruct (data_n2i_spec df (proj1 (fo_cols _ _ OK))) as [_ D]. unfold from_data. cbv zeta. rewrite (D HA). reflexivity.
Qed.
Theorem c37_partial structure df n : frame_ok df n -> structure_ok structure df -> acyclic (cell_in df) ->
  (forall c, In c (columns df) -> by_name (parents_of structure c)) ->
  exists ops id vals, from_data structure df = Ok (build ops) /\ well_shaped ops /\ (forall c, In c (columns df) -> values_of df c (vals c)) /\
    describes ops (columns df) id vals (parents_of structure) (parents_of structure)
      (fun c a => frequency (records df n) c (parents_of structure c) (List.length (vals c)) a).
Proof.
  intros OK SO HA HB. destruct (c37_table structure df n OK SO HA) as (ops & id & vals & E & W & VV & [D1 D2 D3 D4 D5 D6 D7 D8]). exists ops, id, vals. split; [exact E|]. split; [exact W|]. split; [exact VV|].
  assert (S : forall c, In c (columns df) -> isort str_leb (parents_of structure c) = parents_of structure c) by (intros c Hc; apply isort_by_name, HB, Hc).
  constructor; auto.
  - intros c Hc. rewrite D7 by exact Hc. rewrite S by exact Hc. reflexivity.
  - intros c a Hc Ha. rewrite <- (D8 c a Hc); rewrite S by exact Hc; auto.
Qed.
