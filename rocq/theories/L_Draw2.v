(** The generator with its hyperparameters: whole networks. *)
From Verif Require Import Py M_Graph M_Node M_Pptc M_Nx M_Gen Spec SpecNet SpecEv SpecPot SpecNx SpecSamp L_Base L_Sums L_Table L_PD L_Forest L_UG L_Ids L_Build L_Check L_Apply L_Samp L_Samp2 L_P1 L_Nx L_Gen L_Gen2 M_GenAlpha SpecDraw L_Draw.
Open Scope nat_scope.

Section Gen.
  Context (rvs : Z -> nat -> list Z -> list Qc) (A : Z) (HA : (1 <= A)%Z).
  Context (HR : forall i k al, 2 <= List.length al -> Forall (fun a => 1 <= a <= A)%Z al -> prob_vector (List.length al) (rvs i k al)).

  Lemma full_ok n g mv draws s : n <> 0 -> mv <> 0 -> Forall (fun a => 1 <= a <= A)%Z s -> dgood g -> dg_nodes g = upto n -> connected_on (dg_nodes g) (dg_edges g) -> acyclic (E g) ->
    match generate_parameters_a rvs g mv A draws s with
    | Ok (p, s') => (exists ops, convert_for_exact_inference g p = Ok (build ops) /\ valid_net n (dg_edges g) ops) /\
        exists T : list (Z * list (list Z)), map fst T = dg_nodes g /\ s = List.concat (flat_map snd T) ++ s' /\ forall i bl, In (i, bl) T -> exists x, dget p i = Some x /\ drawn_with rvs A i x bl
    | Err x => x = OutOfFuel end.
  Proof using HA HR.
    intros Hn Hm F G HN HC HAc. assert (HD : NoDup (dg_nodes g)). { rewrite HN. unfold upto. apply FinFun.Injective_map_NoDup; [intros a b Q; apply Nat2Z.inj; auto|apply seq_NoDup]. }
    pose proof (generated_valid n g (fun _ _ m => point m) mv draws Hn Hm (fun _ _ m H => point_ok m H) G HN HC HAc) as K0. unfold generate_parameters_a. unfold generate_parameters in K0.
    pose proof (num_values_ok (List.length (dg_nodes g)) mv draws Hm) as Hv. destruct (num_values (List.length (dg_nodes g)) mv draws) as [nv|x] eqn:Env; cbn [rbind] in *; auto. destruct Hv as [V1 V2].
    change (match foldM (fullf rvs A g nv) (dg_nodes g) ([], s) with
    | Ok (p, s') => (exists ops, convert_for_exact_inference g p = Ok (build ops) /\ valid_net n (dg_edges g) ops) /\
        exists T : list (Z * list (list Z)), map fst T = dg_nodes g /\ s = List.concat (flat_map snd T) ++ s' /\ forall i bl, In (i, bl) T -> exists x, dget p i = Some x /\ drawn_with rvs A i x bl
    | Err x => x = OutOfFuel end).
    assert (P0 : exists d1, foldM (plainf g nv (fun _ _ m => point m)) (dg_nodes g) [] = Ok d1).
    { change (match foldM (plainf g nv (fun _ _ m => point m)) (dg_nodes g) [] with Ok p => exists ops, convert_for_exact_inference g p = Ok (build ops) /\ valid_net n (dg_edges g) ops | Err x => x = OutOfFuel end) in K0.
      rewrite HN, upto_length in V1. pose proof (params_fold n g nv G HN V1 V2 (fun _ _ m => point m)) as PF. eexists. exact PF. }
    destruct P0 as (d1 & P0). pose proof (full_plain rvs A HA g nv V2 (dg_nodes g) _ _ _ [] s F P0) as FP.
    destruct (foldM (fullf rvs A g nv) (dg_nodes g) ([], s)) as [[p s']|x] eqn:Ef; auto. split; [|apply (full_rows rvs A HA g nv V2 (dg_nodes g) [] s p s' F Ef HD)].
    destruct FP as (T & T1 & T2 & T3 & T4). set (dir := dir_of (map (fun x => (fst x, rows_of rvs (fst x) 0 (snd x))) T)).
    assert (Hk : forall i bl, In (i, bl) T -> dget (map (fun x => (fst x, rows_of rvs (fst x) 0 (snd x))) T) i = Some (rows_of rvs i 0 bl)).
    { assert (HD' : NoDup (map fst T)) by (rewrite T1; exact HD). clear - HD'. induction T as [|[j b] T IH]; intros i bl H; [destruct H|]. cbn [map fst snd dget]. inversion HD' as [|? ? Hx Hy]; subst. destruct (eqb_spec i j) as [->|D].
      - destruct H as [Q|H]; [injection Q as <-; reflexivity|]. exfalso. apply Hx. apply (in_map fst) in H. exact H.
      - destruct H as [Q|H]; [injection Q as -> <-; congruence|]. apply IH; auto. }
    assert (Hd : forall i k m, 2 <= m -> prob_vector m (dir i k m)).
    { intros i k m Hm2. unfold dir, dir_of. destruct (dget _ i) as [R|] eqn:ER; [|apply point_ok; auto]. destruct (nth_error R k) as [r|] eqn:Er; [|apply point_ok; auto]. destruct (Nat.eqb_spec (List.length r) m) as [L|]; [|apply point_ok; auto].
      assert (X : exists bl, In (i, bl) T /\ R = rows_of rvs i 0 bl). { clear - ER. induction T as [|[j b] T IH]; [discriminate|]. cbn [map fst snd dget] in ER. destruct (eqb_spec i j) as [->|]; [injection ER as <-; exists b; split; auto; left; auto|]. destruct (IH ER) as (bl & B1 & B2). exists bl. split; auto. right. auto. }
      destruct X as (bl & B1 & ->). rewrite rows_nth in Er. destruct (nth_error bl k) as [al|] eqn:Ek; [|discriminate]. injection Er as <-. destruct (T4 i bl B1 al (nth_error_In _ _ Ek)) as [L1 L2].
      pose proof (HR i k al L1 L2) as PV. cbn [Nat.add] in *. destruct PV as (Q1 & Q2 & Q3). rewrite <- L. split; [|split]; auto. }
    pose proof (generated_valid n g dir mv draws Hn Hm Hd G HN HC HAc) as K. unfold generate_parameters in K. rewrite Env in K. cbn [rbind] in K.
    change (match foldM (plainf g nv dir) (dg_nodes g) [] with Ok p => exists ops, convert_for_exact_inference g p = Ok (build ops) /\ valid_net n (dg_edges g) ops | Err x => x = OutOfFuel end) in K.
    rewrite T3 in K; [exact K|]. intros i bl Hb k al Ek. unfold dir, dir_of. rewrite (Hk i bl Hb), rows_nth, Ek. cbn [Nat.add]. destruct (T4 i bl Hb al (nth_error_In _ _ Ek)) as [L1 L2]. destruct (HR i k al L1 L2) as (Q1 & _). rewrite Q1, Nat.eqb_refl. reflexivity.
  Qed.
End Gen.

Theorem c108_multi rvs n max_iter max_values A ints draws alphas : n <> 0 -> max_values <> 0 -> draws_ok rvs A n ints alphas ->
  match generate_multi_bbn_a rvs n max_iter max_values A ints draws alphas with
  | Ok (g, p, rest) => (exists ops, convert_for_exact_inference g p = Ok (build ops) /\ valid_net n (dg_edges g) ops) /\
      exists T : list (Z * list (list Z)), map fst T = dg_nodes g /\ alphas = List.concat (flat_map snd T) ++ rest /\ forall i bl, In (i, bl) T -> exists x, dget p i = Some x /\ drawn_with rvs A i x bl
  | Err x => x = OutOfFuel
  end.
Proof.
  intros Hn Hm (HA & HR & Hi & Hal). unfold generate_multi_bbn_a. destruct (tree_start n) as (G & (_ & HN & HC & _) & HAc).
  pose proof (multi_loop_ok n Hn max_iter ints (simple_ordered_tree n) Hi (conj G (conj HN (conj HC HAc)))) as H. unfold multi_structure.
  destruct (multi_loop max_iter n ints (simple_ordered_tree n)) as [g|]; cbn [rbind]; auto. destruct H as (G' & H1 & H2 & H3).
  pose proof (full_ok rvs A HA HR n g max_values draws alphas Hn Hm Hal G' H1 H2 H3) as K. destruct (generate_parameters_a rvs g max_values A draws alphas) as [[p s']|]; cbn [rbind fst snd]; auto.
Qed.
Theorem c108_singly rvs n max_iter max_values A ints units draws alphas : n <> 0 -> max_values <> 0 -> draws_ok rvs A n ints alphas ->
  match generate_singly_bbn_a rvs n max_iter max_values A ints units draws alphas with
  | Ok (g, p, rest) => (exists ops, convert_for_exact_inference g p = Ok (build ops) /\ valid_net n (dg_edges g) ops) /\
      exists T : list (Z * list (list Z)), map fst T = dg_nodes g /\ alphas = List.concat (flat_map snd T) ++ rest /\ forall i bl, In (i, bl) T -> exists x, dget p i = Some x /\ drawn_with rvs A i x bl
  | Err x => x = OutOfFuel
  end.
Proof.
  intros Hn Hm (HA & HR & Hi & Hal). unfold generate_singly_bbn_a. destruct (tree_start n) as (_ & HT & _).
  pose proof (singly_loop_ok n Hn max_iter ints units (simple_ordered_tree n) Hi HT) as H. unfold singly_structure.
  destruct (singly_loop max_iter n ints units (simple_ordered_tree n)) as [g|]; cbn [rbind]; auto. destruct H as (G' & H1 & H2 & H3).
  assert (HL : List.length (dg_edges g) = List.length (dg_nodes g) - 1) by (rewrite H1, upto_length; auto).
  assert (HAc : acyclic (E g)) by (apply (tree_acyclic (dg_nodes g)); auto; apply G').
  pose proof (full_ok rvs A HA HR n g max_values draws alphas Hn Hm Hal G' H1 H2 HAc) as K. destruct (generate_parameters_a rvs g max_values A draws alphas) as [[p s']|]; cbn [rbind fst snd]; auto.
Qed.

Lemma npi_pos nv : Forall (fun k => 2 <= k) nv -> forall ps m, num_parent_instantiations ps nv = Ok m -> 1 <= m.
Proof.
  intros V ps. unfold num_parent_instantiations. enough (Gn : forall a m, 1 <= a -> foldM (fun acc pa => k <- indexE nv pa ;; Ok (acc * k)) ps a = Ok m -> 1 <= m) by (intros m; apply Gn; lia).
  induction ps as [|p ps IH]; intros a m Ha; cbn [foldM]; [intros Q; injection Q as <-; auto|]. destruct (indexE nv p) as [k|] eqn:Ek; cbn [rbind]; [|discriminate]. apply IH. apply (index_two nv V) in Ek. nia.
Qed.
(** no hyperparameters to choose from *)
Theorem c108_refused rvs n max_iter max_values A ints draws alphas : n <> 0 -> max_values <> 0 -> (A < 1)%Z -> Forall (below_n n) ints -> n <= List.length draws ->
  match generate_multi_bbn_a rvs n max_iter max_values A ints draws alphas with Ok _ => False | Err x => x = ValueError \/ x = OutOfFuel /\ multi_structure n max_iter ints = Err OutOfFuel end.
Proof.
  intros Hn Hm HA Hi Hdr. unfold generate_multi_bbn_a. destruct (tree_start n) as (G & (_ & HN & HC & _) & HAc).
  pose proof (multi_loop_ok n Hn max_iter ints (simple_ordered_tree n) Hi (conj G (conj HN (conj HC HAc)))) as H. unfold multi_structure.
  destruct (multi_loop max_iter n ints (simple_ordered_tree n)) as [g|x]; cbn [rbind]; [|subst; auto]. destruct H as (G' & H1 & H2 & H3). enough (Q : generate_parameters_a rvs g max_values A draws alphas = Err ValueError) by (rewrite Q; cbn [rbind]; auto).
  assert (Env : exists nv, num_values (List.length (dg_nodes g)) max_values draws = Ok nv /\ List.length nv = n /\ Forall (fun k => 2 <= k) nv).
  { pose proof (num_values_ok (List.length (dg_nodes g)) max_values draws Hm) as Hv. rewrite H1, upto_length in *. unfold num_values in *. destruct (Nat.eqb_spec max_values 0); [contradiction|]. cbn [andb] in *. destruct (Nat.ltb_spec (List.length draws) n); [lia|]. eexists. split; [reflexivity|exact Hv]. }
  destruct Env as (nv & Env & V1 & V2). unfold generate_parameters_a. rewrite Env. cbn [rbind].
  pose proof (params_fold n g nv G' H1 V1 V2 (fun _ _ m => point m)) as PF.
  destruct (dg_nodes g) as [|i nodes] eqn:Eg. { exfalso. apply Hn. apply (f_equal (@List.length Z)) in H1. rewrite upto_length in H1. simpl in H1. auto. }
  cbn [foldM] in *. destruct (predecessors g i) as [ps|]; cbn [rbind] in *; [|discriminate]. unfold dirichlet_parameters in PF. unfold dirichlet_parameters_a.
  destruct (num_parent_instantiations ps nv) as [m|] eqn:Em; cbn [rbind] in *; [|discriminate]. destruct (indexE nv i) as [k|] eqn:En; cbn [rbind] in *; [|discriminate]. clear PF.
  apply (npi_pos nv V2) in Em. destruct m as [|m]; [lia|]. cbn [seq foldM fst snd]. apply (index_two nv V2) in En. unfold sample_dirichlet, generate_alphas. destruct (Nat.eqb_spec k 0); [lia|].
  destruct (Z.leb_spec (A + 1) 1); [reflexivity|lia].
Qed.

(** ** number of values *)
Theorem c108_values n max_values draws nv : Forall (fun d => d < max_values) draws -> num_values n max_values draws = Ok nv ->
  List.length nv = n /\ Forall (fun k => 2 <= k <= Nat.max 2 max_values) nv.
Proof.
  intros F. unfold num_values. destruct (_ && _); [discriminate|]. destruct (Nat.ltb_spec (List.length draws) n); [discriminate|]. intros Q. injection Q as <-. split; [rewrite map_length, firstn_length; lia|].
  apply Forall_forall. intros k Hk. apply in_map_iff in Hk. destruct Hk as (d & <- & Hd). assert (d < max_values); [|lia]. rewrite Forall_forall in F. apply F. rewrite <- (firstn_skipn n draws). apply in_or_app. auto.
Qed.
Lemma filter_none {X} (f : X -> bool) l : (forall x, In x l -> f x = false) -> filter f l = [].
Proof. induction l as [|x l IH]; intros H; auto. simpl. rewrite (H x (or_introl eq_refl)). apply IH. intros y Hy. apply H. right. auto. Qed.
Theorem c108_ways mv f : 2 <= mv -> (forall d, num_values 1 mv [d] = Ok [f d]) -> ways f mv 2 = 2 /\ forall k, 3 <= k <= mv -> ways f mv k = 1.
Proof.
  intros Hm Hf. assert (Ef : forall d, f d = Nat.max (d + 1) 2). { intros d. specialize (Hf d). unfold num_values in Hf. destruct (Nat.eqb_spec mv 0); [lia|]. simpl in Hf. injection Hf as <-. reflexivity. }
  assert (S : seq 0 mv = 0 :: 1 :: seq 2 (mv - 2)) by (destruct mv as [|[|m]]; [lia|lia|]; simpl; rewrite Nat.sub_0_r; reflexivity). split.
  - unfold ways. rewrite S. cbn [filter]. rewrite !Ef. cbn [Nat.add Nat.max Nat.eqb]. rewrite filter_none; [reflexivity|]. intros x Hx. apply in_seq in Hx. rewrite Ef. apply Nat.eqb_neq. lia.
  - intros k Hk. unfold ways. rewrite (filter_ext_in _ (fun d => Nat.eqb d (k - 1))).
    + clear - Hk. replace mv with ((k - 1) + (1 + (mv - k))) by lia. rewrite seq_app, filter_app, app_length. rewrite filter_none by (intros x Hx; apply in_seq in Hx; apply Nat.eqb_neq; lia).
      cbn [seq plus filter]. rewrite Nat.eqb_refl. rewrite filter_none by (intros x Hx; apply in_seq in Hx; apply Nat.eqb_neq; lia). reflexivity.
    + intros d Hd. apply in_seq in Hd. rewrite Ef. destruct (Nat.eqb_spec (Nat.max (d + 1) 2) k), (Nat.eqb_spec d (k - 1)); auto; lia.
Qed.
Theorem c108_uniform_refuted : exists mv f, 2 <= mv /\ (forall d, num_values 1 mv [d] = Ok [f d]) /\ exists k k', 2 <= k <= mv /\ 2 <= k' <= mv /\ ways f mv k <> ways f mv k'.
Proof. exists 3, (fun d => Nat.max (d + 1) 2). split; [lia|]. split; [intros d; reflexivity|]. exists 2, 3. split; [lia|]. split; [lia|]. vm_compute. discriminate. Qed.
