(** The generator with its hyperparameters. *)
From Verif Require Import Py M_Graph M_Node M_Nx M_Gen M_GenAlpha M_Pptc Spec SpecNet SpecNx SpecDraw L_Base L_Exact L_Gen L_Gen2.
Open Scope nat_scope.

Lemma nth_error_ext_eq {X} (l l' : list X) : (forall k, nth_error l k = nth_error l' k) -> l = l'.
Proof.
  revert l'. induction l as [|x l IH]; intros [|y l'] H; auto; [specialize (H 0); discriminate|specialize (H 0); discriminate|]. pose proof (H 0) as H0. injection H0 as <-. f_equal. apply IH. intros k. apply (H (S k)).
Qed.

Section Rows.
  Context (rvs : Z -> nat -> list Z -> list Qc) (A : Z) (HA : (1 <= A)%Z).
  Context (HR : forall i k al, 2 <= List.length al -> Forall (fun a => 1 <= a)%Z al -> prob_vector (List.length al) (rvs i k al)).
  Definition in_range (a : Z) : Prop := (1 <= a <= A)%Z.

  Lemma alphas_ok n s : n <> 0 -> Forall in_range s ->
    match generate_alphas n A s with Ok (al, s') => s = al ++ s' /\ List.length al = n /\ Forall in_range al /\ Forall in_range s' | Err x => x = OutOfFuel end.
  Proof using HA.
    intros Hn F. unfold generate_alphas. destruct (Nat.eqb_spec n 0); [tauto|]. destruct (Z.leb_spec (A + 1) 1); [lia|]. destruct (Nat.ltb_spec (List.length s) n); auto.
    rewrite <- (firstn_skipn n s) in F. apply Forall_app in F. split; [symmetry; apply firstn_skipn|]. split; [rewrite firstn_length; lia|]. exact F.
  Qed.
  Lemma dirichlet_ok f n s : n <> 0 -> Forall in_range s ->
    match sample_dirichlet f n A s with Ok (r, s') => exists al, s = al ++ s' /\ List.length al = n /\ Forall in_range al /\ Forall in_range s' /\ r = f al | Err x => x = OutOfFuel end.
  Proof using HA.
    intros Hn F. unfold sample_dirichlet. pose proof (alphas_ok n s Hn F) as H. destruct (generate_alphas n A s) as [[al s']|x]; cbn [rbind fst snd]; auto. destruct H as (H1 & H2 & H3 & H4).
    destruct (Nat.eqb_spec (List.length al) 0); [lia|]. cbn [orb]. destruct (existsb (fun x => Z.leb x 0) al) eqn:X.
    - apply existsb_exists in X. destruct X as (a & Ha & La). rewrite Forall_forall in H3. specialize (H3 a Ha). unfold in_range in H3. apply Z.leb_le in La. lia.
    - exists al. auto.
  Qed.
  (** rows of one node *)
  Definition rows_of (i : Z) (k0 : nat) (blocks : list (list Z)) : list (list Qc) := map (fun p => rvs i (fst p) (snd p)) (combine (seq k0 (List.length blocks)) blocks).
  Lemma rows_fold i n m : n <> 0 -> forall k0 acc s, Forall in_range s ->
    match foldM (fun s k => r <- sample_dirichlet (rvs i k) n A (snd s) ;; Ok (fst s ++ [fst r], snd r)) (seq k0 m) (acc, s) with
    | Ok (rows, s') => exists blocks, s = List.concat blocks ++ s' /\ List.length blocks = m /\ (forall al, In al blocks -> List.length al = n /\ Forall in_range al) /\ Forall in_range s' /\
        rows = acc ++ rows_of i k0 blocks
    | Err x => x = OutOfFuel end.
  Proof using HA.
    intros Hn. induction m as [|m IH]; intros k0 acc s F; cbn [seq foldM].
    - exists []. split; auto. split; auto. split; [intros al []|]. split; auto. symmetry. apply app_nil_r.
    - cbn [fst snd]. pose proof (dirichlet_ok (rvs i k0) n s Hn F) as H. destruct (sample_dirichlet (rvs i k0) n A s) as [[r s']|x]; cbn [rbind fst snd]; auto. destruct H as (al & H1 & H2 & H3 & H4 & ->).
      specialize (IH (S k0) (acc ++ [rvs i k0 al]) s' H4). destruct (foldM _ (seq (S k0) m) _) as [[rows s2]|x]; auto. destruct IH as (bl & B1 & B2 & B3 & B4 & B5).
      exists (al :: bl). split; [cbn [List.concat]; rewrite <- app_assoc, <- B1; exact H1|]. split; [cbn [List.length]; lia|]. split; [intros b [<-|Hb]; auto|]. split; auto.
      rewrite B5, <- app_assoc. reflexivity.
  Qed.
  Lemma rows_nth i blocks : forall k0 k, nth_error (rows_of i k0 blocks) k = match nth_error blocks k with Some al => Some (rvs i (k0 + k) al) | None => None end.
  Proof.
    clear. induction blocks as [|b l IH]; intros k0 k; unfold rows_of; cbn [List.length seq combine map]; [destruct k; reflexivity|].
    destruct k as [|k]; cbn [nth_error fst snd]; [rewrite Nat.add_0_r; reflexivity|]. fold (rows_of i (S k0) l). rewrite IH. replace (S k0 + k) with (k0 + S k) by lia. reflexivity.
  Qed.

  (** a [dir] that gives the rows drawn *)
  Definition point (n : nat) : list Qc := match n with 0 => [] | S m => 1%Qc :: repeat 0%Qc m end.
  Lemma point_ok n : 2 <= n -> prob_vector n (point n).
  Proof.
    clear. intros H. destruct n as [|m]; [lia|]. assert (Z0 : qsum (repeat 0%Qc m) = 0%Qc). { clear. induction m as [|m IH]; auto. } split; [cbn [point List.length]; rewrite repeat_length; auto|]. split.
    - constructor; [discriminate|]. apply Forall_forall. intros q Hq. apply repeat_spec in Hq. subst. apply Qcle_refl.
    - cbn [point]. rewrite qsum_cons, Z0. ring.
  Qed.
  Definition dir_of (T : list (Z * list (list Qc))) (i : Z) (k n : nat) : list Qc :=
    match dget T i with Some R => match nth_error R k with Some r => if Nat.eqb (List.length r) n then r else point n | None => point n end | None => point n end.

  Context (g : digraph) (nv : list nat).
  Definition fullf (s : list (Z * gparams) * list Z) (i : Z) : res (list (Z * gparams) * list Z) :=
    parents <- predecessors g i ;; params <- dirichlet_parameters_a rvs i parents nv A (snd s) ;; m <- num_parent_instantiations parents nv ;; n <- indexE nv i ;;
    Ok (dset (fst s) i (mkGp parents (fst params) (m, n)), snd params).
  Definition plainf (dir : Z -> nat -> nat -> list Qc) (d : list (Z * gparams)) (i : Z) : res (list (Z * gparams)) :=
    parents <- predecessors g i ;; params <- dirichlet_parameters dir i parents nv ;; m <- num_parent_instantiations parents nv ;; n <- indexE nv i ;;
    Ok (dset d i (mkGp parents params (m, n))).
  Context (HV : Forall (fun k => 2 <= k) nv).
  Lemma index_two i n : indexE nv i = Ok n -> 2 <= n.
  Proof using HV. unfold indexE. destruct (Z.ltb i 0); [discriminate|]. destruct (nth_error nv (Z.to_nat i)) eqn:E; [|discriminate]. intros H. injection H as <-. apply nth_error_In in E. rewrite Forall_forall in HV. auto. Qed.
  Lemma full_plain nodes : forall dir d0 d1 d s, Forall in_range s -> foldM (plainf dir) nodes d0 = Ok d1 ->
    match foldM fullf nodes (d, s) with
    | Ok (d', s') => exists T : list (Z * list (list Z)), map fst T = nodes /\ s = List.concat (flat_map snd T) ++ s' /\
        (forall dir', (forall i bl, In (i, bl) T -> forall k al, nth_error bl k = Some al -> dir' i k (List.length al) = rvs i k al) -> foldM (plainf dir') nodes d = Ok d') /\
        (forall i bl, In (i, bl) T -> forall al, In al bl -> 2 <= List.length al /\ Forall in_range al)
    | Err x => x = OutOfFuel end.
  Proof using HA HV.
    induction nodes as [|i nodes IH]; intros dir d0 d1 d s F E; cbn [foldM] in *.
    - exists []. split; auto. split; auto. split; auto. intros i bl [].
    - unfold fullf at 1. unfold plainf at 1 in E. destruct (predecessors g i) as [ps|] eqn:Ep; cbn [rbind] in *; [|discriminate].
      unfold dirichlet_parameters_a. unfold dirichlet_parameters in E. destruct (num_parent_instantiations ps nv) as [m|] eqn:Em; cbn [rbind] in *; [|discriminate].
      destruct (indexE nv i) as [n|] eqn:En; cbn [rbind] in *; [|discriminate]. pose proof (index_two i n En) as Hn. cbn [fst snd].
      pose proof (rows_fold i n m ltac:(lia) 0 [] s F) as R. destruct (foldM _ (seq 0 m) ([], s)) as [[rows s1]|x]; cbn [rbind fst snd]; auto. destruct R as (bl & R1 & R2 & R3 & R4 & R5).
      specialize (IH dir _ _ (dset d i (mkGp ps rows (m, n))) s1 R4 E). destruct (foldM fullf nodes _) as [[d' s']|x]; auto. destruct IH as (T & T1 & T2 & T3 & T4).
      exists ((i, bl) :: T). split; [cbn [map fst]; congruence|]. split; [cbn [flat_map snd]; rewrite concat_app, <- app_assoc, <- T2; exact R1|]. split.
      + intros dir' H. assert (Hd : plainf dir' d i = Ok (dset d i (mkGp ps rows (m, n)))).
        { unfold plainf, dirichlet_parameters. rewrite Ep. cbn [rbind]. rewrite Em. cbn [rbind]. rewrite En. cbn [rbind]. replace (map (fun k => dir' i k n) (seq 0 m)) with rows; auto.
          rewrite R5. cbn [List.app]. apply nth_error_ext_eq. intros k. rewrite rows_nth, nth_error_map. cbn [Nat.add]. destruct (nth_error bl k) as [al|] eqn:Ek.
          - assert (Hk : k < m) by (rewrite <- R2; apply nth_error_Some; congruence). assert (Es : nth_error (seq 0 m) k = Some k). { rewrite (nth_error_nth' _ 0) by (rewrite seq_length; auto). rewrite seq_nth by auto. reflexivity. }
            rewrite Es. cbn [option_map]. f_equal. symmetry. destruct (R3 al (nth_error_In _ _ Ek)) as [La _]. rewrite <- La. apply (H i bl); auto. left. auto.
          - apply nth_error_None in Ek. rewrite R2 in Ek. assert (Es : nth_error (seq 0 m) k = None) by (apply nth_error_None; rewrite seq_length; auto). rewrite Es. reflexivity. }
        rewrite Hd. cbn [rbind]. apply T3. intros j b Hj. apply (H j b). right. auto.
      + intros j b [Q|Hj]; [injection Q as <- <-|exact (T4 j b Hj)]. intros al Hal. destruct (R3 al Hal) as [L1 L2]. split; [lia|auto].
  Qed.
  Lemma full_rows nodes : forall d s d' s', Forall in_range s -> foldM fullf nodes (d, s) = Ok (d', s') -> NoDup nodes ->
    exists T : list (Z * list (list Z)), map fst T = nodes /\ s = List.concat (flat_map snd T) ++ s' /\
      forall i bl, In (i, bl) T -> exists x, dget d' i = Some x /\ drawn_with rvs A i x bl.
  Proof using HA HV.
    induction nodes as [|i nodes IH]; intros d s d' s' F E HD; cbn [foldM] in *.
    - injection E as <- <-. exists []. split; auto. split; auto. intros i bl [].
    - unfold fullf at 1 in E. destruct (predecessors g i) as [ps|] eqn:Ep; cbn [rbind] in *; [|discriminate].
      unfold dirichlet_parameters_a in E. destruct (num_parent_instantiations ps nv) as [m|] eqn:Em; cbn [rbind] in *; [|discriminate].
      destruct (indexE nv i) as [n|] eqn:En; cbn [rbind] in *; [|discriminate]. pose proof (index_two i n En) as Hn. cbn [fst snd] in *.
      pose proof (rows_fold i n m ltac:(lia) 0 [] s F) as R. destruct (foldM _ (seq 0 m) ([], s)) as [[rows s1]|x]; cbn [rbind fst snd] in *; [|discriminate]. destruct R as (bl & R1 & R2 & R3 & R4 & R5).
      inversion HD as [|? ? Hni HD']; subst. destruct (IH _ _ _ _ R4 E HD') as (T & T1 & T2 & T3). exists ((i, bl) :: T). split; [cbn [map fst]; congruence|].
      split; [cbn [flat_map snd]; rewrite concat_app, <- app_assoc, <- T2; reflexivity|].
      intros j b [Q|Hj]; [|apply T3; auto]. injection Q as <- <-. exists (mkGp ps (rows_of i 0 bl) (List.length bl, n)). split.
      + assert (K : forall nodes s d d' s', foldM fullf nodes (d, s) = Ok (d', s') -> ~ In i nodes -> dget d' i = dget d i).
        { clear. induction nodes as [|j nodes IH]; intros s d d' s' E Hn; cbn [foldM] in E; [injection E as <- <-; auto|]. destruct (fullf (d, s) j) as [[d1 s1]|] eqn:Ef; cbn [rbind] in E; [|discriminate].
          rewrite (IH _ _ _ _ E) by (intros H; apply Hn; right; auto). unfold fullf in Ef. destruct (predecessors g j) as [ps|]; cbn [rbind] in Ef; [|discriminate].
          destruct (dirichlet_parameters_a _ _ _ _ _ _) as [[pr s2]|]; cbn [rbind fst snd] in Ef; [|discriminate]. destruct (num_parent_instantiations ps nv); cbn [rbind] in Ef; [|discriminate].
          destruct (indexE nv j); cbn [rbind] in Ef; [|discriminate]. injection Ef as <- <-. rewrite dget_dset. destruct (eqb_spec i j) as [->|]; auto. exfalso. apply Hn. left. auto. }
        rewrite (K _ _ _ _ _ E Hni). rewrite dget_dset, eqb_refl. reflexivity.
      + split; [reflexivity|]. split; [intros al Hal; destruct (R3 al Hal) as [L1 L2]; split; auto|]. intros k al Ek. cbn [gp_params]. rewrite rows_nth, Ek. reflexivity.
  Qed.
End Rows.
