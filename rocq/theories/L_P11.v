(** Gaussian inference: witnesses. *)
From Verif Require Import Py M_Gauss SpecGauss L_Base L_Sums L_Gauss L_Gauss2 L_Gauss3 L_Gauss4 L_P10 L_Inv.
Open Scope Qc_scope.

(** ** an inverse for sizes up to two, for computing *)
Definition candidate (k : nat) (a : arr) : arr :=
  match k with
  | 1%nat => fun _ _ => / a O O
  | 2%nat => let det := a O O * a 1%nat 1%nat - a O 1%nat * a 1%nat O in
             fun i j => match i, j with O, O => a 1%nat 1%nat / det | O, _ => - a O 1%nat / det | _, O => - a 1%nat O / det | _, _ => a O O / det end
  | _ => a
  end.
Definition inverseb (k : nat) (a b : arr) : bool :=
  forallb (fun i => forallb (fun j => qeqb (mdot k a b i j) (delta i j) && qeqb (mdot k b a i j) (delta i j)) (seq 0 k)) (seq 0 k).
Definition small_inv (k : nat) (a : arr) : res arr := if inverseb k a (candidate k a) then Ok (candidate k a) else Err ValueError.
Lemma qeqb_eq x y : qeqb x y = true -> x = y.
Proof. unfold qeqb. destruct (Qc_eq_dec x y); [auto|discriminate]. Qed.
Lemma small_inv_sound : inv_sound small_inv.
Proof.
  intros k a b. unfold small_inv. destruct (inverseb k a (candidate k a)) eqn:E; [|discriminate]. intros Q. injection Q as <-.
  intros i j Hi Hj. unfold inverseb in E. rewrite forallb_forall in E. specialize (E i). rewrite in_seq in E. specialize (E ltac:(lia)).
  rewrite forallb_forall in E. specialize (E j). rewrite in_seq in E. specialize (E ltac:(lia)). apply andb_true_iff in E. destruct E as [E1 E2].
  apply qeqb_eq in E1, E2. split; assumption.
Qed.

(** three variables with variance two and covariance one *)
Definition triple (m : list Qc) : ginf :=
  {| gi_H := ["a"; "b"; "c"]%string; gi_M := m; gi_n := 3; gi_E := fun i j => if Nat.eqb i j then 1 + 1 else 1; gi_meta := [] |}.
Lemma triple_wf x y z : gwf (triple [x; y; z]).
Proof.
  split; [repeat constructor; simpl; intuition discriminate|]. split; [reflexivity|]. split; [reflexivity|]. split; [intros s _ []|constructor].
Qed.
Lemma triple_symmetric m : symmetric (triple m).
Proof.
  intros s t _ _. unfold cov_of. cbn [gi_E gi_H triple]. rewrite Nat.eqb_sym. reflexivity.
Qed.

(** two ways of observing that report different means *)
Definition report (inv : nat -> arr -> res arr) (g : ginf) (batches : list (list (string * Qc))) (s : string) : option Qc :=
  match foldM (do_inferences inv) batches g with
  | Ok g' => match params g' with Ok p => option_map fst (dget p s) | Err _ => None end
  | Err _ => None
  end.
Lemma report_some inv g bs s m : report inv g bs s = Some m ->
  exists g' p v, foldM (do_inferences inv) bs g = Ok g' /\ params g' = Ok p /\ dget p s = Some (m, v).
Proof.
  unfold report. intros E. destruct (foldM (do_inferences inv) bs g) as [g'|x]; [|discriminate]. destruct (params g') as [p|x] eqn:P; [|discriminate].
  destruct (dget p s) as [[m' v]|] eqn:D; [|discriminate]. cbn [option_map fst] in E. injection E as <-. exists g', p, v. auto.
Qed.
Definition reportb inv g bs s (q : Qc) : bool := match report inv g bs s with Some m => qeqb m q | None => false end.
Lemma reportb_ok inv g bs s q : reportb inv g bs s q = true -> report inv g bs s = Some q.
Proof. unfold reportb. destruct (report inv g bs s) as [m|]; [|discriminate]. intros E. apply qeqb_eq in E. subst. reflexivity. Qed.

Lemma c36_mean : exists g p m v s, gwf g /\ symmetric g /\ In s (gi_H g) /\ params g = Ok p /\ dget p s = Some (m, v) /\ m <> mean_of g s.
Proof.
  assert (R : reportb small_inv (triple [1; 0; 0]) [] "a"%string (-(1)) = true) by (vm_compute; reflexivity).
  apply reportb_ok, report_some in R. destruct R as (g' & p & v & E1 & E2 & E3). injection E1 as <-.
  exists (triple [1; 0; 0]), p, (-(1)), v, "a"%string. split; [apply triple_wf|]. split; [apply triple_symmetric|]. split; [left; reflexivity|].
  split; [exact E2|]. split; [exact E3|]. vm_compute. discriminate.
Qed.
(** [c] depends on [a] only *)
Definition pair_and_one (m : list Qc) : ginf :=
  {| gi_H := ["a"; "b"; "c"]%string; gi_M := m; gi_n := 3; gi_E := fun i j => if Nat.eqb i j then 1 + 1 else if Nat.eqb (i + j) 2 then 1 else 0; gi_meta := [] |}.
Lemma pair_wf x y z : gwf (pair_and_one [x; y; z]).
Proof.
  split; [repeat constructor; simpl; intuition discriminate|]. split; [reflexivity|]. split; [reflexivity|]. split; [intros s _ []|constructor].
Qed.
Lemma pair_symmetric m : symmetric (pair_and_one m).
Proof.
  intros s t _ _. unfold cov_of. cbn [gi_E gi_H pair_and_one]. rewrite Nat.eqb_sym, Nat.add_comm. reflexivity.
Qed.
Lemma single inv g o g' : foldM (do_inferences inv) [o] g = Ok g' -> do_inferences inv g o = Ok g'.
Proof. cbn [foldM]. destruct (do_inferences inv g o) as [g1|x]; cbn [rbind]; [auto|discriminate]. Qed.
Lemma one_left g o g' s : gwf g -> do_inferences small_inv g o = Ok g' -> In s (gi_H g') -> In s (gi_H g) /\ ~ In s (names o).
Proof.
  intros W OK. pose proof (call_incl _ _ _ _ W OK) as I. pose proof (call_nodup _ _ _ _ small_inv_sound W OK) as D.
  rewrite (infer_eq small_inv g o W D I) in OK. destruct (small_inv (List.length (names o)) (observed_block g o)) as [b|x]; [|discriminate].
  cbn [rbind] in OK. injection OK as <-. cbn [gi_H]. apply rest_In.
Qed.
Lemma c36_order : exists inv g obs1 obs2 g1 g2 p1 p2 s m1 m2 v1 v2, inv_sound inv /\ gwf g /\ symmetric g /\ Permutation obs1 obs2 /\
  do_inferences inv g obs1 = Ok g1 /\ do_inferences inv g obs2 = Ok g2 /\ (forall y, In y (gi_H g1) -> mean_of g y = 0) /\
  params g1 = Ok p1 /\ params g2 = Ok p2 /\ dget p1 s = Some (m1, v1) /\ dget p2 s = Some (m2, v2) /\ m1 <> m2.
Proof.
  assert (R1 : reportb small_inv (pair_and_one [1; 0; 0]) [[("a"%string, 1 + 1); ("b"%string, 1)]] "c"%string (qfrac 1 2) = true) by (vm_compute; reflexivity).
  assert (R2 : reportb small_inv (pair_and_one [1; 0; 0]) [[("b"%string, 1); ("a"%string, 1 + 1)]] "c"%string 1 = true) by (vm_compute; reflexivity).
  apply reportb_ok, report_some in R1, R2. destruct R1 as (g1 & p1 & v1 & A1 & A2 & A3). destruct R2 as (g2 & p2 & v2 & B1 & B2 & B3).
  apply single in A1, B1.
  exists small_inv, (pair_and_one [1; 0; 0]), [("a"%string, 1 + 1); ("b"%string, 1)], [("b"%string, 1); ("a"%string, 1 + 1)], g1, g2, p1, p2, "c"%string, (qfrac 1 2), 1, v1, v2.
  split; [apply small_inv_sound|]. split; [apply pair_wf|]. split; [apply pair_symmetric|]. split; [apply perm_swap|]. split; [exact A1|]. split; [exact B1|].
  split.
  { intros y Hy. apply (one_left _ _ _ _ (pair_wf 1 0 0) A1) in Hy. destruct Hy as [Hy N]. cbn [gi_H pair_and_one names map fst In] in Hy, N.
    destruct Hy as [<-|[<-|[<-|[]]]]; [tauto|tauto|reflexivity]. }
  split; [exact A2|]. split; [exact B2|]. split; [exact A3|]. split; [exact B3|]. vm_compute. discriminate.
Qed.
Lemma c36_stages : exists inv g obs g1 g2 p1 p2 s m1 m2 v1 v2, inv_sound inv /\ gwf g /\ symmetric g /\ (forall y, In y (gi_H g) -> mean_of g y = 0) /\
  do_inferences inv g obs = Ok g1 /\ foldM (fun g ob => do_inference inv g (fst ob) (snd ob)) obs g = Ok g2 /\
  params g1 = Ok p1 /\ params g2 = Ok p2 /\ dget p1 s = Some (m1, v1) /\ dget p2 s = Some (m2, v2) /\ m1 <> m2.
Proof.
  assert (R1 : reportb small_inv (triple [0; 0; 0]) [[("a"%string, 1); ("b"%string, 1)]] "c"%string (qfrac 2 3) = true) by (vm_compute; reflexivity).
  assert (R2 : reportb small_inv (triple [0; 0; 0]) [[("a"%string, 1)]; [("b"%string, 1)]] "c"%string 1 = true) by (vm_compute; reflexivity).
  apply reportb_ok, report_some in R1, R2. destruct R1 as (g1 & p1 & v1 & A1 & A2 & A3). destruct R2 as (g2 & p2 & v2 & B1 & B2 & B3).
  apply single in A1.
  exists small_inv, (triple [0; 0; 0]), [("a"%string, 1); ("b"%string, 1)], g1, g2, p1, p2, "c"%string, (qfrac 2 3), 1, v1, v2.
  split; [apply small_inv_sound|]. split; [apply triple_wf|]. split; [apply triple_symmetric|].
  split. { intros y [<-|[<-|[<-|[]]]]; reflexivity. }
  split; [exact A1|]. split; [exact B1|].
  split; [exact A2|]. split; [exact B2|]. split; [exact A3|]. split; [exact B3|]. vm_compute. discriminate.
Qed.

(** a sequence of calls that succeeds, with a covariance it leads to *)
Definition leadsb (g : ginf) (bs : list (list (string * Qc))) (s t : string) (q : Qc) : bool :=
  match foldM (do_inferences small_inv) bs g with Ok g' => mem s (gi_H g') && mem t (gi_H g') && qeqb (cov_of g' s t) q | Err _ => false end.
Lemma leadsb_ok g bs s t q : leadsb g bs s t q = true ->
  exists g', foldM (do_inferences small_inv) bs g = Ok g' /\ In s (gi_H g') /\ In t (gi_H g') /\ cov_of g' s t = q.
Proof.
  unfold leadsb. destruct (foldM (do_inferences small_inv) bs g) as [g'|x]; [|discriminate]. rewrite !andb_true_iff, !mem_In. intros [[H1 H2] H3].
  exists g'. apply qeqb_eq in H3. auto.
Qed.
