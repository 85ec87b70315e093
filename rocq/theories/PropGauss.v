(** Gaussian inference. Nothing but theorems and examples. *)
From Verif Require Import Py M_Gauss SpecGauss L_Base L_Gauss L_Gauss3 L_P10 L_Inv L_P11.
Open Scope Qc_scope.

(** C36. The full claim would be: P reports the means, and after do_inferences the conditional means and variances,
    whatever the order of the observations and whether they are made together or one at a time.
    It is false three times over. P reports the negated mean: *)
Theorem C36_mean_refuted : exists g p m v s, gwf g /\ symmetric g /\ In s (gi_H g) /\ params g = Ok p /\ dget p s = Some (m, v) /\ m <> mean_of g s.
Proof. exact c36_mean. Qed.
Print Assumptions C36_mean_refuted.

(** The order of the observations changes the reported means, even when those left unobserved have mean zero: *)
Theorem C36_order_refuted : exists inv g obs1 obs2 g1 g2 p1 p2 s m1 m2 v1 v2, inv_sound inv /\ gwf g /\ symmetric g /\ Permutation obs1 obs2 /\
  do_inferences inv g obs1 = Ok g1 /\ do_inferences inv g obs2 = Ok g2 /\ (forall y, In y (gi_H g1) -> mean_of g y = 0) /\
  params g1 = Ok p1 /\ params g2 = Ok p2 /\ dget p1 s = Some (m1, v1) /\ dget p2 s = Some (m2, v2) /\ m1 <> m2.
Proof. exact c36_order. Qed.
Print Assumptions C36_order_refuted.

(** Observing one at a time changes the reported means, even when all means are zero: *)
Theorem C36_stages_refuted : exists inv g obs g1 g2 p1 p2 s m1 m2 v1 v2, inv_sound inv /\ gwf g /\ symmetric g /\ (forall y, In y (gi_H g) -> mean_of g y = 0) /\
  do_inferences inv g obs = Ok g1 /\ foldM (fun g ob => do_inference inv g (fst ob) (snd ob)) obs g = Ok g2 /\
  params g1 = Ok p1 /\ params g2 = Ok p2 /\ dget p1 s = Some (m1, v1) /\ dget p2 s = Some (m2, v2) /\ m1 <> m2.
Proof. exact c36_stages. Qed.
Print Assumptions C36_stages_refuted.

(** The covariances are right: after any sequence of calls the covariance is that of the rest given all that was observed. *)
Theorem C36_covariance_partial : forall inv, inv_sound inv -> forall batches g g', gwf g -> symmetric g -> foldM (do_inferences inv) batches g = Ok g' ->
  let obs := List.concat batches in
  NoDup (map fst obs) /\ incl (map fst obs) (gi_H g) /\ gwf g' /\ symmetric g' /\
  gi_H g' = filter (fun h => negb (mem h (map fst obs))) (gi_H g) /\ gi_meta g' = gi_meta g ++ obs /\
  exists K, regression (cov_of g) (gi_H g') (map fst obs) K /\ conditional_cov (cov_of g) (gi_H g') (map fst obs) K (cov_of g').
Proof. exact many_calls. Qed.
Print Assumptions C36_covariance_partial.

(** So for covariances neither the order nor the grouping of the observations matters. *)
Theorem C36_any_order_partial : forall inv inv' g b1 b2 g1 g2, inv_sound inv -> inv_sound inv' -> gwf g -> symmetric g ->
  Permutation (List.concat b1) (List.concat b2) -> foldM (do_inferences inv) b1 g = Ok g1 -> foldM (do_inferences inv') b2 g = Ok g2 ->
  gi_H g1 = gi_H g2 /\ forall y y', In y (gi_H g1) -> In y' (gi_H g1) -> cov_of g1 y y' = cov_of g2 y y'.
Proof. exact any_order. Qed.
Print Assumptions C36_any_order_partial.

(** P's means are right after a single call, when the unobserved variables have mean zero and the means of the observed
    ones, taken in header order, are those of the observations in theirs. *)
Theorem C36_means_partial : forall inv g obs g' K, inv_sound inv -> gwf g -> symmetric g -> do_inferences inv g obs = Ok g' ->
  aligned g obs -> (forall y, In y (gi_H g') -> mean_of g y = 0) -> regression (cov_of g) (gi_H g') (map fst obs) K ->
  exists p, params g' = Ok p /\ (forall y, In y (gi_H g') -> dget p y = Some (conditional_mean (mean_of g) K obs y, cov_of g' y y)) /\
            (forall s v, In (s, v) obs -> dget p s = Some (v, 0)).
Proof. exact one_mean. Qed.
Print Assumptions C36_means_partial.

(** In general they are off by twice the mean. *)
Theorem C36_means_off_by : forall inv g obs g' K, inv_sound inv -> gwf g -> symmetric g -> do_inferences inv g obs = Ok g' ->
  aligned g obs -> regression (cov_of g) (gi_H g') (map fst obs) K ->
  exists p, params g' = Ok p /\
    (forall y, In y (gi_H g') -> dget p y = Some (conditional_mean (mean_of g) K obs y - (1 + 1) * mean_of g y, cov_of g' y y)).
Proof. exact one_mean_gen. Qed.
Print Assumptions C36_means_off_by.

(** P always has the variances, and the observed values with variance zero. *)
Theorem C36_params : forall g, gwf g -> exists p, params g = Ok p /\
  (forall s, In s (gi_H g) -> dget p s = Some (- mean_of g s, cov_of g s s)) /\ (forall s v, In (s, v) (gi_meta g) -> dget p s = Some (v, 0)).
Proof. exact L_Gauss4.params_ok. Qed.
Print Assumptions C36_params.

(** When a call answers, and when it raises KeyError; inverting all arrays that have an inverse is possible. *)
Theorem C36_answers : forall inv g obs, inv_total inv -> gwf g -> NoDup (map fst obs) -> incl (map fst obs) (gi_H g) ->
  (exists B, inverse (List.length (map fst obs)) (fun i j => cov_of g (nth i (map fst obs) ""%string) (nth j (map fst obs) ""%string)) B) ->
  exists g', do_inferences inv g obs = Ok g'.
Proof. exact answers. Qed.
Print Assumptions C36_answers.
Theorem C36_unknown : forall inv g obs, gwf g -> ~ incl (map fst obs) (gi_H g) -> do_inferences inv g obs = Err KeyError.
Proof. exact unknown_name. Qed.
Print Assumptions C36_unknown.
Theorem C36_inverses_exist : exists inv, inv_sound inv /\ inv_total inv.
Proof. exists some_inv. exact some_inv_ok. Qed.
Print Assumptions C36_inverses_exist.

Example C36_case : inv_sound small_inv /\ gwf (triple [1; 0; 0]) /\ symmetric (triple [1; 0; 0]) /\
  (exists g', foldM (do_inferences small_inv) [[("a"%string, 1)]; [("b"%string, 1)]] (triple [1; 0; 0]) = Ok g' /\
              In "c"%string (gi_H g') /\ In "c"%string (gi_H g') /\ cov_of g' "c" "c" = qfrac 4 3) /\
  (exists g', foldM (do_inferences small_inv) [[("a"%string, 1 + 1); ("b"%string, 1)]] (triple [1; 0; 0]) = Ok g' /\
              In "c"%string (gi_H g') /\ In "c"%string (gi_H g') /\ cov_of g' "c" "c" = qfrac 4 3) /\
  aligned (triple [1; 0; 0]) [("a"%string, 1 + 1); ("b"%string, 1)] /\ mean_of (triple [1; 0; 0]) "c" = 0.
Proof.
  split; [exact small_inv_sound|]. split; [exact (triple_wf 1 0 0)|]. split; [exact (triple_symmetric [1; 0; 0])|].
  split; [apply leadsb_ok; vm_compute; reflexivity|]. split; [apply leadsb_ok; vm_compute; reflexivity|]. split; reflexivity.
Qed.
