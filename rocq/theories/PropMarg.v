(** Marginals of a Gaussian and samples from them. Nothing but theorems and examples. *)
From Verif Require Import Py M_Gauss SpecGauss SpecMarg L_Base L_Marg L_P11.
Open Scope Qc_scope.

(** C98. The full claim would be: marginals lists every variable once with its conditional mean and variance, and sample_marginals draws
    from these. The list is complete, in order, and its variances are right: *)
Theorem C98_marginals : forall g, gwf g -> exists l, gmarginals g = Ok l /\ map mg_name l = map fst (gi_meta g) ++ gi_H g /\
  forall x, In x l -> (In (mg_name x, mg_mean x) (gi_meta g) /\ mg_var x = 0) \/
                      (In (mg_name x) (gi_H g) /\ mg_mean x = - mean_of g (mg_name x) /\ mg_var x = cov_of g (mg_name x) (mg_name x)).
Proof. exact c98_marginals. Qed.
Print Assumptions C98_marginals.

(** after any sequence of calls it has the observed variables with their values and variance zero, then the others with the variance of
    what remains of them when all that was observed is known. *)
Theorem C98_complete_partial : forall inv, inv_sound inv -> forall batches g g', gwf g -> symmetric g -> gi_meta g = [] ->
  foldM (do_inferences inv) batches g = Ok g' ->
  let obs := List.concat batches in
  exists l K, gmarginals g' = Ok l /\ map mg_name l = map fst obs ++ filter (fun h => negb (mem h (map fst obs))) (gi_H g) /\
    Permutation (map mg_name l) (gi_H g) /\ regression (cov_of g) (gi_H g') (map fst obs) K /\
    forall x, In x l -> (In (mg_name x, mg_mean x) obs /\ mg_var x = 0) \/
      (~ In (mg_name x) (map fst obs) /\ mg_var x = combined_cov (cov_of g) (residual (map fst obs) K (mg_name x)) (residual (map fst obs) K (mg_name x))).
Proof. exact c98_complete. Qed.
Print Assumptions C98_complete_partial.

(** Every variable gets its own draws: the observed value plus a hundredth of each standard normal number, or the negated mean plus the
    standard deviation times each number. *)
Theorem C98_samples : forall root gauss g size, gwf g -> let names := map fst (gi_meta g) ++ gi_H g in
  exists d, sample_marginals root gauss g size = Ok d /\ dkeys d = names /\
  (forall s v, In (s, v) (gi_meta g) -> exists xs, dget d s = Some xs /\ spread_of v (qfrac 1 100) (gauss (position names s) size) xs) /\
  (forall s, In s (gi_H g) -> exists xs, dget d s = Some xs /\
     spread_of (- mean_of g s) (if Qc_eq_dec (cov_of g s s) 0 then qfrac 1 100 else root (cov_of g s s)) (gauss (position names s) size) xs).
Proof. exact c98_samples. Qed.
Print Assumptions C98_samples.

(** So the samples of an observed variable are not all the observed value, *)
Theorem C98_observed_refuted : exists root gauss g s v d xs x, gwf g /\ In (s, v) (gi_meta g) /\
  sample_marginals root gauss g 2 = Ok d /\ dget d s = Some xs /\ In x xs /\ x <> v.
Proof. exact c98_observed. Qed.
Print Assumptions C98_observed_refuted.

(** and those of the others do not lie about the mean: drawing zeros does not return it. *)
Theorem C98_centre_refuted : exists root g s d xs x, gwf g /\ In s (gi_H g) /\
  sample_marginals root (fun _ n => repeat 0 n) g 2 = Ok d /\ dget d s = Some xs /\ In x xs /\ x <> mean_of g s.
Proof. exact c98_centre. Qed.
Print Assumptions C98_centre_refuted.

Example C98_case : gwf two_left /\ gwf (triple [1; 0; 0]) /\ symmetric (triple [1; 0; 0]) /\ inv_sound small_inv /\
  shown_marginals (g' <- foldM (do_inferences small_inv) [[("b"%string, 1)]; [("a"%string, 1)]] (triple [1; 0; 0]) ;; gmarginals g') =
    [("b"%string, 1%Q, 0%Q); ("a"%string, 1%Q, 0%Q); ("c"%string, (2 # 3)%Q, (4 # 3)%Q)] /\
  shown_samples (sample_marginals (fun _ => 1 + 1) (fun k n => map (fun i => qfrac (Z.of_nat (k + i)) 1) (seq 0 n)) two_left 3) =
    [("a"%string, [3%Q; (301 # 100)%Q; (151 # 50)%Q]); ("b"%string, [1%Q; 3%Q; 5%Q])].
Proof.
  split; [exact two_left_wf|]. split; [exact (triple_wf 1 0 0)|]. split; [exact (triple_symmetric [1; 0; 0])|]. split; [exact small_inv_sound|].
  split; vm_compute; reflexivity.
Qed.
