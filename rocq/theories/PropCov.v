(** Covariances of a Gaussian. Nothing but theorems and examples. *)
From Verif Require Import Py M_Gauss SpecGauss SpecCov L_Base L_Gauss L_P10 L_Inv L_P11 L_Cov L_CovEx.
Open Scope Qc_scope.

(** C102. If no combination of variables has a negative variance to begin with, then none has after any sequence of calls,
    and no variance is negative or larger than it was. *)
Theorem C102_stays : forall inv batches g g', inv_sound inv -> gwf g -> symmetric g -> no_negative (cov_of g) (gi_H g) -> foldM (do_inferences inv) batches g = Ok g' ->
  no_negative (cov_of g') (gi_H g') /\ forall y, In y (gi_H g') -> 0 <= cov_of g' y y /\ cov_of g' y y <= cov_of g y y.
Proof. exact c102_stays. Qed.
Print Assumptions C102_stays.

(** If no variable is fixed by others, every sequence of calls that observes each variable at most once is answered, and still none is. *)
Theorem C102_answers : forall inv batches, inv_sound inv -> inv_total inv -> forall g, gwf g -> symmetric g -> unfixed (cov_of g) (gi_H g) ->
  NoDup (map fst (List.concat batches)) -> incl (map fst (List.concat batches)) (gi_H g) ->
  exists g', foldM (do_inferences inv) batches g = Ok g' /\ unfixed (cov_of g') (gi_H g').
Proof. exact c102_answers. Qed.
Print Assumptions C102_answers.

(** Exactly when a call is answered: distinct known variables are observed, none of them fixed by others of them. *)
Theorem C102_exactly : forall inv g obs, inv_sound inv -> inv_total inv -> gwf g -> symmetric g -> no_negative (cov_of g) (gi_H g) ->
  ((exists g', do_inferences inv g obs = Ok g') <-> NoDup (map fst obs) /\ incl (map fst obs) (gi_H g) /\ unfixed (cov_of g) (map fst obs)).
Proof. exact c102_exactly. Qed.
Print Assumptions C102_exactly.

Example C102_case : gwf (triple [1; 0; 0]) /\ symmetric (triple [1; 0; 0]) /\ no_negative (cov_of (triple [1; 0; 0])) (gi_H (triple [1; 0; 0])) /\ unfixed (cov_of (triple [1; 0; 0])) (gi_H (triple [1; 0; 0])) /\
  (exists inv, inv_sound inv /\ inv_total inv) /\
  match foldM (do_inferences small_inv) [[("a", 1)]; [("b", 1)]]%string (triple [1; 0; 0]) with Ok g' => (gi_H g', this (cov_of g' "c" "c")) = (["c"], 4 # 3)%string%Q | Err _ => False end.
Proof.
  split; [apply triple_wf|]. split; [apply triple_symmetric|]. split; [apply parts_no_negative with triple_parts, triple_made|]. split; [apply parts_unfixed with triple_parts; [apply triple_made|apply triple_own]|].
  split; [exists some_inv; exact some_inv_ok|]. vm_compute. reflexivity.
Qed.
(** one variable under two names: observing both is not answered, whatever inverts arrays *)
Example C102_twins : gwf twins /\ symmetric twins /\ no_negative (cov_of twins) (gi_H twins) /\ nontrivial both_twins /\ variance (cov_of twins) both_twins = 0 /\
  match do_inferences small_inv twins [("a", 1)]%string with Ok g' => (gi_H g', this (cov_of g' "b" "b")) = (["b"], 0 # 1)%string%Q | Err _ => False end /\
  forall inv, inv_sound inv -> inv_total inv -> ~ exists g', do_inferences inv twins [("a", 1); ("b", 1)]%string = Ok g'.
Proof.
  split; [exact twins_wf|]. split; [exact twins_symmetric|]. split; [apply parts_no_negative with [fun _ => 1]; exact twins_made|]. split; [exact both_twins_nontrivial|]. split; [exact twins_fixed|].
  split; [vm_compute; reflexivity|]. intros inv HI HT E. apply (c102_exactly inv twins _ HI HT twins_wf twins_symmetric) in E; [|apply parts_no_negative with [fun _ => 1]; exact twins_made].
  destruct E as (_ & _ & U). apply (U both_twins); [apply incl_refl|exact both_twins_nontrivial|exact twins_fixed].
Qed.
