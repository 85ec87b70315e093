(** Properties of the evidence builder. *)
From Verif Require Import Py M_Node M_Pptc M_Evb SpecEvb Ex L_Evb.
Open Scope nat_scope.

(** C69. Whatever calls are made on one builder, in any order: the [k]-th [build] gives the evidence described by the calls before it
    (last node, last type, last likelihood of each value), and what is called later does not change it. *)
Theorem C69_builder : forall cs k,
  match before_build k cs with
  | Some said => exists e, nth_error (eb_run cs) k = Some e /\ describes said e
  | None => nth_error (eb_run cs) k = None
  end.
Proof. exact c69_builder. Qed.
Print Assumptions C69_builder.

(** The calls describe one evidence. *)
Theorem C69_unique : forall cs e e', describes cs e -> describes cs e' -> e = e'.
Proof. exact describes_unique. Qed.
Print Assumptions C69_unique.

(** [build_evidence], which the other theorems use, is the usual chain of calls. *)
Theorem C69_chain : forall n t l,
  eb_run (WithNode n :: WithType t :: map (fun p => WithEvidence (fst p) (snd p)) l ++ [BuildIt]) = [Some (build_evidence n t l)].
Proof. exact c69_chain. Qed.
Print Assumptions C69_chain.

(** the likelihood of x is given twice; the second evidence has another node and keeps the values of the first *)
Example C69_case :
  map (option_map (fun e => (ev_node e, ev_type e, map (fun p => (fst p, this (snd p))) (ev_values e))))
    (eb_run [WithEvidence "x" (qfrac 1 2); WithNode n_b; WithEvidence "y" 1%Qc; WithEvidence "x" (qfrac 1 4); BuildIt; WithType VIRTUAL; WithNode n_a; BuildIt]%string) =
  [Some (2%Z, OBSERVATION, [("x", this (qfrac 1 4)); ("y", this 1%Qc)]%string); Some (10%Z, VIRTUAL, [("x", this (qfrac 1 4)); ("y", this 1%Qc)]%string)].
Proof. vm_compute. reflexivity. Qed.
