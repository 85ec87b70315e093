(** Properties of change detection. Nothing but theorems and examples. *)
From Verif Require Import Py M_Graph M_Node M_Pptc Spec SpecNet SpecEv L_Base L_Check Ex L_Change.
Local Open Scope string_scope.

(** C92: whatever the tree and the evidences, get_change_type answers NONE or RETRACTION, never UPDATE; *)
Theorem C92_never_update : forall j es c, get_change_type j es = Ok c -> c = CNone \/ c = CRetraction.
Proof. exact c92_change. Qed.
Print Assumptions C92_never_update.

(** and whatever the tree, each evidence call either changes nothing but the stored evidence, or ends with all tables initialised from the CPTs and the
    stored evidence and propagated. Propagation is never continued from the tables as they were. *)
Theorem C92_anew : forall o j c, let p := do_call o j c in
  exists ev, fst p = set_jevid j ev \/ (snd p = None /\ (j1 <- initialize (set_jevid j ev) ;; propagate o j1) = Ok (fst p)).
Proof. exact c92_calls. Qed.
Print Assumptions C92_anew.

(** the first evidence on a tree without any is a retraction; the same evidence again is no change *)
Example C92_case : match session ord_id diamond [], session ord_id diamond [(ord_id, Update [e_c_on])], mapM validate [e_c_on] with
  | Ok j, Ok j', Ok es => get_change_type j es = Ok CRetraction /\ get_change_type j' es = Ok CNone
  | _, _, _ => False end.
Proof. vm_compute. auto. Qed.
