(** Learned tables make the data as probable as possible. Nothing but theorems and examples. *)
From Verif Require Import Py M_Graph M_Node M_Pptc M_Factory Spec SpecNet SpecPot SpecFactory L_Base L_R12 L_R4 SpecLearn SpecMle L_Learn L_Mle.
Open Scope nat_scope.

(** C117. No other tables for the same variables, values and parents make the records of the frame more probable than those from_data finds
    (parents in name order, see C37). *)
Theorem C117_most_probable : forall structure df n, frame_ok df n -> structure_ok structure df -> acyclic (cell_in df) -> (forall c, In c (columns df) -> by_name (parents_of structure c)) ->
  exists ops id vals, from_data structure df = Ok (build ops) /\
    describes ops (columns df) id vals (parents_of structure) (parents_of structure) (fun c a => frequency (records df n) c (parents_of structure c) (List.length (vals c)) a) /\
    forall N', same_structure (net_of ops) N' -> no_negative N' -> stochastic N' ->
      (data_probability N' (net_name ops) (records df n) <= data_probability (net_of ops) (net_name ops) (records df n))%Qc.
Proof. exact c117. Qed.
Print Assumptions C117_most_probable.

(** a -> c <- b, with the tables that are found and with one half everywhere *)
Example C117_case : frame_ok abc_frame 6 /\ structure_ok abc_sorted abc_frame /\ acyclic (cell_in abc_frame) /\ (forall c, In c (columns abc_frame) -> by_name (parents_of abc_sorted c)) /\
  (let N := net_of (abc_ops abc_sorted) in same_structure N (halves N) /\ no_negative (halves N) /\ stochastic (halves N) /\
   this (data_probability (halves N) (net_name (abc_ops abc_sorted)) (records abc_frame 6)) = (1 # 262144)%Q /\
   this (data_probability N (net_name (abc_ops abc_sorted)) (records abc_frame 6)) = (3125 # 14348907)%Q).
Proof.
  split; [exact abc_frame_ok|]. split; [exact abc_sorted_ok|]. split; [exact abc_acyclic|]. split; [exact abc_by_name|]. cbv zeta.
  split; [apply halves_same|]. split; [apply halves_pos|].
  split; [apply stochasticb_ok; vm_compute; reflexivity|]. split; vm_compute; reflexivity.
Qed.
