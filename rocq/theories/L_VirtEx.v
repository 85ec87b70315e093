(** The example of PropVirt. *)
From Verif Require Import Py M_Node M_Pptc Spec SpecNet SpecEv SpecCohere SpecVirt L_Check Ex L_CohereEx.
Local Open Scope string_scope.

Definition hint : evidence := build_evidence n_b VIRTUAL [("y", qfrac 9 10); ("x", qfrac 3 10); ("z", qfrac 1 2)].
Definition sign : bnode := new_node 7 "s" ["seen"; "not seen"] [qfrac 3 10; qfrac 7 10; qfrac 9 10; qfrac 1 10; qfrac 1 2; qfrac 1 2].
Lemma sign_ok : witness diamond hint sign "seen" "not seen".
Proof.
  constructor.
  - vm_compute. intuition discriminate.
  - vm_compute. intuition discriminate.
  - reflexivity.
  - split; [reflexivity|discriminate].
  - change (n_probs sign) with [qfrac 3 10; qfrac 7 10; qfrac 9 10; qfrac 1 10; qfrac 1 2; qfrac 1 2].
    change (net_dom diamond (ev_node hint)) with ["x"; "y"; "z"]. cbn [flat_map List.app].
    repeat (f_equal; [apply Qc_is_canon; vm_compute; reflexivity|]). reflexivity.
Qed.
(** every value of every variable of [ops] is reported with the same number by both sessions *)
Definition same_answers (ops : list bop) (h : history) (ops' : list bop) (h' : history) : bool :=
  forallb (fun i => forallb (fun v => qeqb (told ops h i v) (told ops' h' i v) && qleb 0 (told ops h i v)) (net_dom ops i)) (net_vars ops).
