(** The answers the example networks should give. *)
From Verif Require Import Py M_Graph M_Node M_Pptc M_Samples SpecEv.
Local Open Scope string_scope.

(** tables over on and off from the probabilities of on *)
Definition on_table (l : list (string * Qc)) : list (string * list (string * Qc)) :=
  map (fun p => (fst p, [("on", snd p); ("off", (1 - snd p)%Qc)])) l.
Definition frac (n : Z) (d : positive) : Qc := Q2Qc (n # d).
Definition observe (n : bnode) : evidence := build_evidence n OBSERVATION [("on", 1%Qc)].

(** the figures of tests/pptc/test_inferencecontroller.py, exactly *)
Definition huang_prior := on_table
  [("a", frac 1 2); ("b", frac 45 100); ("c", frac 45 100); ("d", frac 68 100); ("e", frac 465 1000); ("f", frac 176306 1000000);
   ("g", frac 415 1000); ("h", frac 8231 10000)].
Definition huang_given_a := on_table
  [("a", 1%Qc); ("b", frac 1 2); ("c", frac 7 10); ("d", frac 7 10); ("e", frac 39 100); ("f", frac 18934 100000); ("g", frac 59 100); ("h", frac 7826 10000)].
Definition huang_given_a_f := on_table
  [("a", 1%Qc); ("b", frac 3489 18934); ("c", frac 7553 9467); ("d", frac 350 9467); ("e", frac 195 9467); ("f", 1%Qc);
   ("g", frac 31169 47335); ("h", frac 178199 189340)].
Definition simple_prior := on_table
  [("a", frac 1 2); ("b", frac 45 100); ("c", frac 45 100); ("d", frac 68 100); ("e", frac 465 1000); ("f", frac 176306 1000000)].

(** ids of the nodes of the join tree, keys of its edges (tests/pptc/test_transformer.py) *)
Definition huang_tree_nodes : list string :=
  ["3-4-5"; "4-6-7"; "2-4-6"; "0-1-2"; "1-2-3"; "2-3-4"; "0-1-2-1-2-1-2-3"; "1-2-3-2-3-2-3-4"; "2-4-6-2-4-2-3-4"; "3-4-5-3-4-2-3-4"; "4-6-7-4-6-2-4-6"].
Definition huang_tree_edges : list string := ["0-1-2--1-2-3"; "1-2-3--2-3-4"; "2-3-4--2-4-6"; "2-3-4--3-4-5"; "2-4-6--4-6-7"].

(** the posteriors of [j] are listed by name and agree with [E] *)
Definition says (j : jtree) (E : list (string * list (string * Qc))) : Prop :=
  exists t, get_posteriors j = Ok t /\ Permutation (map fst t) (map fst E) /\ forall n l, In (n, l) E -> dget t n = Some l.
