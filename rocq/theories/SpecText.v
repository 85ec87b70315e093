(** Entries of potentials as assignments of values to variables. *)
From Coq Require Import Ascii.
From Verif Require Import Py M_Node.

(** each variable once, no value with a bar in it *)
Definition plain_entry (e : pentry) : Prop :=
  NoDup (map fst (pe_map e)) /\ forall k v, In (k, v) (pe_map e) -> ~ In "|"%char (list_ascii_of_string v).
(** the same variables with the same values, in whatever order *)
Definition same_assignment (e e' : pentry) : Prop := Permutation (pe_map e) (pe_map e').
