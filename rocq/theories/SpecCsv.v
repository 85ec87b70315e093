(** Texts that survive a CSV file. *)
From Coq Require Import Ascii.
From Verif Require Import Py M_Graph M_Node Spec SpecNet.
Open Scope nat_scope.

(** tab, newline, vertical tab, form feed, carriage return, the four separators, space, next line, no-break space *)
Definition white (c : ascii) : Prop := In (nat_of_ascii c) [9; 10; 11; 12; 13; 28; 29; 30; 31; 32; 133; 160].
(** comma, bar, newline, carriage return *)
Definition special (c : ascii) : Prop := In (nat_of_ascii c) [44; 124; 10; 13].
(** not empty, without special characters, without white space at either end *)
Record clean (s : string) : Prop := {
  cn_some : s <> EmptyString;
  cn_free : forall c, In c (list_ascii_of_string s) -> ~ special c;
  cn_head : forall c l, list_ascii_of_string s = c :: l -> ~ white c;
  cn_last : forall c l, list_ascii_of_string s = l ++ [c] -> ~ white c }.
(** all names and values are *)
Definition clean_texts (ops : list bop) : Prop :=
  forall i, In i (net_vars ops) -> clean (net_name ops i) /\ forall v, In v (net_dom ops i) -> clean v.
(** numbers are printed so that they can be read back *)
Definition number_format (show : Qc -> string) (read : string -> option Qc) : Prop :=
  forall q, read (show q) = Some q /\ clean (show q).
