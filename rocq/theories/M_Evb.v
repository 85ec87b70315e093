(** EvidenceBuilder (jointree.py:645-698) as an object: its state and its calls. *)
From Verif Require Import Py M_Node M_Pptc.

(** jointree.py:650-656 *)
Record ebuilder := mkEb { eb_node : option bnode; eb_type : evtype; eb_values : list (string * Qc) }.
Definition eb_new : ebuilder := mkEb None OBSERVATION [].
(** jointree.py:658-666 *)
Definition with_node (b : ebuilder) (n : bnode) : ebuilder := mkEb (Some n) (eb_type b) (eb_values b).
(** jointree.py:668-676 *)
Definition with_type (b : ebuilder) (t : evtype) : ebuilder := mkEb (eb_node b) t (eb_values b).
(** jointree.py:678-687 *)
Definition with_evidence (b : ebuilder) (v : string) (q : Qc) : ebuilder := mkEb (eb_node b) (eb_type b) (dset (eb_values b) v q).
(** jointree.py:716-725 *)
Definition add_value (e : evidence) (v : string) (q : Qc) : evidence := mkEv (ev_node e) (ev_dom e) (ev_type e) (dset (ev_values e) v q).
(** jointree.py:689-698: a new Evidence object, filled from the builder. [None]: an Evidence without node, on which validate raises. *)
Definition eb_build (b : ebuilder) : option evidence :=
  match eb_node b with
  | None => None
  | Some n => Some (fold_left (fun e p => add_value e (fst p) (snd p)) (eb_values b) (mkEv (n_id n) (n_values n) (eb_type b) []))
  end.

(** a program with one builder: the calls in order, and what the [build] calls return *)
Inductive ebcall := WithNode (n : bnode) | WithType (t : evtype) | WithEvidence (v : string) (q : Qc) | BuildIt.
Definition eb_step (st : ebuilder * list (option evidence)) (c : ebcall) : ebuilder * list (option evidence) :=
  match c with
  | WithNode n => (with_node (fst st) n, snd st)
  | WithType t => (with_type (fst st) t, snd st)
  | WithEvidence v q => (with_evidence (fst st) v q, snd st)
  | BuildIt => (fst st, snd st ++ [eb_build (fst st)])
  end.
Definition eb_run (cs : list ebcall) : list (option evidence) := snd (fold_left eb_step cs (eb_new, [])).
