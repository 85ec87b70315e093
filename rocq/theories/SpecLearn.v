(** What networks learned from data should report. *)
From Verif Require Import Py M_Factory Spec SpecFactory.

(** the structure names [p] as a parent of [c] *)
Definition cause (structure : list (string * list string)) (p c : string) : Prop := In p (parents_of structure c).
(** it joins all columns *)
Definition linked (structure : list (string * list string)) (df : frame) : Prop :=
  forall x y, In x (columns df) -> In y (columns df) -> path (sym (fun p c => In c (columns df) /\ cause structure p c)) x y.
(** the part of the [n] records that has [v] in the column [c] *)
Definition share (df : frame) (n : nat) (c v : string) : Qc := (count (records df n) [c] (fun _ => v) / qn n)%Qc.
(** [r] with [v] in the column [c] *)
Definition with_cell (r : string -> string) (c v : string) : string -> string := fun x => if String.eqb x c then v else r x.
(** what the likelihoods [L] of the columns say is true of the record [r] *)
Definition true_of (L : string -> string -> Qc) (cs : list string) (r : string -> string) : Prop := forall c, In c cs -> L c (r c) = 1%Qc.
