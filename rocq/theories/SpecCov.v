(** What makes an array of numbers the covariances of some variables. *)
From Verif Require Import Py M_Gauss SpecGauss.
Open Scope Qc_scope.

Definition variance (c : string -> string -> Qc) (a : combination) : Qc := combined_cov c a a.
(** no combination of variables has a negative variance *)
Definition no_negative (c : string -> string -> Qc) (H : list string) : Prop := forall a, incl (map snd a) H -> 0 <= variance c a.
(** a combination that is more than writing 0 in another way *)
Definition nontrivial (a : combination) : Prop := NoDup (map snd a) /\ exists p, In p a /\ fst p <> 0.
(** and no variable is fixed by others *)
Definition unfixed (c : string -> string -> Qc) (H : list string) : Prop := forall a, incl (map snd a) H -> nontrivial a -> variance c a <> 0.
