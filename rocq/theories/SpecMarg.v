(** What the marginals of a Gaussian and samples from them are, variable by variable. *)
From Verif Require Import Py M_Gauss SpecGauss.
Open Scope Qc_scope.

(** name, mean and variance of one variable *)
Definition mg_name (x : string * Qc * Qc) : string := fst (fst x).
Definition mg_mean (x : string * Qc * Qc) : Qc := snd (fst x).
Definition mg_var (x : string * Qc * Qc) : Qc := snd x.
(** the series is [m + s * z], number by number *)
Definition spread_of (m s : Qc) (zs xs : list Qc) : Prop := Forall2 (fun z x => x = m + s * z) zs xs.
