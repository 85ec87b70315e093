(** How the draws that the sampler keeps are spread over the assignments. *)
From Verif Require Import Py M_Node Spec SpecNet SpecSamp.

(** the likelihoods of having seen the values [ev] *)
Definition seen (ev : list (Z * string)) : likelihood :=
  fun i v => match dget ev i with Some x => if string_dec v x then 1%Qc else 0%Qc | None => 1%Qc end.
(** what [ev] says of the variables [vs] *)
Definition only (vs : list Z) (ev : list (Z * string)) : list (Z * string) := filter (fun p => mem (fst p) vs) ev.
(** the assignment has the values of the evidence *)
Definition has_values (ev : list (Z * string)) (a : asg) : bool := forallb (fun p => String.eqb (a (fst p)) (snd p)) ev.
(** sides of the box of draws that select the values [a] gives to [vs], and its volume *)
Definition volume (lo hi : Z -> Qc) (vs : list Z) : Qc := qprod (map (fun v => (hi v - lo v)%Qc) vs).
(** volume of the draws kept, when those kept with the sample [a] have the volume [vol a]; and of those with the value [x] for [i] *)
Definition all_kept (N : net) (ev : list (Z * string)) (vol : asg -> Qc) : Qc :=
  sums (dom N) (vars N) (fun a => if has_values ev a then vol a else 0%Qc) no_asg.
Definition kept_with (N : net) (ev : list (Z * string)) (vol : asg -> Qc) (i : Z) (x : string) : Qc :=
  sums (dom N) (vars N) (fun a => if has_values ev a then if string_dec (a i) x then vol a else 0%Qc else 0%Qc) no_asg.
(** [back] is the longest block of evidence variables at the end of the order of visits *)
Definition cut_at_evidence (order : list Z) (ev : list (Z * string)) (front back : list Z) : Prop :=
  order = front ++ back /\ incl back (dkeys ev) /\ forall before v, front = before ++ [v] -> ~ In v (dkeys ev).
