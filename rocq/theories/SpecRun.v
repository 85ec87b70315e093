(** Loops that go on until enough draws have been kept. *)
From Verif Require Import Py M_Node M_Sampling Spec SpecNet SpecSamp.

(** the loop of get_samples is left, with the result [l], when the random numbers are those of the endless sequence [f] *)
Definition returns (s : sampler) (ev : sample) (n : nat) (f : nat -> list Qc) (l : list sample) : Prop :=
  exists k, get_samples s ev n (map f (seq 0 k)) = Ok l.
(** it is never left: however many draws are made, more are needed *)
Definition runs_for_ever (s : sampler) (ev : sample) (n : nat) (f : nat -> list Qc) : Prop :=
  forall k, get_samples s ev n (map f (seq 0 k)) = Err OutOfFuel.
(** the values drawn without regard to the evidence are those of the evidence *)
Definition draws_fit (s : sampler) (ev : sample) (us : list Qc) : Prop := exists full, sample_once s [] us = Ok full /\ fits ev full.
(** an assignment of positive probability has the values of the evidence *)
Definition evidence_possible (N : net) (ev : sample) : Prop :=
  exists a, okon (dom N) (vars N) a /\ (forall i x, dget ev i = Some x -> a i = x) /\ (0 < weight N no_evidence a)%Qc.
