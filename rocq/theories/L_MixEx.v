(** Tables for the examples of PropMix. *)
From Verif Require Import Py M_Node M_Pptc Spec SpecNet SpecEv SpecCohere SpecMix Ex L_SepEx.
Local Open Scope string_scope.
Local Open Scope list_scope.

Definition b_one : list Qc := [qfrac 1 2; qfrac 1 4; qfrac 1 4; 0%Qc; qfrac 1 5; qfrac 4 5].
Definition b_two : list Qc := [qfrac 1 3; qfrac 1 3; qfrac 1 3; qfrac 1 2; qfrac 1 2; 0%Qc].
Definition then_d : history := [(ord_rev, Update [e_d_t])].
(** what is reported of [y] of [k] with a new table for [b] *)
Definition told (c : list Qc) (h' : history) (k : Z) (y : string) : option Q :=
  match session ord_id diamond seen_a with
  | Ok j => match reapply ord_rev j [(2%Z, c)] with
            | Ok j1 => match do_calls j1 h' with (j2, None) => option_map this (reported j2 (net_name diamond k) y) | _ => None end
            | Err _ => None end
  | Err _ => None end.
