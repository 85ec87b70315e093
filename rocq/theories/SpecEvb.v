(** What the calls of an evidence builder say, apart from the code. *)
From Verif Require Import Py M_Node M_Pptc M_Evb.
Open Scope nat_scope.

(** the last of a list of options that says something *)
Definition latest {A} (f : ebcall -> option A) (cs : list ebcall) : option A := find (fun _ => true) (rev (flat_map (fun c => match f c with Some a => [a] | None => [] end) cs)).
Definition node_said (c : ebcall) := match c with WithNode n => Some n | _ => None end.
Definition type_said (c : ebcall) := match c with WithType t => Some t | _ => None end.
Definition likelihood_said (v : string) (c : ebcall) := match c with WithEvidence w q => if String.eqb w v then Some q else None | _ => None end.
(** the values given a likelihood, in the order in which they were first named *)
Definition named (cs : list ebcall) : list string := flat_map (fun c => match c with WithEvidence v _ => [v] | _ => [] end) cs.
(** each member once, where it comes first *)
Fixpoint first_ones (l : list string) : list string :=
  match l with [] => [] | v :: r => v :: filter (fun w => negb (String.eqb w v)) (first_ones r) end.
(** what was said before the [k]-th of the [build] calls (counted from 0) *)
Fixpoint before_build (k : nat) (cs : list ebcall) : option (list ebcall) :=
  match cs with
  | [] => None
  | BuildIt :: r => match k with O => Some [] | S k' => option_map (cons BuildIt) (before_build k' r) end
  | c :: r => option_map (cons c) (before_build k r)
  end.
(** the evidence the calls describe *)
Definition describes (cs : list ebcall) (e : option evidence) : Prop :=
  match latest node_said cs, e with
  | None, None => True
  | Some n, Some e => ev_node e = n_id n /\ ev_dom e = n_values n /\
      ev_type e = match latest type_said cs with Some t => t | None => OBSERVATION end /\
      dkeys (ev_values e) = first_ones (named cs) /\
      forall v, dget (ev_values e) v = latest (likelihood_said v) cs
  | _, _ => False
  end.
