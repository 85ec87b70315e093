(** Independent specifications: small mathematical definitions the theorems are stated against. They do not refer to
    the model of the code. *)
From Verif Require Import Py.

(** There is a (possibly empty) path along [R]. *)
Inductive path {K : Type} (R : K -> K -> Prop) : K -> K -> Prop :=
| path_refl x : path R x x
| path_step x y z : R x y -> path R y z -> path R x z.

(** No non-empty path leads back to its start. *)
Definition acyclic {K : Type} (R : K -> K -> Prop) : Prop := forall x y, R x y -> path R y x -> False.

(** Undirected version of a relation *)
Definition sym {K : Type} (R : K -> K -> Prop) : K -> K -> Prop := fun x y => R x y \/ R y x.

(** ** Finite sums over assignments *)

(** An assignment gives every variable (by id) a value. *)
Definition asg := Z -> string.
Definition upd (a : asg) (v : Z) (x : string) : asg := fun u => if Z.eqb u v then x else a u.

(** Sum of [f] over all values of the variables [vs], the others fixed by [a]. *)
Fixpoint sums (dom : Z -> list string) (vs : list Z) (f : asg -> Qc) (a : asg) : Qc :=
  match vs with
  | [] => f a
  | v :: t => qsum (map (fun x => sums dom t f (upd a v x)) (dom v))
  end.

(** [a] gives every variable of [vs] one of its values. *)
Definition okon (dom : Z -> list string) (vs : list Z) (a : asg) : Prop := forall v, In v vs -> In (a v) (dom v).

(** [f] looks only at the variables [vs]. *)
Definition dep (vs : list Z) (f : asg -> Qc) : Prop := forall a b, (forall v, In v vs -> a v = b v) -> f a = f b.

(** ** Discrete networks and their exact posteriors *)

(** position of a value in a list *)
Fixpoint pos (x : string) (l : list string) : nat :=
  match l with [] => 0 | y :: t => if String.eqb x y then 0 else S (pos x t) end.

(** number of combinations of values of [vs] *)
Fixpoint size (dom : Z -> list string) (vs : list Z) : nat :=
  match vs with [] => 1 | v :: t => List.length (dom v) * size dom t end.

(** row-major position of [a]'s values of [vs]: the last variable varies fastest *)
Fixpoint row_index (dom : Z -> list string) (vs : list Z) (a : asg) : nat :=
  match vs with [] => 0 | v :: t => pos (a v) (dom v) * size dom t + row_index dom t a end.

(** A network: variables, their values, their parents (in order) and their conditional probability tables. *)
Record net := mkNet { vars : list Z; dom : Z -> list string; par : Z -> list Z; cpt : Z -> list Qc }.

(** P(v = a v | parents as in a): the CPT lists the parents in order, then the variable itself *)
Definition cpt_entry (n : net) (v : Z) (a : asg) : Qc := nth (row_index (dom n) (par n v ++ [v]) a) (cpt n v) 0%Qc.

(** likelihoods of evidence: 1 everywhere when nothing is known *)
Definition likelihood := Z -> string -> Qc.
Definition no_evidence : likelihood := fun _ _ => 1%Qc.

(** the same likelihoods, on the values the variables have *)
Definition agree (n : net) (l l' : likelihood) : Prop := forall i v, In i (vars n) -> In v (dom n i) -> l i v = l' i v.

(** product of all CPT entries and likelihoods at a full assignment *)
Definition weight (n : net) (l : likelihood) (a : asg) : Qc :=
  (qprod (map (fun v => cpt_entry n v a) (vars n)) * qprod (map (fun v => l v (a v)) (vars n)))%Qc.

Definition no_asg : asg := fun _ => EmptyString.
(** sum over all assignments *)
Definition total (n : net) (l : likelihood) : Qc := sums (dom n) (vars n) (weight n l) no_asg.
(** sum over the assignments that give [v] the value [x] *)
Definition mass_of (n : net) (l : likelihood) (v : Z) (x : string) : Qc :=
  sums (dom n) (vars n) (fun a => if string_dec (a v) x then weight n l a else 0%Qc) no_asg.
(** posterior probability; 0 when the evidence is impossible *)
Definition exact_posterior (n : net) (l : likelihood) (v : Z) (x : string) : Qc :=
  if Qc_eq_dec (total n l) 0%Qc then 0%Qc else (mass_of n l v x / total n l)%Qc.

(** [p] is a parent of [v] *)
Definition is_parent (n : net) (p v : Z) : Prop := In v (vars n) /\ In p (par n v).

(** the evidence has positive probability *)
Definition possible (n : net) (l : likelihood) : Prop := total n l <> 0%Qc.
(** the two assignments give the variables [vs] the same values *)
Definition same_on (vs : list Z) (a b : asg) : bool := forallb (fun v => String.eqb (a v) (b v)) vs.
(** unnormalised marginal: sum over the assignments that agree with [a] on [vs] *)
Definition marginal (n : net) (l : likelihood) (vs : list Z) (a : asg) : Qc :=
  sums (dom n) (vars n) (fun b => if same_on vs b a then weight n l b else 0%Qc) no_asg.

(** no edge of the list joins two points that the other edges already connect *)
Definition no_cycle {K : Type} (es : list (K * K)) : Prop :=
  forall es1 u v es2, es = es1 ++ (u, v) :: es2 -> ~ path (sym (fun x y => In (x, y) (es1 ++ es2))) u v.
