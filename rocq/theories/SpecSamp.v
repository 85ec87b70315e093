(** What sampling should do. *)
From Verif Require Import Py M_Node Spec SpecNet.

(** sum of the entries before position [i] *)
Definition below (row : list Qc) (i : nat) : Qc := qsum (firstn i row).
(** row of a table listing the variables [ps] and then [v], for the values [a] gives to [ps] *)
Definition row_for (dm : Z -> list string) (probs : list Qc) (ps : list Z) (v : Z) (a : asg) : list Qc :=
  map (fun x => nth (row_index dm (ps ++ [v]) (upd a v x)) probs 0%Qc) (dm v).
(** conditional distribution of [v] in a network, for the values [a] gives to its parents *)
Definition cpt_row (N : net) (v : Z) (a : asg) : list Qc := map (fun x => cpt_entry N v (upd a v x)) (dom N v).

(** the text has no comma *)
Fixpoint no_comma (s : string) : Prop :=
  match s with EmptyString => True | String c t => c <> ","%char /\ no_comma t end.

Definition ascending (l : list Z) : Prop := forall a x b y c, l = a ++ x :: b ++ y :: c -> (x < y)%Z.

(** every variable once, parents before children *)
Definition topological (N : net) (order : list Z) : Prop :=
  Permutation order (vars N) /\
  forall before v after p, order = before ++ v :: after -> In p (par N v) -> In p before.

(** the sampler's comparison: parents before children, otherwise by id *)
Definition precedes (N : net) (x y : Z) : Prop := In x (par N y) \/ (~ In y (par N x) /\ (x < y)%Z).
Definition consistent (N : net) : Prop := forall x y z, In x (vars N) -> In y (vars N) -> In z (vars N) ->
  precedes N x y -> precedes N y z -> precedes N x z.

(** numbers a uniform draw can give *)
Definition uniform (u : Qc) : Prop := (0 <= u)%Qc /\ (u < 1)%Qc.

(** the dictionary [d] gives the variables [vs] the values [a] gives them *)
Definition records (d : list (Z * string)) (vs : list Z) (a : asg) : Prop := forall v, In v vs -> dget d v = Some (a v).
(** the full sample [d] has the values of the evidence *)
Definition fits (evidence d : list (Z * string)) : Prop := forall i x, dget evidence i = Some x -> dget d i = Some x.
(** no value has a comma in it *)
Definition clean (ops : list bop) : Prop := forall i x, In i (net_vars ops) -> In x (net_dom ops i) -> no_comma x.
(** one uniform number per variable *)
Definition draw_for (N : net) (us : list Qc) : Prop := List.length us = List.length (vars N) /\ Forall uniform us.
(** evidence on variables of the network *)
Definition evidence_on (N : net) (ev : list (Z * string)) : Prop := NoDup (dkeys ev) /\ incl (dkeys ev) (vars N).
(** [ps] lists the parents in ascending order of ids; the network whose CPTs are the same lists, read with the parents so *)
Definition by_id (N : net) (ps : Z -> list Z) : Prop := forall v, In v (vars N) -> Permutation (ps v) (par N v) /\ ascending (ps v).
Definition read_with (N : net) (ps : Z -> list Z) : net := mkNet (vars N) (dom N) ps (cpt N).
(** the uniform number [u] selects the value [a] gives to [v], from the row for the values [a] gives to its parents *)
Definition selects (N : net) (a : asg) (v : Z) (u : Qc) : Prop :=
  exists i, nth_error (dom N v) i = Some (a v) /\ (below (cpt_row N v a) i <= u)%Qc /\ (u < below (cpt_row N v a) (S i))%Qc.
(** the evidence gives its variables values they can have *)
Definition possible_values (N : net) (ev : list (Z * string)) : Prop := forall i x, dget ev i = Some x -> In x (dom N i).
