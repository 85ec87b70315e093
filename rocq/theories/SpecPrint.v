(** Reading a printed network, and what cliques and separation sets have in common. *)
From Coq Require Import Ascii.
From Verif Require Import Py M_Node SpecNet SpecStr.
Local Open Scope string_scope.

(** "id|name|value,...": the values are what is after the second bar *)
Definition read_node (s : string) : option (Z * string * list string) :=
  match cut "|" s with
  | Some (a, r) => match integer a, cut "|" r with Some i, Some (n, vs) => Some (i, n, fields "," vs) | _, _ => None end
  | None => None
  end.
(** all but the last character *)
Fixpoint chop (s : string) : string :=
  match s with EmptyString => EmptyString | String x EmptyString => EmptyString | String x t => String x (chop t) end.
(** "parent->child" *)
Definition read_arc (s : string) : option (Z * Z) :=
  match cut ">" s with
  | Some (a, b) => match integer (chop a), integer b with Some i, Some j => Some (i, j) | _, _ => None end
  | None => None
  end.
(** lines with a bar are nodes, the others arcs; an empty line is neither *)
Definition has_bar (s : string) : bool := existsb (Ascii.eqb "|") (list_ascii_of_string s).
Definition is_blank (s : string) : bool := match s with EmptyString => true | _ => false end.
Definition read_network (s : string) : option (list (Z * string * list string) * list (Z * Z)) :=
  let ls := fields line_feed s in
  match every read_node (filter has_bar ls), every read_arc (filter (fun l => negb (has_bar l || is_blank l)) ls) with
  | Some ns, Some es => Some (ns, es)
  | _, _ => None
  end.

(** names without bars, values without commas, no line feeds, at least one value each *)
Definition showable (ops : list bop) : Prop := forall i, In i (net_vars ops) ->
  lacks "|" (net_name ops i) /\ lacks line_feed (net_name ops i) /\ net_dom ops i <> [] /\
  forall v, In v (net_dom ops i) -> lacks "," v /\ lacks line_feed v.
(** [es] lists every arc once, those into a node in the order of the calls *)
Definition arcs_in_order (ops : list bop) (es : list (Z * Z)) : Prop :=
  NoDup es /\ forall j, map fst (filter (fun p => Z.eqb (snd p) j) es) = net_par ops j.

(** the variable is in both cliques *)
Definition in_both (c d : clique) (i : Z) : Prop := In i (cl_nodes c) /\ In i (cl_nodes d).
