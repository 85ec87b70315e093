(** What the networks made from libpgm dictionaries and from data should be. *)
From Coq Require Import Sorting.Sorted.
From Verif Require Import Py M_Graph M_Node M_Factory Spec SpecNet.
Open Scope nat_scope.

(** The calls build a network over the names [V]: [id] numbers them, [vals] are their values, [pars] their parents in order.
    [rows c] is the order in which the table of [c] lists the parents, and [entry c a] is the number in the table for the
    values [a] (by name) of [c] and its parents. *)
Record describes (ops : list bop) (V : list string) (id : string -> Z) (vals pars rows : string -> list string)
    (entry : string -> (string -> string) -> Qc) : Prop := {
  ds_id : forall x y, In x V -> In y V -> id x = id y -> x = y;
  ds_vars : Permutation (net_vars ops) (map id V);
  ds_name : forall c, In c V -> net_name ops (id c) = c;
  ds_dom : forall c, In c V -> net_dom ops (id c) = vals c;
  ds_par : forall c, In c V -> net_par ops (id c) = map id (pars c);
  ds_rows : forall c, In c V -> Permutation (rows c) (pars c);
  ds_size : forall c, In c V -> List.length (net_cpt ops (id c)) = size (net_dom ops) (map id (rows c) ++ [id c]);
  ds_entry : forall c a, In c V -> okon (net_dom ops) (map id (rows c) ++ [id c]) a ->
    nth (row_index (net_dom ops) (map id (rows c) ++ [id c]) a) (net_cpt ops (id c)) 0%Qc = entry c (fun x => a (id x)) }.

(** ** libpgm *)
Definition lp_vals (bn : libpgm) (c : string) : list string := match dget (lp_data bn) c with Some d => vd_vals d | None => [] end.
Definition lp_ord (bn : libpgm) (c : string) : Z := match dget (lp_data bn) c with Some d => vd_ord d | None => 0%Z end.
Definition lp_pars (bn : libpgm) (c : string) : list string :=
  match dget (lp_data bn) c with Some d => match vd_parents d with Some ps => ps | None => [] end | None => [] end.
(** the key of a combination of parents' values: ['x', 'y'] *)
Definition lp_key (vs : list string) : string :=
  ("[" ++ String.concat ", " (map (fun v => "'" ++ v ++ "'") vs) ++ "]")%string.
(** the probabilities of [c] given the values of its parents *)
Definition lp_row (bn : libpgm) (c : string) (vs : list string) : option (list Qc) :=
  match dget (lp_data bn) c with
  | Some d => match vd_cprob d with
              | Plain l => match vs with [] => Some l | _ => None end
              | Keyed m => match vs with [] => None | _ => dget m (lp_key vs) end
              end
  | None => None
  end.
Definition lp_entry (bn : libpgm) (c : string) (a : string -> string) : Qc :=
  match lp_row bn c (map a (lp_pars bn c)) with Some l => nth (pos (a c) (lp_vals bn c)) l 0%Qc | None => 0%Qc end.
(** all combinations of the values of the parents *)
Definition combination (vals : string -> list string) (ps vs : list string) : Prop := Forall2 (fun p v => In v (vals p)) ps vs.
Record libpgm_ok (bn : libpgm) : Prop := {
  lo_V : NoDup (lp_V bn) /\ lp_V bn <> [];
  lo_keys : NoDup (map fst (lp_data bn)) /\ forall c, In c (map fst (lp_data bn)) <-> In c (lp_V bn);
  lo_ord : forall x y, In x (lp_V bn) -> In y (lp_V bn) -> lp_ord bn x = lp_ord bn y -> x = y;
  lo_vals : forall c, In c (lp_V bn) -> NoDup (lp_vals bn c) /\ lp_vals bn c <> [];
  lo_pars : forall c, In c (lp_V bn) -> NoDup (lp_pars bn c) /\ incl (lp_pars bn c) (lp_V bn) /\ ~ In c (lp_pars bn c);
  lo_rows : forall c vs, In c (lp_V bn) -> combination (lp_vals bn) (lp_pars bn c) vs ->
    exists l, lp_row bn c vs = Some l /\ List.length l = List.length (lp_vals bn c) /\ forall q, In q l -> (0 <= q)%Qc }.

(** ** data *)
Definition columns (df : frame) : list string := map fst df.
Definition cells (df : frame) (c : string) : list string := match dget df c with Some l => l | None => [] end.
(** rows of the data, as functions from column names to cells *)
Definition row (df : frame) (i : nat) (c : string) : string := nth i (cells df c) EmptyString.
Definition records (df : frame) (n : nat) : list (string -> string) := map (row df) (seq 0 n).
(** records among [l] that agree with [a] on [cs] *)
Definition agreeing (l : list (string -> string)) (cs : list string) (a : string -> string) : list (string -> string) :=
  filter (fun r => forallb (fun c => String.eqb (r c) (a c)) cs) l.
Definition count (l : list (string -> string)) (cs : list string) (a : string -> string) : Qc := qn (List.length (agreeing l cs a)).
(** relative frequency of [a c] among the records agreeing with [a] on [ps]; uniform over the [k] values if there are none *)
Definition frequency (l : list (string -> string)) (c : string) (ps : list string) (k : nat) (a : string -> string) : Qc :=
  if Nat.eqb (List.length (agreeing l ps a)) 0 then (1 / qn k)%Qc else (count l (c :: ps) a / count l ps a)%Qc.

Record frame_ok (df : frame) (n : nat) : Prop := {
  fo_cols : NoDup (columns df) /\ columns df <> [];
  fo_len : forall c l, In (c, l) df -> List.length l = n;
  fo_some : 0 < n;
  fo_ident : forall c, In c (columns df) -> identifier c = true;
  fo_text : forall c x, In x (cells df c) -> plain_text x = true }.
Record structure_ok (structure : list (string * list string)) (df : frame) : Prop := {
  so_keys : NoDup (map fst structure) /\ forall c, In c (map fst structure) <-> In c (columns df);
  so_pars : forall c ps, In (c, ps) structure -> NoDup ps /\ incl ps (columns df) /\ ~ In c ps }.
Definition parents_of (structure : list (string * list string)) (c : string) : list string :=
  match dget structure c with Some ps => ps | None => [] end.
(** ordered as strings *)
Definition by_name (l : list string) : Prop := StronglySorted (fun a b => str_leb a b = true) l.
(** [vs] lists what occurs in a column, once, in order *)
Definition values_of (df : frame) (c : string) (vs : list string) : Prop :=
  NoDup vs /\ by_name vs /\ forall x, In x vs <-> In x (cells df c).
(** no chain of columns, each of which has the next one's name among its cells, comes back to itself *)
Definition cell_in (df : frame) (x c : string) : Prop := In c (columns df) /\ In x (cells df c).
