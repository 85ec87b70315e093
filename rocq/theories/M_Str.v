(** The texts the objects print as: the [__str__] methods of node.py, edge.py, graph.py, potential.py, triangulator.py and
    variable.py. *)
From Coq Require Import Ascii.
From Verif Require Import Py M_Graph M_Node M_Pptc M_Flat M_Text.
Local Open Scope string_scope.

Definition newline : string := String (ascii_of_nat 10) EmptyString.

(** ["{:.5f}".format(v)]: five digits after the point, the nearest number, ties to the even one. Exact rationals stand for floats;
    the text for negative zero is left out. *)
Definition digit (d : Z) : ascii := ascii_of_nat (48 + Z.to_nat d).
Definition fives (f : Z) : string :=
  String (digit (f / 10000)) (String (digit (f / 1000 mod 10)) (String (digit (f / 100 mod 10)) (String (digit (f / 10 mod 10)) (String (digit (f mod 10)) EmptyString)))).
Definition rounded (n : Z) (d : positive) : Z :=
  let q := (n / Zpos d)%Z in let r := (n mod Zpos d)%Z in
  match (2 * r ?= Zpos d)%Z with Lt => q | Gt => (q + 1)%Z | Eq => if Z.even q then q else (q + 1)%Z end.
Definition fmt5 (v : Qc) : string :=
  let n := Qnum (this v) in
  let k := rounded (100000 * Z.abs n) (Qden (this v)) in
  (if Z.ltb n 0 then "-" else "") ++ str_of_Z (k / 100000) ++ "." ++ fives (k mod 100000).

(** potential.py:128-136 PotentialEntry.__str__, __repr__ *)
Definition entry_str (e : pentry) : string :=
  join "," (map (fun p => str_of_Z (fst p) ++ "=" ++ snd p) (isort (fun p q => Z.leb (fst p) (fst q)) (pe_map e))) ++ "|" ++ fmt5 (pe_val e).
(** potential.py:47-51 Potential.__str__, __repr__ *)
Definition potential_str (p : potential) : string := join newline (map entry_str p).

(** node.py:80-83 BbnNode.__str__; 85-86 __repr__ *)
Definition node_str (n : bnode) : string := str_of_Z (n_id n) ++ "|" ++ n_name n ++ "|" ++ join "," (n_values n).
Definition node_repr (n : bnode) : string := n_name n.
(** variable.py:35-36 Variable.__str__; [repr] is Python's repr of a list of strings *)
Definition variable_str (repr : list string -> string) (n : bnode) : string := str_of_Z (n_id n) ++ "|" ++ n_name n ++ "|" ++ repr (n_values n).

(** the names of nodes given by id *)
Definition names_of (h : heap) (ids : list Z) : list string := map (h_name h) ids.
(** node.py:126-133 Clique.get_sid *)
Definition get_sid (h : heap) (c : clique) : string := join "-" (isort str_leb (names_of h (cl_nodes c))).
(** node.py:207-209 Clique.__str__ *)
Definition clique_str (h : heap) (c : clique) : string := "(" ++ join "," (isort str_leb (names_of h (cl_nodes c))) ++ ")".
(** node.py:279-282 SepSet.__str__: the names as they stand *)
Definition sepset_str (h : heap) (s : sepset) : string :=
  "|" ++ clique_str h (ss_left s) ++ " -- " ++ join "," (names_of h (ss_nodes s)) ++ " -- " ++ clique_str h (ss_right s) ++ "|".
Definition jnode_str (h : heap) (n : jnode) : string := match n with JC c => clique_str h c | JS s => sepset_str h s end.
(** edge.py:122-127 JtEdge.__str__ *)
Definition jtedge_str (h : heap) (s : sepset) : string := clique_str h (ss_left s) ++ "--" ++ sepset_str h s ++ "--" ++ clique_str h (ss_right s).
(** edge.py:80-89 SepSetEdge.__str__: the end with the smaller id first. [i] is the clique, [j] the separation set. *)
Definition sepset_edge_str (h : heap) (i : clique) (j : sepset) : string :=
  let a := if str_leb (cl_id i) (ss_id j) then cl_id i else ss_id j in
  let b := if str_leb (cl_id i) (ss_id j) then ss_id j else cl_id i in
  (if String.eqb a (cl_id i) then clique_str h i else sepset_str h j) ++ "--" ++ (if String.eqb b (ss_id j) then sepset_str h j else clique_str h i).
(** edge.py:48-49 Edge.__str__ *)
Definition edge_str {N} (nid : N -> Z) (e : edge N) : string := edge_key nid e.
(** graph.py:155-158 Graph.__str__ *)
Definition graph_str {N} (nid : N -> Z) (node_text : N -> string) (g : graph N) : string :=
  join newline (map node_text (get_nodes g)) ++ newline ++ join newline (map (edge_str nid) (get_edges g)).
(** graph.py:155-158 for a JoinTree *)
Definition jtree_str (j : jtree) : string :=
  join newline (map (jnode_str (jt_heap j)) (dvals (jt_nodes j))) ++ newline ++ join newline (map (jtedge_str (jt_heap j)) (dvals (jt_edges j))).
(** triangulator.py:172-173 NodeClique.__str__ *)
Definition nclique_str (c : nclique) : string :=
  str_of_Z (n_id (nc_node c)) ++ "|weight=" ++ str_of_Z (nc_weight c) ++ "|edges=" ++ str_of_Z (Z.of_nat (List.length (nc_edges c))) ++
  "|neighbors=" ++ str_of_Z (Z.of_nat (List.length (nc_nbrs c))).

(** node.py:182-193 Clique.contains *)
Definition contains (c : clique) (i : Z) : bool :=
  Nat.ltb 0 (List.length (filter (fun n => Z.eqb n i) (cl_nodes c))).
(** node.py:195-205 Clique.get_sep_set *)
Definition get_sep_set (self that : clique) : sepset := mk_sepset self that.
(** node.py:236-243 SepSet.is_empty: the intersection computed by the constructor *)
Definition is_empty (s : sepset) : bool :=
  match intersects (ss_left s) (ss_right s) with (_, _, _, inter) => Nat.eqb (List.length inter) 0 end.
