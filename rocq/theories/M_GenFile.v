(** Model of pybbn/generator/bbngenerator.py: what is done with generated networks. *)
From Coq Require Import Ascii.
From Verif Require Import Py M_Graph M_Node M_Nx M_Gen M_Serde M_Csv.
Open Scope nat_scope.

(** bbngenerator.py:78-87 __edge_exists__ *)
Definition edge_exists (i j : Z) (g : digraph) : res bool := s <- successors g i ;; Ok (mem j s).

(** bbngenerator.py:391-408 convert_for_drawing *)
Definition convert_for_drawing (b : bbn) : digraph :=
  let g := fold_left (fun g kn => dg_add_node g (n_id (snd kn))) (g_nodes (b_g b)) dg_empty in
  fold_left (fun g ke => dg_add_edge g (n_id (e_i (snd ke))) (n_id (e_j (snd ke)))) (g_edges (b_g b)) g.

(** [s.endswith(t)] *)
Definition endswith (s t : string) : bool :=
  Nat.leb (String.length t) (String.length s) && String.eqb (substring (String.length s - String.length t) (String.length t) s) t.

(** what is written: the text of a CSV file, or the dictionary a JSON file holds (with string keys) *)
Inductive bbn_file := CsvFile (text : string) | JsonFile (d : bbndict).
(** bbngenerator.py:425-428 *)
Definition generate (bbn_type : string) dir n max_iter max_values ints units draws : res (digraph * list (Z * gparams)) :=
  if String.eqb bbn_type "singly" then generate_singly_bbn dir n max_iter max_values ints units draws else generate_multi_bbn dir n max_iter max_values ints draws.
(** bbngenerator.py:411-435 generate_bbn_to_file; [show] prints a float *)
Definition generate_bbn_to_file (show : Qc -> string) dir n (path bbn_type : string) max_iter max_values ints units draws : res bbn_file :=
  gp <- generate bbn_type dir n max_iter max_values ints units draws ;;
  b <- convert_for_exact_inference (fst gp) (snd gp) ;;
  Ok (if endswith path "csv" then CsvFile (to_csv show b) else JsonFile (json_bbn (bbn_to_dict b))).
(** dag.py:298-308 from_json and dag.py:180-226 from_csv, each for its kind of file *)
Definition bbn_from_file (read : string -> option Qc) (f : bbn_file) : res bbn :=
  match f with CsvFile s => from_csv read s | JsonFile d => bbn_from_dict d end.

(** ** JSON of a structure and its parameters *)
(** values given to json.dumps; [JNpInt] is a numpy.int64, which is not an int. A numpy.float64 is a float. *)
Inductive jval := JInt (z : Z) | JNpInt (z : Z) | JFloat (q : Qc) | JList (l : list jval) | JObj (l : list (string * jval)).
Fixpoint serialisable (v : jval) : bool :=
  match v with
  | JNpInt _ => false
  | JList l => forallb serialisable l
  | JObj l => forallb (fun kv => match kv with (_, v) => serialisable v end) l
  | _ => true
  end.
(** json.dumps raises TypeError for objects of unknown types; the value stands for its text *)
Definition json_dumps (v : jval) : res jval := if serialisable v then Ok v else Err TypeError.
(** bbngenerator.py:301-304: num_values is a numpy array, so its entries are numpy.int64, and so is the product of some of
    them; without parents the number of instantiations is the int 1 *)
Definition shape_val (x : gparams) : jval :=
  JList [match gp_parents x with [] => JInt (Z.of_nat (fst (gp_shape x))) | _ => JNpInt (Z.of_nat (fst (gp_shape x))) end; JNpInt (Z.of_nat (snd (gp_shape x)))].
(** bbngenerator.py:311-329 to_json; [pretty] only changes the layout *)
Definition gen_to_json (g : digraph) (params : list (Z * gparams)) (pretty : bool) : res jval :=
  json_dumps (JObj [
    ("nodes"%string, JList (map JInt (dg_nodes g)));
    ("edges"%string, JList (map (fun e => JObj [("pa"%string, JInt (fst e)); ("ch"%string, JInt (snd e))]) (edge_list g)));
    ("parameters"%string, JList (map (fun kx => JObj [("node"%string, JInt (fst kx)); ("params"%string, JList (map JFloat (List.concat (gp_params (snd kx))))); ("shape"%string, shape_val (snd kx))]) params))]).
