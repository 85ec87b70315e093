(** Model of pybbn/graph/factory.py: networks from libpgm dictionaries and from data. *)
From Verif Require Import Py M_Graph M_Node.
Open Scope nat_scope.

(** ** libpgm (factory.py:20-136) *)

(** the probabilities of a node: a list, or a dictionary keyed by the parents' values *)
Inductive cprob := Plain (l : list Qc) | Keyed (d : list (string * list Qc)).
(** Vdata[name]: "vals", "ord", "parents" (None or a list), "cprob" *)
Record vdata := mkVD { vd_vals : list string; vd_ord : Z; vd_parents : option (list string); vd_cprob : cprob }.
(** factory.py:41-45 LibpgmBBN (the field E is never read) *)
Record libpgm := mkLib { lp_V : list string; lp_data : list (string * vdata) }.

(** factory.py:60-70 get_parent_domains *)
Definition get_parent_domains (bn : libpgm) (name : string) : res (list (list string)) :=
  d <- dgetE (lp_data bn) name ;;
  match vd_parents d with
  | None => Ok []
  | Some ps => mapM (fun p => dp <- dgetE (lp_data bn) p ;; Ok (vd_vals dp)) ps
  end.
(** factory.py:72-80 cross_product *)
Definition cross_product (domains : list (list string)) : list (list string) :=
  match domains with [] => [] | _ => cartesian domains end.
(** factory.py:82-89 stringify_cross_product; domain_spaces is always True *)
Definition stringify (vs : list string) : string :=
  ("[" ++ join ", " (map (fun v => "'" ++ v ++ "'") vs) ++ "]")%string.
(** factory.py:91-103 get_cond_probs; slicing a dictionary and indexing a list with a string are TypeErrors *)
Definition get_cond_probs (bn : libpgm) (name : string) : res (list Qc) :=
  domains <- get_parent_domains bn name ;;
  d <- dgetE (lp_data bn) name ;;
  match map stringify (cross_product domains) with
  | [] => match vd_cprob d with Plain l => Ok l | Keyed _ => Err TypeError end
  | keys => foldM (fun probs k => match vd_cprob d with
                                  | Keyed m => cp <- dgetE m k ;; Ok (probs ++ cp)
                                  | Plain _ => Err TypeError
                                  end) keys []
  end.
(** factory.py:105-112 get_nodes *)
Definition libpgm_nodes (bn : libpgm) : res (list (string * bnode)) :=
  foldM (fun nodes name =>
           d <- dgetE (lp_data bn) name ;;
           probs <- get_cond_probs bn name ;;
           Ok (dset nodes name (new_node (vd_ord d) name (vd_vals d) probs))) (lp_V bn) [].
(** factory.py:114-123 get_edges: (parent, child) *)
Definition libpgm_edges (bn : libpgm) (nodes : list (string * bnode)) : res (list (bnode * bnode)) :=
  foldM (fun edges kv =>
           ch <- dgetE nodes (fst kv) ;;
           match vd_parents (snd kv) with
           | None => Ok edges
           | Some ps => pas <- mapM (dgetE nodes) ps ;; Ok (edges ++ map (fun pa => (pa, ch)) pas)
           end) (lp_data bn) [].
(** nodes first, then edges *)
Definition assemble (nodes : list bnode) (edges : list (bnode * bnode)) : bbn :=
  fold_left (fun b e => bbn_add_edge b (mkEdge (fst e) (snd e) DIRECTED)) edges (fold_left bbn_add_node nodes bbn_empty).
(** factory.py:125-136 from_libpgm_discrete_object, and 31-48 from_libpgm_discrete_dictionary *)
Definition from_libpgm (bn : libpgm) : res bbn :=
  nodes <- libpgm_nodes bn ;;
  edges <- libpgm_edges bn nodes ;;
  Ok (assemble (isort (fun a b => Z.leb (n_id a) (n_id b)) (dvals nodes)) edges).

(** ** data frames (factory.py:138-232) *)

(** a data frame of strings: columns of equal length, by name *)
Definition frame := list (string * list string).
(** df.shape[0] *)
Definition n_rows (df : frame) : nat := match df with [] => 0 | (_, cells) :: _ => List.length cells end.
(** the cell of row [i] in column [c] *)
Definition cell (df : frame) (c : string) (i : nat) : option string :=
  match dget df c with Some cells => nth_error cells i | None => None end.

(** factory.py:148-153 get_profile *)
Definition get_profile (df : frame) : list (string * list string) :=
  fold_left (fun d c => dset d (fst c) (isort str_leb (sof (snd c)))) df [].

(** nx.DiGraph on strings: nodes and edges in insertion order *)
Record sgraph := mkSG { sg_nodes : list string; sg_edges : list (string * string) }.
Definition edge_eqb (a b : string * string) : bool := String.eqb (fst a) (fst b) && String.eqb (snd a) (snd b).
Definition sg_add_edge (g : sgraph) (a b : string) : sgraph :=
  mkSG (sadd (sadd (sg_nodes g) a) b) (if existsb (edge_eqb (a, b)) (sg_edges g) then sg_edges g else sg_edges g ++ [(a, b)]).
Definition sg_succ (g : sgraph) (v : string) : list string := map snd (filter (fun e => String.eqb (fst e) v) (sg_edges g)).
Definition sg_indegree (g : sgraph) (v : string) : nat := List.length (filter (fun e => String.eqb (snd e) v) (sg_edges g)).

(** networkx topological_sort, one node at a time: a generation is what the one before it appended to the queue. Raises
    NetworkXUnfeasible when a cycle remains. *)
Fixpoint kahn (fuel : nat) (g : sgraph) (queue : list string) (indegree : list (string * nat)) (out : list string) : res (list string) :=
  match queue with
  | [] => match indegree with [] => Ok out | _ => Err NetworkXError end
  | v :: q =>
      match fuel with
      | O => Err OutOfFuel
      | S f =>
          st <- foldM (fun st c => d <- dgetE (fst st) c ;;
                                   if Nat.eqb d 1 then Ok (dpop (fst st) c, snd st ++ [c]) else Ok (dset (fst st) c (d - 1), snd st))
                      (sg_succ g v) (indegree, []) ;;
          kahn f g (q ++ snd st) (fst st) (out ++ [v])
      end
  end.
Definition topological (g : sgraph) : res (list string) :=
  kahn (List.length (sg_nodes g)) g (filter (fun v => Nat.eqb (sg_indegree g v) 0) (sg_nodes g))
       (map (fun v => (v, sg_indegree g v)) (filter (fun v => negb (Nat.eqb (sg_indegree g v) 0)) (sg_nodes g))) [].

(** factory.py:155-163 get_n2i. It is given the data frame instead of the structure, so the "parents" of a column are its
    cells. *)
Definition frame_graph (df : frame) : sgraph :=
  let g := fold_left (fun g c => mkSG (sadd (sg_nodes g) (fst c)) (sg_edges g)) df (mkSG [] []) in
  fold_left (fun g c => fold_left (fun g pa => sg_add_edge g pa (fst c)) (snd c) g) df g.
Definition data_n2i (df : frame) : res (list (string * Z)) :=
  nodes <- topological (frame_graph df) ;;
  Ok (fold_left (fun d p => dset d (snd p) (Z.of_nat (fst p))) (combine (seq 0 (List.length nodes)) nodes) []).

(** Queries are written as text, n=="v" and ..., so their meaning is clear only for column names that are identifiers and for
    values of printable characters other than the double quote, the backslash and the backtick. Anything else is an error in the
    model, whatever pandas makes of it. *)
Definition letter (c : ascii) : bool :=
  let n := nat_of_ascii c in (Nat.leb 97 n && Nat.leb n 122) || (Nat.leb 65 n && Nat.leb n 90) || Nat.eqb n 95.
Definition digit (c : ascii) : bool := let n := nat_of_ascii c in Nat.leb 48 n && Nat.leb n 57.
Definition keywords : list string :=
  ["False"; "None"; "True"; "and"; "as"; "assert"; "async"; "await"; "break"; "class"; "continue"; "def"; "del"; "elif"; "else";
   "except"; "finally"; "for"; "from"; "global"; "if"; "import"; "in"; "is"; "lambda"; "nonlocal"; "not"; "or"; "pass"; "raise";
   "return"; "try"; "while"; "with"; "yield"]%string.
Definition identifier (s : string) : bool :=
  match list_ascii_of_string s with
  | [] => false
  | c :: t => letter c && forallb (fun x => letter x || digit x) t && negb (mem s keywords)
  end.
Definition plain_text (s : string) : bool :=
  forallb (fun c => let n := nat_of_ascii c in
                    Nat.leb 32 n && Nat.leb n 126 && negb (Nat.eqb n 34) && negb (Nat.eqb n 92) && negb (Nat.eqb n 96)) (list_ascii_of_string s).

(** number of rows with these cells *)
Definition rows_with (df : frame) (q : list (string * string)) : nat :=
  List.length (filter (fun i => forallb (fun nv => match cell df (fst nv) i with Some x => String.eqb x (snd nv) | None => false end) q)
                      (seq 0 (n_rows df))).
(** df.query(...).shape[0]; the empty text is refused *)
Definition query (df : frame) (q : list (string * string)) : res nat :=
  if match q with [] => true | _ => false end then Err ValueError else
  if forallb (fun nv => identifier (fst nv) && plain_text (snd nv)) q then Ok (rows_with df q) else Err PlainException.
Definition qn (n : nat) : Qc := Q2Qc (Z.of_nat n # 1).

(** factory.py:165-205 get_cpt. [n] is the number of rows; when the loops run at all there is at least one row, so the
    divisions by it do not fail. *)
Definition get_cpt (name : string) (parents : list string) (n2v : list (string * list string)) (df : frame) : res (list Qc) :=
  let parents := isort str_leb parents in
  let n2v := map (fun kv => (fst kv, isort str_leb (snd kv))) n2v in
  let n := qn (n_rows df) in
  values <- dgetE n2v name ;;
  match parents with
  | [] => Ok (map (fun v => (qn (rows_with df [(name, v)]) / n)%Qc) values)
  | _ =>
      let domains := isort (fun a b => str_leb (fst a) (fst b)) (filter (fun kv => mem (fst kv) parents) n2v) in
      let domain_names := map fst domains in
      foldM (fun cpts vs =>
               let denom_q := combine domain_names vs in
               probs <- mapM (fun v => numer <- query df ((name, v) :: denom_q) ;; denom <- query df denom_q ;;
                                       let numer := (qn numer / n)%Qc in let denom := (qn denom / n)%Qc in
                                       Ok (if qeqb denom 0%Qc then qfrac 1 100000 else (numer / denom)%Qc)) values ;;
               let total := qsum probs in
               Ok (cpts ++ map (fun p => (p / total)%Qc) probs))
            (cartesian (map snd domains)) []
  end.

(** factory.py:138-232 from_data; [structure] maps children to lists of parents. The "name" of each parentless node's query
    is a direct comparison (factory.py:174), not a query. *)
Definition from_data (structure : list (string * list string)) (df : frame) : res bbn :=
  let n2v := get_profile df in
  n2i <- data_n2i df ;;
  n2c <- foldM (fun d kv => c <- get_cpt (fst kv) (snd kv) n2v df ;; Ok (dset d (fst kv) c)) structure [] ;;
  nodes <- foldM (fun d kv => idx <- dgetE n2i (fst kv) ;; cpts <- dgetE n2c (fst kv) ;;
                              Ok (dset d (fst kv) (new_node idx (fst kv) (snd kv) cpts))) n2v [] ;;
  let b := fold_left bbn_add_node (dvals nodes) bbn_empty in
  foldM (fun b kv => ch <- dgetE nodes (fst kv) ;;
                     foldM (fun b pa => p <- dgetE nodes pa ;; Ok (bbn_add_edge b (mkEdge p ch DIRECTED))) (snd kv) b) structure b.
