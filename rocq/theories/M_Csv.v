(** Model of Bbn.to_csv and Bbn.from_csv (pybbn/graph/dag.py:158-227). Characters are the code points 0-255. Printing and
    reading floats are the parameters [show] and [read]. *)
From Coq Require Import Ascii.
From Verif Require Import Py M_Graph M_Node M_Serde M_Factory.
Open Scope nat_scope.

Definition chr (n : nat) : ascii := ascii_of_nat n.
Definition nl : ascii := chr 10.
Definition cr : ascii := chr 13.
Definition comma : ascii := ","%char.
Definition bar : ascii := "|"%char.

(** ** str methods *)

(** [s.split(c)] for a one-character separator *)
Fixpoint split (c : ascii) (s : string) : list string :=
  match s with
  | EmptyString => [EmptyString]
  | String a t => if Ascii.eqb a c then EmptyString :: split c t
                  else match split c t with [] => [String a EmptyString] | h :: r => String a h :: r end
  end.
(** [c.isspace()] for code points up to 255 *)
Definition whiteb (c : ascii) : bool :=
  let n := nat_of_ascii c in
  (Nat.leb 9 n && Nat.leb n 13) || (Nat.leb 28 n && Nat.leb n 32) || Nat.eqb n 133 || Nat.eqb n 160.
(** [s.lstrip()], [s.rstrip()], [s.strip()] *)
Fixpoint lstrip (s : string) : string :=
  match s with String a t => if whiteb a then lstrip t else s | EmptyString => EmptyString end.
Fixpoint rstrip (s : string) : string :=
  match s with
  | EmptyString => EmptyString
  | String a t => match rstrip t with EmptyString => if whiteb a then EmptyString else String a EmptyString | r => String a r end
  end.
Definition strip (s : string) : string := rstrip (lstrip s).

(** ** text files *)

(** reading in text mode: "\r\n" and "\r" become "\n" *)
Fixpoint universal (s : string) : string :=
  match s with
  | EmptyString => EmptyString
  | String a t => if Ascii.eqb a cr
                  then String nl (match t with String b t' => if Ascii.eqb b nl then universal t' else universal t | EmptyString => EmptyString end)
                  else String a (universal t)
  end.
(** [for line in f]: lines keep their "\n" *)
Fixpoint lines (s : string) : list string :=
  match s with
  | EmptyString => []
  | String a t => if Ascii.eqb a nl then String a EmptyString :: lines t
                  else match lines t with [] => [String a EmptyString] | h :: r => String a h :: r end
  end.

(** ** Bbn.to_csv *)
Section To.
  Context (show : Qc -> string).
  (** dag.py:168-173 *)
  Definition node_line (n : bnode) : string :=
    (str_of_Z (n_id n) ++ "," ++ n_name n ++ "," ++ join "," (n_values n) ++ ",|," ++ join "," (map show (n_probs n)))%string.
  (** dag.py:176-178 *)
  Definition edge_line (e : edge bnode) : string :=
    (str_of_Z (n_id (e_i e)) ++ "," ++ str_of_Z (n_id (e_j e)) ++ "," ++
     match e_t e with DIRECTED => "directed" | UNDIRECTED => "undirected" end)%string.
  (** dag.py:158-180: the text of the file. On the systems modelled "\n" is written as it is. *)
  Definition to_csv (b : bbn) : string :=
    String.concat EmptyString (map (fun l => (l ++ String nl EmptyString)%string)
      (map node_line (get_nodes (b_g b)) ++ map edge_line (get_edges (b_g b)))).
End To.

(** ** Bbn.from_csv *)
Section From.
  Context (read : string -> option Qc).
  (** [int(s)]: surrounding whitespace is dropped; underscores and a leading plus sign are not modelled *)
  Definition int_of (s : string) : res Z := int_of_str (strip s).
  (** dag.py:198-207: the stripped items that are not empty *)
  Definition items (s : string) : list string :=
    filter (fun x => negb (Nat.eqb (String.length x) 0)) (map strip (split comma s)).
  (** dag.py:190-215: one line *)
  Definition csv_line (acc : list (Z * bnode) * list (Z * Z)) (line : string) : res (list (Z * bnode) * list (Z * Z)) :=
    let '(nodes, edges) := acc in
    match split comma line with
    | [a; b; _] => i <- int_of a ;; j <- int_of b ;; Ok (nodes, edges ++ [(i, j)])
    | _ =>
        match split bar line with
        | lpart :: rpart :: _ =>
            match items lpart with
            | [] => Err IndexError
            | id :: rest =>
                i <- int_of id ;;
                match rest with
                | [] => Err IndexError
                | name :: values =>
                    p <- mapM (fun s => match read s with Some q => Ok q | None => Err ValueError end) (items rpart) ;;
                    Ok (dset nodes i (new_node i name values p), edges)
                end
            end
        | _ => Err IndexError
        end
    end.
  (** dag.py:182-227. The nodes are added first, then the edges. *)
  Definition from_csv (text : string) : res bbn :=
    ne <- foldM csv_line (lines (universal text)) ([], []) ;;
    es <- mapM (fun e => pa <- dgetE (fst ne) (fst e) ;; ch <- dgetE (fst ne) (snd e) ;; Ok (pa, ch)) (snd ne) ;;
    Ok (assemble (dvals (fst ne)) es).
End From.
