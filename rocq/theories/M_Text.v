(** Texts the library makes: keys of potential entries (pybbn/graph/potential.py:35-45, 102-126) and DNE files
    (pybbn/graph/dag.py:310-352). Printing floats is the parameter [show]. *)
From Verif Require Import Py M_Graph M_Node M_Serde.

(** potential.py:102-108 PotentialEntry.get_entry_keys: sorted by id; ids are dictionary keys, hence distinct *)
Definition get_entry_keys (e : pentry) : list (Z * string) := isort (fun p q => Z.leb (fst p) (fst q)) (pe_map e).
(** potential.py:110-126 PotentialEntry.get_kv *)
Definition get_kv (e : pentry) : string * Qc :=
  (join "|" (map (fun p => (str_of_Z (fst p) ++ "=" ++ snd p)%string) (get_entry_keys e)), pe_val e).
(** potential.py:35-45 Potential.to_dict: later entries replace earlier ones with the same key *)
Definition potentials_to_dict (ps : list potential) : list (string * Qc) :=
  fold_left (fun d kv => dset d (fst kv) (snd kv)) (map get_kv (List.concat ps)) [].

(** ** Bbn.to_dne *)
Section Dne.
  Context (show : Qc -> string).
  (** [f"({','.join(l)})"] *)
  Definition parens (l : list string) : string := ("(" ++ join "," l ++ ")")%string.
  (** dag.py:314-340 get_dne_node *)
  Definition get_dne_node (d : bbndict) (id : pykey) : res string :=
    node <- dgetE (bd_nodes d) id ;;
    parents <- mapM (fun e => p <- dgetE (bd_nodes d) (KInt (fst e)) ;; Ok (nd_name p))
                    (filter (fun e => eqb (KInt (snd e)) id) (bd_edges d)) ;;
    Ok ("node " ++ nd_name node ++ " {
                discrete = TRUE;
                states = " ++ parens (nd_values node) ++ ";
                kind = NATURE;
                chance = CHANCE;
                parents = " ++ match parents with [] => "()" | _ => parens parents end ++ ";
                probs = " ++ parens (map show (nd_probs node)) ++ ";
            };
            ")%string.
  (** dag.py:310-352 *)
  Definition to_dne (b : bbn) (bnet_name : string) : res string :=
    let d := bbn_to_dict b in
    nodes <- mapM (get_dne_node d) (dkeys (bd_nodes d)) ;;
    Ok ("// ~->[DNET-1]->~
        bnet " ++ bnet_name ++ " {
        AutoCompile = TRUE;
        autoupdate = TRUE;

        " ++ join "
" nodes ++ "
        };
        ")%string.
End Dne.
