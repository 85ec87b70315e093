(** The text of the files of generated networks: bbngenerator.py:411-435 with the writers of dag.py. *)
From Verif Require Import Py M_Graph M_Node M_Nx M_Gen M_Serde M_Csv M_GenFile M_Json.

(** bbngenerator.py:411-435 generate_bbn_to_file: the text of the file; [show] prints a float *)
Definition generate_bbn_text (show : Qc -> string) dir n (path bbn_type : string) max_iter max_values ints units draws : res string :=
  gp <- generate bbn_type dir n max_iter max_values ints units draws ;;
  b <- convert_for_exact_inference (fst gp) (snd gp) ;;
  Ok (if endswith path "csv" then to_csv show b else to_json show b).
(** dag.py:180-226 from_csv for a path that ends with "csv", dag.py:298-308 from_json for another *)
Definition bbn_from_path (read : string -> option Qc) (path text : string) : res bbn :=
  if endswith path "csv" then from_csv read text else from_json read text.
