(** Networks from libpgm JSON text: factory.py:20-48. The library does not check the types of the parts; here they are checked
    where they are read. "numoutcomes", "children" and other members are never read. *)
From Verif Require Import Py M_Graph M_Node M_Factory M_Json.
Local Open Scope string_scope.
Local Open Scope list_scope.

(** Vdata[name] as factory.py:62-112 reads it *)
Definition json_vdata (v : json) : res vdata :=
  vs <- member v "vals" ;; vs <- as_list vs ;; vs <- mapM as_str vs ;;
  o <- member v "ord" ;; o <- as_int o ;;
  ps <- member v "parents" ;;
  ps <- (match ps with JsNull => Ok None | JsList l => l <- mapM as_str l ;; Ok (Some l) | _ => Err TypeError end) ;;
  cp <- member v "cprob" ;;
  cp <- (match cp with
         | JsList l => l <- mapM as_num l ;; Ok (Plain l)
         | JsObj l => d <- mapM (fun p => l <- as_list (snd p) ;; l <- mapM as_num l ;; Ok (fst p, l)) l ;; Ok (Keyed d)
         | _ => Err TypeError
         end) ;;
  Ok (mkVD vs o ps cp).
(** factory.py:41-47: d["V"], d["E"] and d["Vdata"] *)
Definition json_libpgm (v : json) : res libpgm :=
  ns <- member v "V" ;; _ <- member v "E" ;; d <- member v "Vdata" ;;
  ns <- as_list ns ;; ns <- mapM as_str ns ;;
  d <- as_obj d ;; d <- mapM (fun p => x <- json_vdata (snd p) ;; Ok (fst p, x)) d ;;
  Ok (mkLib ns d).
(** factory.py:21-29 from_libpgm_discrete_json *)
Definition from_libpgm_json (read : string -> option Qc) (s : string) : res bbn :=
  v <- loads read s ;; bn <- json_libpgm v ;; from_libpgm bn.
