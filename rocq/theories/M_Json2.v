(** Join trees as JSON text: jointree.py:414-502 with the calls of json in docs/source/code/jt-serialization.py:18 and
    docs/source/code/jt-deserialization.py:8. The keys are written in the order of the dictionaries (that script has them
    sorted). The library does not check the types of the parts; here they are checked where they are read. *)
From Verif Require Import Py M_Graph M_Node M_Pptc M_Serde M_Json.
Local Open Scope string_scope.
Local Open Scope list_scope.

(** jointree.py:424-431 nodes_to_dict *)
Definition jnode_json (n : jnodedict) : json :=
  match n with
  | DSepset l r => JsObj [("left", JsStr l); ("right", JsStr r); ("type", JsStr "sepset")]
  | DClique ids => JsObj [("node_ids", JsList (map JsInt ids)); ("type", JsStr "clique")]
  end.
(** jointree.py:436-447 *)
Definition jt_json (d : jtdict) : json :=
  JsObj [("bbn_nodes", JsObj (map (fun p => (key_text (fst p), node_json (snd p))) (jd_bbn d)));
         ("jt", JsObj [("nodes", JsObj (map (fun p => (fst p, jnode_json (snd p))) (jd_nodes d)));
                       ("edges", JsList (map JsStr (jd_edges d)));
                       ("parent_info", JsObj (map (fun p => (fst p, JsList (map JsInt (snd p)))) (jd_pinfo d)))])].
(** jointree.py:476-489: members of another type are passed over *)
Definition json_jnode (p : string * json) : res (list (string * jnodedict)) :=
  t <- member (snd p) "type" ;; t <- as_str t ;;
  if String.eqb t "clique" then ids <- member (snd p) "node_ids" ;; ids <- as_list ids ;; ids <- mapM as_int ids ;; Ok [(fst p, DClique ids)]
  else if String.eqb t "sepset" then l <- member (snd p) "left" ;; l <- as_str l ;; r <- member (snd p) "right" ;; r <- as_str r ;; Ok [(fst p, DSepset l r)]
  else Ok [].
(** jointree.py:474-502 *)
Definition json_tree (v : json) : res jtdict :=
  ns <- member v "bbn_nodes" ;; ns <- as_obj ns ;; ns <- mapM (fun p => d <- json_node (snd p) ;; Ok (KStr (fst p), d)) ns ;;
  t <- member v "jt" ;;
  js <- member t "nodes" ;; js <- as_obj js ;; js <- mapM json_jnode js ;;
  es <- member t "edges" ;; es <- as_list es ;; es <- mapM as_str es ;;
  ps <- member t "parent_info" ;; ps <- as_obj ps ;; ps <- mapM (fun p => l <- as_list (snd p) ;; l <- mapM as_int l ;; Ok (fst p, l)) ps ;;
  Ok (mkJD ns (List.concat js) es ps).
(** json.dumps(JoinTree.to_dict(jt, bbn), indent=[indent]) *)
Definition save_tree (show : Qc -> string) (indent : option nat) (o : Ord) (j : jtree) (b : bbn) : res string :=
  d <- jt_to_dict o j b ;; Ok (dumps show indent (jt_json d)).
(** JoinTree.from_dict(json.loads(s)) *)
Definition load_tree (read : string -> option Qc) (o : Ord) (s : string) : res jtree :=
  v <- loads read s ;; d <- json_tree v ;; jt_from_dict o d.
(** sort_keys=True: the members of every object sorted by their keys. [leb] is any order of keys (ints are compared as numbers,
    strings as strings). *)
Fixpoint sort_keys (leb : string -> string -> bool) (v : json) : json :=
  match v with
  | JsList l => JsList (map (sort_keys leb) l)
  | JsObj l => JsObj (isort (fun p q => leb (fst p) (fst q)) (map (fun p => match p with (k, x) => (k, sort_keys leb x) end) l))
  | v => v
  end.
