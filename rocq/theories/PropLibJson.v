(** libpgm networks as JSON text. Nothing but theorems and examples. *)
From Verif Require Import Py M_Graph M_Node M_Pptc M_Factory M_Json M_LibJson Spec SpecNet SpecEv SpecFactory SpecJson SpecLibJson L_Base L_LibJson.
Open Scope nat_scope.

(** C114. JSON text that is a libpgm network, with the members of objects in any order, other members ("children",
    "numoutcomes") among them, the parents of roots null or an empty list, and probabilities written as floats or ints, becomes
    the network with its names, values, parents and probabilities. *)
Theorem C114_text : forall read s v bn, loads read s = Ok v -> is_libpgm bn v -> libpgm_ok bn -> exists ops, from_libpgm_json read s = Ok (build ops) /\ well_shaped ops /\
  describes ops (lp_V bn) (lp_ord bn) (lp_vals bn) (lp_pars bn) (lp_pars bn) (lp_entry bn) /\
  forall c a, In c (lp_V bn) -> okon (net_dom ops) (net_par ops (lp_ord bn c) ++ [lp_ord bn c]) a ->
    cpt_entry (net_of ops) (lp_ord bn c) a = lp_entry bn c (fun x => a (lp_ord bn x)).
Proof. exact c114. Qed.
Print Assumptions C114_text.

(** Inference on it is exact. *)
Theorem C114_posteriors : forall read s v bn, loads read s = Ok v -> is_libpgm bn v -> libpgm_ok bn -> lp_connected bn -> exists ops, from_libpgm_json read s = Ok (build ops) /\
  describes ops (lp_V bn) (lp_ord bn) (lp_vals bn) (lp_pars bn) (lp_pars bn) (lp_entry bn) /\
  forall o h, ord_ok o -> valid_history (net_of ops) h -> exists j t, session o ops h = Ok j /\ get_posteriors j = Ok t /\ exact_table (net_of ops) (net_name ops) (shown (net_of ops) (calls h)) t.
Proof. exact c114_posteriors. Qed.
Print Assumptions C114_posteriors.

(** Nothing else becomes a network: text that does is a libpgm network. *)
Theorem C114_only : forall read s b, from_libpgm_json read s = Ok b -> exists v bn, loads read s = Ok v /\ is_libpgm bn v /\ from_libpgm bn = Ok b.
Proof. exact c114_read. Qed.
Print Assumptions C114_only.

(** What json.loads gives never has a key twice. *)
Theorem C114_keys : forall read s v, loads read s = Ok v -> uniq v.
Proof. exact loads_uniq. Qed.
Print Assumptions C114_keys.

(** The network of tests/graph/test_factory.py as json.dumps writes it, with the posteriors that test expects to be within 0.001. *)
Example C114_case : loads read_dec student_text = Ok student_value /\ is_libpgm student_lib student_value /\ libpgm_ok student_lib /\ lp_connected student_lib.
Proof. split; [exact student_loads|]. split; [exact student_is|]. split; [exact student_ok|exact student_connected]. Qed.
Example C114_case_posteriors :
  match from_libpgm_json read_dec student_text with
  | Ok b => match apply ord_rev b with
            | Ok (_, j) => match get_posteriors j with Ok t => map (fun p => (fst p, map (fun q => (fst q, this (snd q))) (snd p))) t | Err _ => [] end
            | Err _ => [] end
  | Err _ => []
  end = [("Intelligence", [("low", 7 # 10); ("high", 3 # 10)]); ("SAT", [("lowscore", 29 # 40); ("highscore", 11 # 40)]);
         ("Grade", [("A", 181 # 500); ("B", 721 # 2500); ("C", 437 # 1250)]); ("Letter", [("weak", 7776 # 15625); ("strong", 7849 # 15625)]);
         ("Difficulty", [("easy", 3 # 5); ("hard", 2 # 5)])]%string%Q.
Proof. vm_compute. reflexivity. Qed.
(** "E" is never used, but must be there; a duplicated key counts once. *)
Example C114_case_E : from_libpgm_json read_dec "{""V"": [], ""Vdata"": {}}" = Err KeyError /\
  (match from_libpgm_json read_dec "{""V"": [""a""], ""V"": [], ""E"": null, ""Vdata"": {}}" with Ok b => dkeys (g_nodes (b_g b)) = [] | Err _ => False end).
Proof. split; vm_compute; reflexivity. Qed.
