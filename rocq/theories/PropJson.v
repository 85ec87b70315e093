(** JSON text. Nothing but theorems and examples. *)
From Verif Require Import Py M_Graph M_Node M_Pptc M_Serde M_Json M_Json2 Spec SpecNet SpecEv SpecRe SpecSer SpecJson L_Base L_Check Ex L_R1 L_Json2 L_Json3 L_JsonEx.
Open Scope nat_scope.
Open Scope string_scope.

(** C112. Text written by json.dumps, with or without an indent, is read back by json.loads as the same value. *)
Theorem C112_text : forall show read indent v, float_format show read -> uniq v -> loads read (dumps show indent v) = Ok v.
Proof. exact (fun show read indent v FF => c112_text show read FF indent v). Qed.
Print Assumptions C112_text.

(** Whatever the names are made of, the text is printable ASCII and ends of lines. *)
Theorem C112_ascii : forall show read indent v, float_format show read -> Forall plain (chars (dumps show indent v)).
Proof. exact (fun show read indent v FF => c112_ascii show read FF indent v). Qed.
Print Assumptions C112_ascii.

(** The network read by from_json from the file to_json wrote has the same variables in the same order, the same values,
    CPTs and names, and the same parents in the same order, and consists of new node objects. *)
Theorem C112_network : forall show read ops, float_format show read ->
  exists ops', from_json read (to_json show (build ops)) = Ok (build ops') /\ same_network ops ops'.
Proof. exact c112_network. Qed.
Print Assumptions C112_network.

(** Inference on it is exact for the original network. *)
Theorem C112_posteriors : forall show read ops, float_format show read -> well_shaped ops -> connected ops ->
  exists b', from_json read (to_json show (build ops)) = Ok b' /\
    forall o h, ord_ok o -> valid_history (net_of ops) h ->
      exists b2 j j' t, apply o b' = Ok (b2, j) /\ do_calls j h = (j', None) /\ get_posteriors j' = Ok t /\
        exact_table (net_of ops) (net_name ops) (shown (net_of ops) (calls h)) t.
Proof. exact c112_posteriors. Qed.
Print Assumptions C112_posteriors.

(** For a join tree the text makes no difference to the dictionary with its int keys turned into strings: C19 holds of trees
    saved as text. *)
Theorem C112_tree : forall show read indent, float_format show read -> forall o o' b j,
  (s <- save_tree show indent o j b ;; j' <- load_tree read o' s ;; apply_from_serde o' j') = reload o o' true b j.
Proof. exact c112_tree. Qed.
Print Assumptions C112_tree.

(** The text json.dumps writes for a value with everything but floats in it; a string with a quote, a backslash, a line end, a
    tab, DEL and an e with an accent. *)
Definition odd : string := "x" ++ String "034" (String "092" (String "/" (String "010" (String "009" (String "127" (String "233" "")))))).
Definition sample : json :=
  JsObj [("a b", JsList [JsInt 1; JsInt (-20); JsStr odd]); ("", JsObj []); ("k", JsObj [("l", JsList []); ("m", JsList [JsObj [("z", JsInt 0)]])])].
Example C112_case_text :
  dumps show_dot None sample = "{""a b"": [1, -20, ""x\""\\/\n\t\u007f\u00e9""], """": {}, ""k"": {""l"": [], ""m"": [{""z"": 0}]}}" /\
  dumps show_dot (Some 2) sample =
"{
  ""a b"": [
    1,
    -20,
    ""x\""\\/\n\t\u007f\u00e9""
  ],
  """": {},
  ""k"": {
    ""l"": [],
    ""m"": [
      {
        ""z"": 0
      }
    ]
  }
}".
Proof. split; vm_compute; reflexivity. Qed.
Example C112_case_value : float_format show_dot read_dot /\ uniq sample.
Proof. split; [exact dot_format|]. repeat constructor; simpl; intuition discriminate. Qed.
(** Of two members with one key the later is kept: such a value is not read back. *)
Example C112_case_twice :
  loads read_dot (dumps show_dot None (JsObj [("a", JsInt 1); ("a", JsInt 2)])) = Ok (JsObj [("a", JsInt 2)]).
Proof. vm_compute. reflexivity. Qed.
Example C112_case_network : well_shaped diamond /\ connected diamond /\
  substring 0 19 (to_json show_dot (build diamond)) = "{
  ""nodes"": {
    " /\
  match from_json read_dot (to_json show_dot (build diamond)) with Ok b => b_parents b | Err _ => [] end = b_parents (build diamond).
Proof. split; [exact diamond_ok|]. split; [exact diamond_connected|]. split; vm_compute; reflexivity. Qed.
