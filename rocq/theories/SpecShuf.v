(** JSON values that differ in the order of the members of objects only. *)
From Verif Require Import Py M_Graph M_Node M_Json Spec SpecNet.

Inductive reordered : json -> json -> Prop :=
  | ro_int z : reordered (JsInt z) (JsInt z)
  | ro_float q : reordered (JsFloat q) (JsFloat q)
  | ro_str s : reordered (JsStr s) (JsStr s)
  | ro_bool b : reordered (JsBool b) (JsBool b)
  | ro_null : reordered JsNull JsNull
  | ro_list l l' : Forall2 reordered l l' -> reordered (JsList l) (JsList l')
  | ro_obj l m l' : Permutation l m -> Forall2 (fun p q => fst p = fst q /\ reordered (snd p) (snd q)) m l' -> reordered (JsObj l) (JsObj l').

(** two sequences of calls that make the same network but for the order of the variables, the second with new node objects *)
Record same_but_order (ops ops' : list bop) : Prop := {
  sbo_vars : Permutation (net_vars ops') (net_vars ops);
  sbo_par : forall i, net_par ops' i = net_par ops i;
  sbo_dom : forall i, net_dom ops' i = net_dom ops i;
  sbo_cpt : forall i, net_cpt ops' i = net_cpt ops i;
  sbo_name : forall i, net_name ops' i = net_name ops i;
  sbo_new : forall n, In n (mentioned ops') -> exists i name values probs, n = new_node i name values probs }.
