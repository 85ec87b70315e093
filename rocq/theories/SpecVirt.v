(** A variable that stands for a piece of virtual evidence. *)
From Verif Require Import Py M_Node M_Pptc Spec SpecNet SpecEv.

(** [b] is a new node with two values, the first of which has, given each value of the variable of [e], the likelihood that [e]
    gives to that value *)
Record witness (ops : list bop) (e : evidence) (b : bnode) (yes no : string) : Prop := {
  wt_new : ~ In (n_id b) (net_vars ops);
  wt_name : ~ In (n_name b) (map (net_name ops) (net_vars ops));
  wt_fresh : n_mclq b = None;
  wt_values : n_values b = [yes; no] /\ yes <> no;
  wt_probs : n_probs b = flat_map (fun v => [like_of e v; (1 - like_of e v)%Qc]) (net_dom ops (ev_node e)) }.
