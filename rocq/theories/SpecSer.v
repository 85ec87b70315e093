(** Saving and restoring, for the statements about serialisation. *)
From Verif Require Import Py M_Graph M_Node M_Pptc M_Serde Spec SpecNet SpecEv SpecRe.

(** to_dict on one machine, from_dict and apply_from_serde on another, through JSON or not *)
Definition reload (o o' : Ord) (json : bool) (b : bbn) (j : jtree) : res jtree :=
  d <- jt_to_dict o j b ;; j' <- jt_from_dict o' (if json then json_jt d else d) ;; apply_from_serde o' j'.

(** evidence calls, reapply calls, and saving and restoring, in any order *)
Inductive act := Do (d : deed) | Reload (o o' : Ord) (json : bool).
Definition do_act (b : bbn) (j : jtree) (a : act) : res jtree :=
  match a with Do d => do_deed j d | Reload o o' w => reload o o' w b j end.
Definition journey (o : Ord) (ops : list bop) (acts : list act) : res jtree :=
  bj <- apply o (build ops) ;; foldM (do_act (fst bj)) acts (snd bj).

(** saving keeps the CPTs and forgets the evidence *)
Definition after_act (s : situation) (a : act) : situation :=
  match a with Do d => after s d | Reload _ _ _ => (fst s, (no_evidence, no_evidence)) end.
Definition act_ok (N : net) (a : act) : Prop :=
  match a with Do d => deed_ok N d | Reload o o' _ => ord_ok o /\ ord_ok o' end.
Fixpoint acts_ok (s : situation) (l : list act) : Prop :=
  match l with [] => True | a :: t => act_ok (fst s) a /\ acts_ok (after_act s a) t end.

(** two sequences of calls that make the same network, the second with new node objects *)
Record same_network (ops ops' : list bop) : Prop := {
  sn_vars : net_vars ops' = net_vars ops;
  sn_par : forall i, net_par ops' i = net_par ops i;
  sn_dom : forall i, net_dom ops' i = net_dom ops i;
  sn_cpt : forall i, net_cpt ops' i = net_cpt ops i;
  sn_name : forall i, net_name ops' i = net_name ops i;
  sn_new : forall n, In n (mentioned ops') -> exists i name values probs, n = new_node i name values probs }.

(** to_dict and from_dict, through JSON or not *)
Definition reload_bbn (json : bool) (b : bbn) : res bbn :=
  bbn_from_dict (if json then json_bbn (bbn_to_dict b) else bbn_to_dict b).
