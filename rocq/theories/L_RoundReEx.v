(** A journey in floating point. *)
From Verif Require Import Py M_Graph M_Node M_Pptc M_Serde M_Round M_Round2 Spec SpecNet SpecEv SpecRe SpecSer SpecRound L_Base L_Check Ex L_R1 L_R7 L_R8.
Open Scope nat_scope.
Open Scope Qc_scope.

(** is every posterior within [e] of the exact one? *)
Definition journey_nearb (a : arith) (e : Qc) (ops : list bop) (l : list act) : bool :=
  let s := acts_state ops l in
  match (j <- journey_r a ord_rev ops l ;; get_posteriors_r a j) with
  | Ok t => forallb (fun i => match dget t (net_name ops i) with
                              | Some m => eqlb (map fst m) (dom (fst s) i) &&
                                          forallb (fun p => let x := exact_posterior (fst s) (snd (snd s)) i (fst p) in qleb (x - e) (snd p) && qleb (snd p) (x + e)) m
                              | None => false
                              end) (vars (fst s))
  | Err _ => false
  end.
