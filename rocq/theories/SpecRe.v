(** What replacing CPTs means. *)
From Verif Require Import Py M_Node M_Pptc Spec SpecNet SpecEv.

(** the network with the CPTs of the dictionary in place of its own; other ids of the dictionary do not matter *)
Definition replaced (N : net) (cpts : list (Z * list Qc)) : net :=
  mkNet (vars N) (dom N) (par N) (fun i => match dget cpts i with Some c => c | None => cpt N i end).
(** a dictionary whose CPTs are long enough for the variables they are for, and hold no negative numbers *)
Definition fitting (N : net) (cpts : list (Z * list Qc)) : Prop :=
  NoDup (dkeys cpts) /\
  forall i c, In (i, c) cpts -> In i (vars N) -> size (dom N) (par N i ++ [i]) <= List.length c /\ Forall (Qcle 0%Qc) c.

(** evidence calls and reapply calls, in any order, each on the tree the one before left or returned *)
Inductive deed := Evidence (o : Ord) (c : call) | Reapply (o : Ord) (cpts : list (Z * list Qc)).
Definition do_deed (j : jtree) (d : deed) : res jtree :=
  match d with
  | Evidence o c => match do_call o j c with (j, None) => Ok j | (_, Some x) => Err x end
  | Reapply o cpts => reapply o j cpts
  end.
Definition adventure (o : Ord) (ops : list bop) (ds : list deed) : res jtree :=
  bj <- apply o (build ops) ;; foldM do_deed ds (snd bj).

(** the network and the likelihoods stored and shown *)
Definition situation := (net * (likelihood * likelihood))%type.
Definition after (s : situation) (d : deed) : situation :=
  match d with
  | Evidence _ c => (fst s, step (fst s) (snd s) c)
  | Reapply _ cpts => (replaced (fst s) cpts, (no_evidence, no_evidence))
  end.
Definition deed_ok (N : net) (d : deed) : Prop :=
  match d with Evidence o c => ord_ok o /\ valid_call N c | Reapply o cpts => ord_ok o /\ fitting N cpts end.
Fixpoint deeds_ok (s : situation) (ds : list deed) : Prop :=
  match ds with [] => True | d :: t => deed_ok (fst s) d /\ deeds_ok (after s d) t end.
Definition start (ops : list bop) : situation := (net_of ops, (no_evidence, no_evidence)).
