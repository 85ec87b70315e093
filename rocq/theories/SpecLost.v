(** What is left of a network when its join tree has been saved and restored. *)
From Verif Require Import Py M_Node M_Pptc Spec SpecNet SpecEv SpecRe SpecSer.

(** every two variables of the part of the network [i] is in are parent and child or have a child together *)
Definition solid (N : net) (i : Z) : Prop :=
  forall u v, path (sym (is_parent N)) i u -> path (sym (is_parent N)) i v -> u <> v -> moral_edge N u v.
(** If every part of [N] is solid, [N'] is all of [N]. Otherwise [N'] is [N] without the parts that are solid. *)
Definition left_of (N N' : net) : Prop :=
  exists f : Z -> bool, (forall i, In i (vars N) -> f i = true <-> (forall k, In k (vars N) -> solid N k) \/ ~ solid N i) /\
    N' = mkNet (filter f (vars N)) (dom N) (fun i => if f i then par N i else []) (cpt N).

(** the situation after evidence calls, reapply calls, and saving and restoring; a call is about the variables left at the time *)
Inductive went : situation -> list act -> situation -> Prop :=
| went_nil s : went s [] s
| went_do s d l s' : deed_ok (fst s) d -> went (after s d) l s' -> went s (Do d :: l) s'
| went_reload s o o' w N' l s' : ord_ok o -> ord_ok o' -> left_of (fst s) N' ->
    went (N', (no_evidence, no_evidence)) l s' -> went s (Reload o o' w :: l) s'.
