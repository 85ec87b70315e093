(** What average causal effects should satisfy. *)
From Verif Require Import Py M_Graph M_Node M_Pptc M_Ace Spec SpecNet SpecEv SpecPot SpecAce.

(** values of the parents of [x] that are possible one by one are possible together, with [x] = [xv] *)
Definition combinable (N : net) (x : Z) (xv : string) : Prop :=
  forall a, okon (dom N) (par N x) a -> (forall p, In p (par N x) -> mass_of N no_evidence p (a p) <> 0%Qc) ->
  marginal N no_evidence (x :: par N x) (upd a x xv) <> 0%Qc.
(** asked for the effect of [x] on [y] = [yv] after any history of observations, get_ace gives the number [f xv] for every value of [x] *)
Definition gives (o0 o : Ord) (ops : list bop) (x y : Z) (yv : string) (f : string -> Qc) : Prop :=
  exists b j0, ace_init o0 (build ops) = Ok (b, j0) /\
  forall h j, valid_history (net_of ops) h -> Forall hard_call (calls h) -> session o0 ops h = Ok j ->
  exists j', get_ace o b j (net_name ops x) (net_name ops y) yv = Ok (j', map (fun xv => (xv, f xv)) (dom (net_of ops) x)).
