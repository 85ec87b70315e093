(** Networks that say the same about renamed variables. *)
From Verif Require Import Py M_Node M_Pptc Spec SpecEv.

(** [f] takes the variables of [N] to those of [N'], one to one and with the same values (perhaps listed in another order),
    and the products of the CPT entries agree. Nothing is said about the edges, the parents or the single CPTs. *)
Record same_joint (f : Z -> Z) (N N' : net) : Prop := {
  sj_inj : forall i k, In i (vars N) -> In k (vars N) -> f i = f k -> i = k;
  sj_vars : Permutation (map f (vars N)) (vars N');
  sj_dom : forall i, In i (vars N) -> Permutation (dom N' (f i)) (dom N i);
  sj_joint : forall a, okon (dom N') (vars N') a -> weight N' no_evidence a = weight N no_evidence (fun v => a (f v)) }.

(** evidence that says the same about the renamed variable *)
Definition same_evidence (f : Z -> Z) (e e' : evidence) : Prop :=
  ev_node e' = f (ev_node e) /\ (forall v, like_of e' v = like_of e v) /\ first_one e' = first_one e.
Definition same_call (f : Z -> Z) (c c' : call) : Prop :=
  match c, c' with
  | Update es, Update es' => Forall2 (same_evidence f) es es'
  | Unobserve ns, Unobserve ns' => map n_id ns' = map f (map n_id ns)
  | UnobserveAll, UnobserveAll => True
  | SetObservation e, SetObservation e' => same_evidence f e e'
  | _, _ => False
  end.

(** the same variables by name, each with the same values and probabilities *)
Definition same_table (t t' : list (string * list (string * Qc))) : Prop :=
  Permutation (map fst t) (map fst t') /\
  forall k l, dget t k = Some l -> exists l', dget t' k = Some l' /\ Permutation l l'.
