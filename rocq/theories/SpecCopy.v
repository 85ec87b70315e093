(** What a deep copy is, said on the graph of objects. *)
From Verif Require Import Py M_Copy Spec.

(** the object at [p] has a slot that refers to [q] *)
Definition refers (h : heap) (p q : nat) : Prop := exists ob k, nth_error h p = Some ob /\ In (k, Rf q) (o_slots ob).
(** no dangling references *)
Definition closed (h : heap) : Prop := forall p q, refers h p q -> q < List.length h.
(** the objects that can be reached from the values [vs] *)
Definition reached (h : heap) (vs : list val) (p : nat) : Prop := exists q, In (Rf q) vs /\ path (refers h) q p.
Definition through (f : nat -> nat) (v : val) : val := match v with At a => At a | Rf p => Rf (f p) end.
Definition slots_through (f : nat -> nat) (l : list (atom * val)) : list (atom * val) := map (fun s => (fst s, through f (snd s))) l.
(** [h'] has the objects of [h] unchanged, and for every object reached from [vs] another one, new and of its own, of the
    same class and with the same contents, where references lead to the new objects *)
Record copied (h h' : heap) (vs : list val) (f : nat -> nat) : Prop := {
  cp_old : forall p, p < List.length h -> nth_error h' p = nth_error h p;
  cp_new : forall p, reached h vs p -> List.length h <= f p < List.length h';
  cp_one : forall p q, reached h vs p -> reached h vs q -> f p = f q -> p = q;
  cp_obj : forall p ob, reached h vs p -> nth_error h p = Some ob -> nth_error h' (f p) = Some (mkObj (o_cls ob) (slots_through f (o_slots ob))) }.
(** no join tree is reached *)
Definition plain (h : heap) (vs : list val) : Prop := forall p ob, reached h vs p -> nth_error h p = Some ob -> o_cls ob <> "JoinTree"%string.

(** following the attributes [ks] from [v] one comes to [w] *)
Inductive leads (h : heap) : val -> list atom -> val -> Prop :=
| leads_here v : leads h v [] v
| leads_on p ob k v ks w : nth_error h p = Some ob -> In (k, v) (o_slots ob) -> leads h v ks w -> leads h (Rf p) (k :: ks) w.

(** what a join tree is made of besides its listener *)
Definition attributes : list string := ["nodes"; "edges"; "edge_map"; "neighbors"; "potentials"; "evidences"; "parent_info"]%string.
