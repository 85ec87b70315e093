(** The messages of one propagation. *)
From Verif Require Import Py M_Graph M_Node M_Pptc.

(** sender, separation set, receiver *)
Definition msg := (clique * sepset * clique)%type.
Definition across (m : msg) : sepset := snd (fst m).
Definition back (m : msg) : msg := (snd m, snd (fst m), fst (fst m)).
Definition send (h : heap) (ps : pots) (m : msg) : res pots := pass_message h ps (fst (fst m)) (snd (fst m)) (snd m).

(** [x] and [y] are the two cliques of the separation set [s] *)
Definition between (s : sepset) (x y : clique) : Prop :=
  (ss_left s = x /\ ss_right s = y) \/ (ss_left s = y /\ ss_right s = x).
(** cliques reached from [r] over the separation sets *)
Inductive reached (j : jtree) (r : clique) : clique -> Prop :=
| reached_here : reached j r r
| reached_over s x y : reached j r x -> In s (jt_sepsets j) -> between s x y -> reached j r y.

(** Messages towards [r]: over each separation set of the part of the tree [r] lies in, one message, never sent by [r], and
    sent only when its sender has heard from all its other neighbours. *)
Record inward (j : jtree) (r : clique) (ms : list msg) : Prop := {
  in_ends : forall x s y, In (x, s, y) ms -> between s x y /\ x <> r;
  in_once : NoDup (map across ms);
  in_all : forall s, In s (map across ms) <-> In s (jt_sepsets j) /\ reached j r (ss_left s);
  in_heard : forall l1 x s y l2, ms = l1 ++ (x, s, y) :: l2 ->
     forall s' z, In s' (jt_sepsets j) -> s' <> s -> between s' z x -> In (z, s', x) l1 }.
(** Messages away from [r]: those of [up] the other way round, sent only by [r] or by a clique that has heard. *)
Record outward (r : clique) (up ms : list msg) : Prop := {
  out_back : forall m, In m ms <-> In (back m) up;
  out_once : NoDup (map across ms);
  out_heard : forall l1 x s y l2, ms = l1 ++ (x, s, y) :: l2 -> x = r \/ exists z s', In (z, s', x) l1 }.
