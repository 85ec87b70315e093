(** d-connection of a path, said from the edges. *)
From Verif Require Import Py Spec SpecNx.

(** [x], [z], [y] stand next to each other on the path [p] *)
Definition triple (p : list Z) (x z y : Z) : Prop := exists l r, p = l ++ x :: z :: y :: r.
(** both arrows point into [z] *)
Definition collides (es : list (Z * Z)) (x z y : Z) : Prop := In (x, z) es /\ In (y, z) es.
(** the evidence [ev] leaves the path open: no non-collider is in it, and every collider is in it or has a descendant in it *)
Definition open_path (es : list (Z * Z)) (ev : list Z) (p : list Z) : Prop :=
  forall x z y, triple p x z y ->
    (collides es x z y -> exists v, path (arc es) z v /\ In v ev) /\ (~ collides es x z y -> ~ In z ev).
(** a path from [x] to [y] without repeated nodes, directions ignored *)
Definition simple_path (es : list (Z * Z)) (x y : Z) (p : list Z) : Prop :=
  NoDup p /\ chain (sym (arc es)) p /\ hd_error p = Some x /\ hd_error (rev p) = Some y.
(** its first arrow points into [x] *)
Definition backdoor (es : list (Z * Z)) (p : list Z) : Prop := match p with a :: b :: _ => In (b, a) es | _ => False end.
(** a node of the path other than its ends *)
Definition inside (p : list Z) (z : Z) : Prop := exists x y, triple p x z y.
(** every arrow points forwards *)
Definition directed (es : list (Z * Z)) (p : list Z) : Prop := chain (arc es) p.
(** [z] is a collider on [p] *)
Definition collider_on (es : list (Z * Z)) (p : list Z) (z : Z) : Prop := exists x y, triple p x z y /\ collides es x z y.
(** different nodes, different edges, edges between nodes *)
Definition graph_ok (V : list Z) (es : list (Z * Z)) : Prop :=
  NoDup V /\ NoDup es /\ forall u v, In (u, v) es -> In u V /\ In v V.
(** its first arrow points out of [x] *)
Definition frontdoor (es : list (Z * Z)) (p : list Z) : Prop := match p with a :: b :: _ => In (a, b) es | _ => False end.
