(** What triangulating a graph means, apart from the code. A graph is a list [V] of vertices and a relation [E]. *)
From Verif Require Import Py.
Open Scope nat_scope.

(** ** chordal graphs *)

(** [c] runs through different vertices of [V], each joined to the next one and the last to the first *)
Definition cycle (V : list Z) (E : Z -> Z -> Prop) (c : list Z) : Prop :=
  NoDup c /\ incl c V /\ (forall k, k + 1 < List.length c -> E (nth k c 0%Z) (nth (k + 1) c 0%Z)) /\ E (last c 0%Z) (hd 0%Z c).
(** two vertices of the cycle that do not follow each other on it are joined *)
Definition chord (E : Z -> Z -> Prop) (c : list Z) : Prop :=
  exists i j, i + 1 < j /\ j < List.length c /\ ~ (i = 0 /\ j + 1 = List.length c) /\ E (nth i c 0%Z) (nth j c 0%Z).
Definition chordal (V : list Z) (E : Z -> Z -> Prop) : Prop :=
  forall c, cycle V E c -> 4 <= List.length c -> chord E c.

(** every two different members are joined *)
Definition all_joined (E : Z -> Z -> Prop) (C : list Z) : Prop := forall x y, In x C -> In y C -> x <> y -> E x y.

(** ** elimination *)

(** the graph without [v], the neighbours of [v] joined with each other *)
Definition without (v : Z) (E : Z -> Z -> Prop) (x y : Z) : Prop := x <> v /\ y <> v /\ (E x y \/ (x <> y /\ E v x /\ E v y)).
(** [n] pairs of neighbours of [v] are not joined *)
Definition unjoined (E : Z -> Z -> Prop) (v : Z) (n : nat) : Prop :=
  exists l, NoDup l /\ (forall x y, In (x, y) l <-> (x < y)%Z /\ E v x /\ E v y /\ ~ E x y) /\ List.length l = n.
(** [v] and its neighbours have [w] combinations of values *)
Definition combinations (size : Z -> Z) (E : Z -> Z -> Prop) (v w : Z) : Prop :=
  exists l, NoDup l /\ (forall x, In x l <-> x = v \/ E v x) /\ w = fold_right Z.mul 1%Z (map size l).
(** fewer edges to add; if equal, fewer combinations; if equal, the smaller id *)
Definition cheaper (size : Z -> Z) (E : Z -> Z -> Prop) (v u : Z) : Prop :=
  exists n w n' w', unjoined E v n /\ combinations size E v w /\ unjoined E u n' /\ combinations size E u w' /\
    (n < n' \/ (n = n' /\ ((w < w')%Z \/ (w = w' /\ (v < u)%Z)))).

(** the vertices of [V] eliminated one after the other, the cheapest first; each is listed with its neighbours at the time *)
Inductive eliminates (size : Z -> Z) : list Z -> (Z -> Z -> Prop) -> list (Z * list Z) -> Prop :=
| no_more E : eliminates size [] E []
| one_more V V' v nbrs E steps :
    Permutation V (v :: V') -> (forall u, In u V' -> cheaper size E v u) ->
    NoDup nbrs -> (forall x, In x nbrs <-> E v x) ->
    eliminates size V' (without v E) steps -> eliminates size V E ((v, nbrs) :: steps).
