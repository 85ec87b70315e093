(** What sorted() promises: the same elements, none before one that is less, and equal ones in the order they had. *)
From Verif Require Import Py.

(** a comparison that orders the elements of [l], possibly with ties *)
Definition weak_order {A} (lt : A -> A -> bool) (l : list A) : Prop :=
  (forall x y, In x l -> In y l -> lt x y = true -> lt y x = false) /\
  (forall x y z, In x l -> In y l -> In z l -> lt x y = false -> lt y z = false -> lt x z = false).
(** no element comes after one that it is less than *)
Definition in_order {A} (lt : A -> A -> bool) (l : list A) : Prop :=
  forall a x b y c, l = a ++ x :: b ++ y :: c -> lt y x = false.
(** neither is less than the other *)
Definition tied {A} (lt : A -> A -> bool) (x y : A) : bool := negb (lt x y) && negb (lt y x).
(** the elements tied with [x], in their order *)
Definition ties {A} (lt : A -> A -> bool) (x : A) (l : list A) : list A := filter (tied lt x) l.
(** [leb x y]: x may stand before y; any two can be compared *)
Definition preorder {A} (leb : A -> A -> bool) (l : list A) : Prop :=
  (forall x y, In x l -> In y l -> leb x y = true \/ leb y x = true) /\
  (forall x y z, In x l -> In y l -> In z l -> leb x y = true -> leb y z = true -> leb x z = true).
