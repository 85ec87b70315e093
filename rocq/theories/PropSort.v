(** sorted(): the two models of it. *)
From Verif Require Import Py M_Sampling SpecSort L_Sort L_Stable.
Open Scope nat_scope.

(** C97: with a comparison function, on fewer than 64 elements (sampling.py:126-134) *)
Theorem C97_stable : forall A (lt : A -> A -> bool) l, Permutation (small_sort lt l) l /\
  (weak_order lt l -> in_order lt (small_sort lt l) /\ forall x, In x l -> ties lt x (small_sort lt l) = ties lt x l).
Proof. exact @c97. Qed.
Print Assumptions C97_stable.

(** nothing else can be returned *)
Theorem C97_unique : forall A (lt : A -> A -> bool) l r, weak_order lt l -> Permutation r l -> in_order lt r ->
  (forall x, In x l -> ties lt x r = ties lt x l) -> r = small_sort lt l.
Proof. exact @c97_unique. Qed.
Print Assumptions C97_unique.

(** with a key: what every other use of sorted() is taken to be *)
Theorem C97_key : forall A (leb : A -> A -> bool) l, preorder leb l -> small_sort (fun x y => negb (leb y x)) l = isort leb l.
Proof. exact @c97_key. Qed.
Print Assumptions C97_key.

(** what the claims about the sampler assume of sorted() for lists of any length can be met *)
Theorem C97_meets : exists s, sorter_ok s.
Proof. exact c97_meets. Qed.
Print Assumptions C97_meets.

(** texts by length: a descending run, then ties *)
Example C97_case :
  let by_length x y := Nat.ltb (String.length x) (String.length y) in
  let l := ["elephant"; "horse"; "cat"; "dog"; "mouse"; "ant"; "donkey"]%string in
  weak_order by_length l /\ small_sort by_length l = ["cat"; "dog"; "ant"; "horse"; "mouse"; "donkey"; "elephant"]%string /\
  preorder (fun x y => Nat.leb (String.length x) (String.length y)) l.
Proof.
  split; [|split; [vm_compute; reflexivity|]].
  - split; [intros x y _ _|intros x y z _ _ _]; rewrite ?Nat.ltb_lt, ?Nat.ltb_ge; lia.
  - split; [intros x y _ _|intros x y z _ _ _]; rewrite ?Nat.leb_le; lia.
Qed.
