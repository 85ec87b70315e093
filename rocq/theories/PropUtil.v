(** Properties of the id helper. Nothing but theorems and examples. *)
From Verif Require Import Py M_Util SpecUtil L_Util.

(** C44. [poly31] is the sum of code point * 31^(distance from the end), an unbounded integer. *)
Theorem C44_polynomial : forall s, hash_string s = poly31 s.
Proof. exact c44. Qed.
Print Assumptions C44_polynomial.

Theorem C44_append : forall s t, hash_string (s ++ t) = (hash_string s * 31 ^ Z.of_nat (List.length t) + hash_string t)%Z.
Proof. exact c44_app. Qed.
Print Assumptions C44_append.

(** Collisions are everywhere. *)
Theorem C44_collisions : forall a b t, hash_string (a :: b :: t) = hash_string ((a + 1) :: (b - 31) :: t)%Z.
Proof. exact c44_collide. Qed.
Print Assumptions C44_collisions.

(** "Aa" and "BB" *)
Example C44_case : hash_string [65; 97]%Z = 2112%Z /\ hash_string [66; 66]%Z = 2112%Z.
Proof. vm_compute. auto. Qed.
(** beyond 32 bits: seven times "z" *)
Example C44_wide : hash_string (repeat 122 7)%Z = 111884630714%Z.
Proof. vm_compute. reflexivity. Qed.
