(** Polynomials in 31. *)
From Verif Require Import Py.
Local Open Scope Z_scope.

(** sum of code * 31^(position from the end) *)
Fixpoint poly31 (s : list Z) : Z := match s with [] => 0 | c :: t => c * 31 ^ Z.of_nat (List.length t) + poly31 t end.
