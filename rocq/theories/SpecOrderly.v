(** Arithmetic in which a sum is never below one of its terms. *)
From Verif Require Import Py M_Graph M_Node M_Pptc M_Round Spec SpecRound SpecStored.
Open Scope Qc_scope.

(** rounding is accurate and moves no number past one that can be stored, 1 can be stored and so can every sum;
    the sum of numbers that can be stored is at least each of them, and if all but one of them are 0 it is that one *)
Record orderly (r : Qc) (a : arith) : Prop := {
  od_acc : accurate r a;
  od_rnd : steady r (r_rnd a);
  od_unit : r_rnd a 1 = 1;
  od_sum : forall l, Forall (fun x => 0 <= x) l -> stored (r_rnd a) (r_sum a l);
  od_most : forall l x, Forall (stored (r_rnd a)) l -> In x l -> x <= r_sum a l;
  od_alone : forall l l' x, Forall (fun y => y = 0) (l ++ l') -> stored (r_rnd a) x -> r_sum a (l ++ x :: l') = x }.
