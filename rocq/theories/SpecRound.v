(** Rounding errors: numbers equal up to a power of a factor; arithmetic whose results are; rounding to 53 binary digits. *)
From Verif Require Import Py M_Node M_Pptc M_Round M_Str Spec.
Open Scope Qc_scope.

(** neither of [x], [y], both at least 0, exceeds the other by more than the factor [r ^ k] *)
Definition within (r : Qc) (k : nat) (x y : Qc) : Prop := 0 <= x /\ 0 <= y /\ x <= y * r ^ k /\ y <= x * r ^ k.

(** one operation is wrong by at most the factor [r], a sum of n numbers by [r ^ n]; nothing under- or overflows *)
Record accurate (r : Qc) (a : arith) : Prop := {
  ac_one : 1 <= r;
  ac_rnd : forall x, 0 <= x -> within r 1 x (r_rnd a x);
  ac_sum : forall l, Forall (fun x => 0 <= x) l -> within r (List.length l) (qsum l) (r_sum a l) }.

(** the same for numbers that are 0 or between [lo] and [hi], and for sums not near [hi]; others may be rounded in any way *)
Record accurate_between (lo hi r : Qc) (a : arith) : Prop := {
  ab_one : 1 <= r;
  ab_rnd : forall x, x = 0 \/ lo <= x -> x <= hi -> within r 1 x (r_rnd a x);
  ab_sum : forall l, Forall (fun x => x = 0 \/ lo <= x) l -> qsum l * r ^ List.length l <= hi -> within r (List.length l) (qsum l) (r_sum a l) }.

(** a posterior table and the exact one *)
Definition table_within (r : Qc) (k : nat) (t t' : list (string * list (string * Qc))) : Prop :=
  Forall2 (fun p p' => fst p = fst p' /\ Forall2 (fun q q' => fst q = fst q' /\ within r k (snd q) (snd q')) (snd p) (snd p')) t t'.

(** a row of posteriors of variable [i]: the values in order, each within the factor of its exact posterior *)
Definition row_within (r : Qc) (k : nat) (N : net) (L : likelihood) (i : Z) (row : list (string * Qc)) : Prop :=
  Forall2 (fun y q => fst q = y /\ within r k (exact_posterior N L i y) (snd q)) (dom N i) row.

(** ** Floating point: the nearest number with [p] binary digits, ties to even, no bounds on the exponent *)
(** the exponent e with 2^(p-1) <= n/d / 2^e < 2^p *)
Definition exponent (p n : Z) (d : positive) : Z :=
  let e := (Z.log2 n - Z.log2 (Zpos d) - p)%Z in
  if (n * 2 ^ Z.max 0 (- e) <? 2 ^ p * Zpos d * 2 ^ Z.max 0 e)%Z then e else (e + 1)%Z.
Definition digits (p : Z) (x : Qc) : Qc :=
  let n := Z.abs (Qnum (this x)) in let d := Qden (this x) in
  if Z.eqb n 0 then 0 else
  let e := exponent p n d in
  let m := rounded (n * 2 ^ Z.max 0 (- e)) (d * Z.to_pos (2 ^ Z.max 0 e)) in
  Q2Qc ((Z.sgn (Qnum (this x)) * m * 2 ^ Z.max 0 e)%Z # Z.to_pos (2 ^ Z.max 0 (- e))).
(** [sum] adds from left to right, starting at 0 *)
Definition floats (p : Z) : arith := mkArith (digits p) (fun l => fold_left (fun s x => digits p (s + x)) l 0).
(** 2^e *)
Definition pow2 (e : Z) : Qc := Q2Qc (2 ^ Z.max 0 e # Z.to_pos (2 ^ Z.max 0 (- e))).
(** IEEE 754: numbers between 0 and 2^emin are rounded to a multiple of 2^(emin-p+1) (gradual underflow) *)
Definition gradual (p emin : Z) (x : Qc) : Qc :=
  if qltb 0 x && qltb x (pow2 emin) then
    let e := (emin - p + 1)%Z in
    let m := rounded (Qnum (this x) * 2 ^ Z.max 0 (- e)) (Qden (this x) * Z.to_pos (2 ^ Z.max 0 e)) in
    Q2Qc ((m * 2 ^ Z.max 0 e)%Z # Z.to_pos (2 ^ Z.max 0 (- e)))
  else digits p x.
(** results of 2^emax and above are replaced by [over]: IEEE 754 has infinities there, which this says nothing about *)
Definition ranged (p emin emax : Z) (over : Qc -> Qc) (x : Qc) : Qc := let y := gradual p emin x in if qltb y (pow2 emax) then y else over x.
Definition floats_in (p emin emax : Z) (over : Qc -> Qc) : arith :=
  mkArith (ranged p emin emax over) (fun l => fold_left (fun s x => ranged p emin emax over (s + x)) l 0).
(** IEEE binary64, Python's float *)
Definition ieee64 (over : Qc -> Qc) : arith := floats_in 53 (-1022) 1024 over.
(** IEEE binary64, Python's float, as if its exponents had no bounds *)
Definition binary64 : arith := floats 53.
(** 1 + 2^(1-p) *)
Definition ulp_factor (p : Z) : Qc := 1 + / Q2Qc (inject_Z (2 ^ (p - 1))).
