(** GaussianInference.__repr__. *)
From Coq Require Import Ascii.
From Verif Require Import Py M_Gauss M_Str M_Text.
Local Open Scope string_scope.

(** [f"{v:.3f}"]: three digits after the point, the nearest number, ties to the even one. Exact rationals stand for floats;
    the text for negative zero is left out. *)
Definition threes (f : Z) : string := String (digit (f / 100)) (String (digit (f / 10 mod 10)) (String (digit (f mod 10)) EmptyString)).
Definition fmt3 (v : Qc) : string :=
  let n := Qnum (this v) in
  let k := rounded (1000 * Z.abs n) (Qden (this v)) in
  (if Z.ltb n 0 then "-" else "") ++ str_of_Z (k / 1000) ++ "." ++ threes (k mod 1000).
(** inference.py:25-41 *)
Definition ginf_repr (g : ginf) : string :=
  let h := join "," (gi_H g) in
  let m := join "," (map fmt3 (gi_M g)) in
  let e := "[" ++ join "|" (map (fun r => "[" ++ join "," (map (fun c => fmt3 (gi_E g r c)) (seq 0 (gi_n g))) ++ "]") (seq 0 (gi_n g))) ++ "]" in
  let meta := "{" ++ join "," (map (fun p => fst p ++ "=" ++ fmt3 (snd p)) (gi_meta g)) ++ "}" in
  "GaussianInference[H=[" ++ h ++ "], M=[" ++ m ++ "], E=" ++ e ++ ", meta=" ++ meta ++ "]".
