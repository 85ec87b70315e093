(** What JSON can hold. *)
From Verif Require Import Py M_Json.

(** no object has a key twice *)
Inductive uniq : json -> Prop :=
  | uniq_int z : uniq (JsInt z)
  | uniq_float q : uniq (JsFloat q)
  | uniq_str s : uniq (JsStr s)
  | uniq_bool b : uniq (JsBool b)
  | uniq_null : uniq JsNull
  | uniq_list l : Forall uniq l -> uniq (JsList l)
  | uniq_obj l : NoDup (map fst l) -> Forall (fun kv => uniq (snd kv)) l -> uniq (JsObj l).
(** the text of a float is made of the characters of numbers, has a point or an exponent, and reads back as the float *)
Definition float_format (show : Qc -> string) (read : string -> option Qc) : Prop :=
  forall q, read (show q) = Some q /\ Forall (fun c => numeric c = true) (chars (show q)) /\ existsb pointed (chars (show q)) = true.
(** printable ASCII, or the end of a line *)
Definition plain (c : ascii) : Prop := c = newline \/ 32 <= nat_of_ascii c <= 126.
