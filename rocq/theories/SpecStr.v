(** Reading printed tables: a reader for the texts "id=value,...|number", one line per row. *)
From Coq Require Import Ascii Sorting.Sorted.
From Verif Require Import Py M_Node M_Pptc.
Local Open Scope string_scope.

Definition line_feed : ascii := ascii_of_nat 10.

(** the pieces between the characters [c] *)
Fixpoint fields (c : ascii) (s : string) : list string :=
  match s with
  | EmptyString => [EmptyString]
  | String x t => if Ascii.eqb x c then EmptyString :: fields c t
                  else match fields c t with [] => [String x EmptyString] | h :: r => String x h :: r end
  end.
(** before and after the first [c] *)
Fixpoint cut (c : ascii) (s : string) : option (string * string) :=
  match s with
  | EmptyString => None
  | String x t => if Ascii.eqb x c then Some (EmptyString, t)
                  else match cut c t with Some (a, b) => Some (String x a, b) | None => None end
  end.
Fixpoint every {A B} (f : A -> option B) (l : list A) : option (list B) :=
  match l with
  | [] => Some []
  | a :: t => match f a, every f t with Some b, Some r => Some (b :: r) | _, _ => None end
  end.

(** decimal digits *)
Definition digit_value (c : ascii) : option Z :=
  let n := (Z.of_nat (nat_of_ascii c) - 48)%Z in if (0 <=? n)%Z && (n <=? 9)%Z then Some n else None.
Fixpoint digits (acc : Z) (s : string) : option Z :=
  match s with
  | EmptyString => Some acc
  | String c t => match digit_value c with Some d => digits (10 * acc + d) t | None => None end
  end.
Definition unsigned (s : string) : option Z := match s with EmptyString => None | _ => digits 0 s end.
Definition minus_sign (s : string) : bool * string := match s with String "-" t => (true, t) | _ => (false, s) end.
Definition integer (s : string) : option Z :=
  let (neg, t) := minus_sign s in option_map (fun n => if neg : bool then (- n)%Z else n) (unsigned t).
(** a number with a point in it *)
Definition number (s : string) : option Qc :=
  let (neg, t) := minus_sign s in
  match cut "." t with
  | Some (a, b) => match unsigned a, unsigned b with
                   | Some x, Some y => let k := Pos.pow 10 (Pos.of_nat (String.length b)) in
                                       let v := Q2Qc ((x * Zpos k + y) # k) in
                                       Some (if neg : bool then (- v)%Qc else v)
                   | _, _ => None
                   end
  | None => None
  end.

(** one row, and all of them *)
Definition read_item (s : string) : option (Z * string) :=
  match cut "=" s with Some (a, b) => option_map (fun i => (i, b)) (integer a) | None => None end.
Definition read_entry (s : string) : option (list (Z * string) * Qc) :=
  match cut "|" s with
  | Some (k, n) => match every read_item (match k with EmptyString => [] | _ => fields "," k end), number n with
                   | Some m, Some q => Some (m, q)
                   | _, _ => None
                   end
  | None => None
  end.
Definition read_table (s : string) : option (list (list (Z * string) * Qc)) := every read_entry (fields line_feed s).

(** no comma, no bar, no line feed *)
Definition plain_value (v : string) : Prop := forall c, In c (list_ascii_of_string v) -> c <> ","%char /\ c <> "|"%char /\ c <> line_feed.
(** each variable once, plain values *)
Definition printable (e : pentry) : Prop := NoDup (map fst (pe_map e)) /\ forall i v, In (i, v) (pe_map e) -> plain_value v.
(** rounded to five digits: within half a unit of the last one *)
Definition close (q v : Qc) : Prop := (v - qfrac 1 200000 <= q)%Qc /\ (q <= v + qfrac 1 200000)%Qc.
(** what is read is the row: its variables by increasing id with their values, and its number to five digits *)
Definition reads (r : list (Z * string) * Qc) (e : pentry) : Prop :=
  Permutation (fst r) (pe_map e) /\ StronglySorted Z.lt (map fst (fst r)) /\ close (snd r) (pe_val e).

(** [c] does not occur in [s] *)
Definition lacks (c : ascii) (s : string) : Prop := ~ In c (list_ascii_of_string s).
(** two cliques of variables whose names differ and lack the character [s] *)
Definition named_apart (h : heap) (s : ascii) (c d : clique) : Prop :=
  NoDup (cl_nodes c) /\ NoDup (cl_nodes d) /\ cl_nodes c <> [] /\ cl_nodes d <> [] /\
  (forall x y, In x (cl_nodes c ++ cl_nodes d) -> In y (cl_nodes c ++ cl_nodes d) -> h_name h x = h_name h y -> x = y) /\
  (forall x, In x (cl_nodes c ++ cl_nodes d) -> lacks s (h_name h x)).
