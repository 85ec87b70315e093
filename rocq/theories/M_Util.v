(** Model of pybbn/graph/util.py. A string is the list of its code points (what [ord] gives). *)
From Verif Require Import Py.

(** util.py:9-27 IdUtil.hash_string; the lru_cache only remembers answers. Python integers are unbounded. *)
Definition hash_string (s : list Z) : Z :=
  match s with
  | [] => 0%Z
  | _ => fold_left (fun h c => Z.lor (Z.shiftl h 5 - h + c) 0) s 0%Z
  end.
