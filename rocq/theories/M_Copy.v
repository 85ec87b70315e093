(** Model of copying objects: copy.deepcopy with the __deepcopy__ methods of pybbn/graph, on a heap of Python objects. *)
From Verif Require Import Py.

(** numbers, strings, None, booleans, members of an Enum, classes: deepcopy returns them as they are *)
Inductive atom := ANone | AInt (z : Z) | AFloat (q : Qc) | AStr (s : string) | ABool (b : bool) | AEnum (s : string).
(** a value is an atom or a reference to an object, given by its place on the heap, id(x) *)
Inductive val := At (a : atom) | Rf (p : nat).
(** instances (slots: attributes), dictionaries (slots: items), lists (slots: elements, numbered) and sets (of atoms) *)
Record obj := mkObj { o_cls : string; o_slots : list (atom * val) }.
Definition heap := list obj.
(** memodict: old id to the new object *)
Definition memo := list (nat * nat).

Definition put_obj (h : heap) (p : nat) (ob : obj) : heap := firstn p h ++ ob :: skipn (S p) h.

Section Slots.
  Variable dc : heap -> memo -> val -> res (heap * memo * val).
  (** [for k, v in self.__dict__.items(): setattr(result, k, deepcopy(v, memodict))] *)
  Fixpoint copy_slots (h : heap) (m : memo) (l : list (atom * val)) : res (heap * memo * list (atom * val)) :=
    match l with
    | [] => Ok (h, m, [])
    | (k, v) :: t =>
        r <- dc h m v ;; let '(h, m, v') := r in
        r <- copy_slots h m t ;; let '(h, m, t') := r in
        Ok (h, m, (k, v') :: t')
    end.
End Slots.

(** copy.deepcopy, with node.py:34-40, edge.py:57-63, variable.py:27-33, graph.py:166-172 __deepcopy__; for classes without
    that method (Potential, PotentialEntry, list, dict, set, defaultdict) the copy module does the same: make an empty
    object, record it in the memo, then copy the contents. The contents are written when they are complete, nobody reads
    the new object before. A join tree has its own method, below; inside other objects it does not occur (TypeError here
    only marks that this is not modelled). *)
Fixpoint deepcopy (fuel : nat) (h : heap) (m : memo) (v : val) : res (heap * memo * val) :=
  match v with
  | At a => Ok (h, m, At a)
  | Rf p =>
      match dget m p with
      | Some q => Ok (h, m, Rf q)
      | None =>
          match fuel with
          | O => Err OutOfFuel
          | S f =>
              match nth_error h p with
              | None => Err AttributeError
              | Some ob =>
                  if String.eqb (o_cls ob) "JoinTree" then Err TypeError
                  else
                    let q := List.length h in
                    r <- copy_slots (deepcopy f) (h ++ [mkObj (o_cls ob) []]) ((p, q) :: m) (o_slots ob) ;;
                    let '(h, m, l) := r in
                    Ok (put_obj h q (mkObj (o_cls ob) l), m, Rf q)
              end
          end
      end
  end.
(** deepcopy(x): the recursion is never deeper than the number of objects *)
Definition deepcopy_top (h : heap) (v : val) : res (heap * val) :=
  r <- deepcopy (List.length h) h [] v ;; let '(h', _, v') := r in Ok (h', v').

(** self.f *)
Fixpoint slot (l : list (atom * val)) (f : string) : option val :=
  match l with
  | [] => None
  | (AStr g, v) :: t => if String.eqb g f then Some v else slot t f
  | _ :: t => slot t f
  end.
Definition getattr (ob : obj) (f : string) : res val := match slot (o_slots ob) f with Some v => Ok v | None => Err AttributeError end.

(** jointree.py:28-45 JoinTree.__deepcopy__: seven attributes are copied with one memo; [listener] is that of a new join
    tree, None. The empty dictionaries that JoinTree() makes and that are replaced at once are left out. *)
Definition tree_fields : list string := ["nodes"; "edges"; "edge_map"; "neighbors"; "potentials"; "evidences"; "parent_info"]%string.
Definition deepcopy_tree (h : heap) (p : nat) : res (heap * nat) :=
  match nth_error h p with
  | None => Err AttributeError
  | Some ob =>
      l <- mapM (fun f => v <- getattr ob f ;; Ok (AStr f, v)) tree_fields ;;
      r <- copy_slots (deepcopy (List.length h)) h [] l ;;
      let '(h, _, l) := r in
      Ok (h ++ [mkObj "JoinTree" (l ++ [(AStr "listener", At ANone)])], List.length h)
  end.

(** copy.copy, with node.py:28-32, edge.py:51-55, variable.py:21-25, graph.py:160-164 __copy__: a new object of the same class
    with the same attributes; join trees and networks have the method of Graph *)
Definition copy_obj (h : heap) (p : nat) : res (heap * nat) :=
  match nth_error h p with
  | None => Err AttributeError
  | Some ob => Ok (h ++ [mkObj (o_cls ob) (o_slots ob)], List.length h)
  end.
