(** Python primitives used by the model: dictionaries, sets, sorting, str(int), exceptions. *)
From Coq Require Export List Bool ZArith String Ascii Permutation Lia.
From Coq Require Import DecimalString DecimalZ.
From Coq Require Export QArith Qcanon.
Export ListNotations.
Close Scope Q_scope.
Close Scope Qc_scope.
Open Scope nat_scope.
Open Scope bool_scope.
Open Scope list_scope.

(** ** Exceptions as values. [OutOfFuel] is not a Python exception: it marks a loop that did not finish
    within the model's bound, and is proved unreachable where it matters. *)
Inductive exn :=
| KeyError | IndexError | ValueError | TypeError | AttributeError | ZeroDivisionError
| PlainException | NetworkXError
| OutOfFuel.

Inductive res (A : Type) := Ok (a : A) | Err (e : exn).
Arguments Ok {A} a.
Arguments Err {A} e.

Definition rbind {A B} (m : res A) (f : A -> res B) : res B :=
  match m with Ok a => f a | Err e => Err e end.
Notation "x <- m ;; k" := (rbind m (fun x => k)) (at level 61, m at next level, right associativity).

Fixpoint mapM {A B} (f : A -> res B) (l : list A) : res (list B) :=
  match l with
  | [] => Ok []
  | a :: t => b <- f a ;; bs <- mapM f t ;; Ok (b :: bs)
  end.

Fixpoint foldM {A B} (f : B -> A -> res B) (l : list A) (b : B) : res B :=
  match l with
  | [] => Ok b
  | a :: t => b' <- f b a ;; foldM f t b'
  end.

(** ** Decidable equality of dictionary keys *)
Class EqB (K : Type) := { eqb : K -> K -> bool; eqb_spec : forall x y, reflect (x = y) (eqb x y) }.
#[global] Instance EqB_Z : EqB Z := {| eqb := Z.eqb; eqb_spec := Z.eqb_spec |}.
#[global] Instance EqB_nat : EqB nat := {| eqb := Nat.eqb; eqb_spec := Nat.eqb_spec |}.
#[global] Instance EqB_string : EqB string := {| eqb := String.eqb; eqb_spec := String.eqb_spec |}.

(** [x in l] *)
Definition mem {K} `{EqB K} (x : K) (l : list K) : bool := existsb (eqb x) l.

(** ** dict, in insertion order (Python >= 3.7). *)
Section Dict.
  Context {K V : Type} `{EqB K}.

  (** [d.get(k)] *)
  Fixpoint dget (d : list (K * V)) (k : K) : option V :=
    match d with
    | [] => None
    | (k', v) :: t => if eqb k k' then Some v else dget t k
    end.

  (** [d[k]], raising KeyError *)
  Definition dgetE (d : list (K * V)) (k : K) : res V :=
    match dget d k with Some v => Ok v | None => Err KeyError end.

  (** [k in d] *)
  Definition dmem (d : list (K * V)) (k : K) : bool :=
    match dget d k with Some _ => true | None => false end.

  (** [d[k] = v]: an existing key keeps its position *)
  Fixpoint dset (d : list (K * V)) (k : K) (v : V) : list (K * V) :=
    match d with
    | [] => [(k, v)]
    | (k', v') :: t => if eqb k k' then (k', v) :: t else (k', v') :: dset t k v
    end.

  (** [d.pop(k, None)] *)
  Definition dpop (d : list (K * V)) (k : K) : list (K * V) :=
    filter (fun p => negb (eqb k (fst p))) d.

  Definition dkeys (d : list (K * V)) : list K := map fst d.
  Definition dvals (d : list (K * V)) : list V := map snd d.
End Dict.

(** ** set of hashables: a duplicate-free list; see [Ord] for iteration order. *)
Section PySet.
  Context {K : Type} `{EqB K}.
  Definition sadd (s : list K) (x : K) : list K := if mem x s then s else s ++ [x].
  Definition srem (s : list K) (x : K) : list K := filter (fun y => negb (eqb x y)) s.
  (** [set(l)] *)
  Definition sof (l : list K) : list K := fold_left sadd l [].
  Definition subset (s1 s2 : list K) : bool := forallb (fun x => mem x s2) s1.
End PySet.

(** defaultdict(set) lookup [d[k]]. The empty entry a read inserts is not modelled: it is only observable
    through the key order of the dictionary and through [k in d], which the code never combines with such a read. *)
Definition dgets {K V} `{EqB K} (d : list (K * list V)) (k : K) : list V :=
  match dget d k with Some s => s | None => [] end.

(** ** Iteration order of sets: an arbitrary permutation, possibly different for every owner of a set. *)
Record Ord := { zord : Z -> list Z -> list Z; sord : string -> list string -> list string }.
Definition ord_ok (o : Ord) : Prop :=
  (forall i l, Permutation (zord o i l) l) /\ (forall i l, Permutation (sord o i l) l).
Definition ord_id : Ord := {| zord := fun _ l => l; sord := fun _ l => l |}.
Definition ord_rev : Ord := {| zord := fun _ l => rev l; sord := fun _ l => rev l |}.

(** ** sorted(l, key=...): stable sort; [leb x y] says that x may stand before y. *)
Section Sort.
  Context {A : Type} (leb : A -> A -> bool).
  Fixpoint insert (x : A) (l : list A) : list A :=
    match l with
    | [] => [x]
    | y :: t => if leb x y then x :: y :: t else y :: insert x t
    end.
  Fixpoint isort (l : list A) : list A :=
    match l with
    | [] => []
    | x :: t => insert x (isort t)
    end.
End Sort.

(** [str(z)] for a Python int *)
Definition str_of_Z (z : Z) : string := NilZero.string_of_int (Z.to_int z).

(** [sep.join(l)] *)
Definition join (sep : string) (l : list string) : string := String.concat sep l.

(** [a <= b] on strings, by character code *)
Definition str_leb (a b : string) : bool := String.leb a b.

(** ** Numbers: exact rationals stand for Python floats. *)


Definition qeqb (x y : Qc) : bool := if Qc_eq_dec x y then true else false.
Definition qltb (x y : Qc) : bool := match Qccompare x y with Lt => true | _ => false end.
Definition qleb (x y : Qc) : bool := match Qccompare x y with Gt => false | _ => true end.
Definition qfrac (n : Z) (d : positive) : Qc := Q2Qc (n # d).
(** [sum(l)] *)
Definition qsum (l : list Qc) : Qc := fold_left Qcplus l 0%Qc.
(** product, as [functools.reduce(operator.mul, l, 1)] *)
Definition qprod (l : list Qc) : Qc := fold_left Qcmult l 1%Qc.
