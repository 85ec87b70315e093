(** Model of pybbn/gaussian/inference.py: observing variables of a multivariate Gaussian. *)
From Verif Require Import Py.
Open Scope Qc_scope.

(** a two-dimensional numpy array, by its entries; the sizes are kept beside it *)
Definition arr := nat -> nat -> Qc.

(** inference.py:10-23 the fields of GaussianInference: headers, means, covariance matrix (E.shape is (gi_n, gi_n)), and
    the observations made so far. The dictionary [I] is [header_index]. *)
Record ginf := { gi_H : list string; gi_M : list Qc; gi_n : nat; gi_E : arr; gi_meta : list (string * Qc) }.

(** enumerate(l) *)
Definition enumerate {A} (l : list A) : list (nat * A) := combine (seq 0 (List.length l)) l.

(** inference.py:22 *)
Definition header_index (H : list string) : list (string * nat) := fold_left (fun d p => dset d (snd p) (fst p)) (enumerate H) [].

(** A.dot(B) where A has [k] columns; A.dot(v) for a vector *)
Definition mdot (k : nat) (a b : arr) : arr := fun i j => qsum (map (fun c => a i c * b c j) (seq 0 k)).
Definition vdot (rows : nat) (a : arr) (v : list Qc) : list Qc :=
  map (fun i => qsum (map (fun c => a i (fst c) * snd c) (enumerate v))) (seq 0 rows).
(** E[rows][:, cols] *)
Definition sub_arr (e : arr) (rows cols : list nat) : arr := fun i j => e (nth i rows O) (nth j cols O).
Definition transposed (a : arr) : arr := fun i j => a j i.
Definition arr_minus (a b : arr) : arr := fun i j => a i j - b i j.
(** v - w for vectors. Vectors of different lengths are an error; broadcasting a vector of length one is left out. *)
Definition vec_minus (v w : list Qc) : res (list Qc) :=
  if Nat.eqb (List.length v) (List.length w) then Ok (map (fun p => fst p - snd p) (combine v w)) else Err ValueError.

(** [x for i, x in enumerate(l) if i in idx] *)
Definition at_indexes {A} (idx : list nat) (l : list A) : list A := map snd (filter (fun p => mem (fst p) idx) (enumerate l)).

Section Inverse.
  (** numpy.linalg.inv on an array of the given size; it raises LinAlgError (a ValueError) *)
  Context (inv : nat -> arr -> res arr).

  (** inference.py:95-138 *)
  Definition do_inferences (g : ginf) (obs : list (string * Qc)) : res ginf :=
    let i := header_index (gi_H g) in
    z_index <- mapM (fun ob => dgetE i (fst ob)) obs ;;
    let y_index := filter (fun k => negb (mem k z_index)) (seq 0 (gi_n g)) in
    let m_z := at_indexes z_index (gi_M g) in
    let m_y := at_indexes y_index (gi_M g) in
    let z := map snd obs in
    if forallb (fun k => Nat.ltb k (gi_n g)) z_index then
      let s_yz := sub_arr (gi_E g) y_index z_index in
      s_zz <- inv (List.length z_index) (sub_arr (gi_E g) z_index z_index) ;;
      let s_yy := sub_arr (gi_E g) y_index y_index in
      let h := at_indexes y_index (gi_H g) in
      let w := mdot (List.length z_index) s_yz s_zz in
      d <- vec_minus z m_z ;;
      m <- vec_minus m_y (vdot (List.length y_index) w d) ;;
      let e := arr_minus s_yy (mdot (List.length z_index) w (transposed s_yz)) in
      let meta := fold_left (fun d ob => dset d (fst ob) (snd ob)) obs (gi_meta g) in
      Ok {| gi_H := h; gi_M := m; gi_n := List.length y_index; gi_E := e; gi_meta := meta |}
    else Err IndexError.

  (** inference.py:85-93 *)
  Definition do_inference (g : ginf) (name : string) (observation : Qc) : res ginf := do_inferences g [(name, observation)].
End Inverse.

(** inference.py:73-83 the property P *)
Definition params (g : ginf) : res (list (string * (Qc * Qc))) :=
  foldM (fun d (p : nat * (string * Qc)) =>
           let (i, kv) := p in
           if Nat.ltb i (gi_n g) then Ok (dset d (fst kv) (- snd kv, gi_E g i i)) else Err IndexError)
        (enumerate (combine (gi_H g) (gi_M g)))
        (fold_left (fun d kv => dset d (fst kv) (snd kv, 0)) (gi_meta g) []).

(** inference.py:61-71 the property marginals: name, mean, variance *)
Definition gmarginals (g : ginf) : res (list (string * Qc * Qc)) :=
  p <- params g ;; Ok (map (fun x => (fst x, fst (snd x), snd (snd x))) p).

(** inference.py:44-59 sample_marginals. [root] is numpy.sqrt (its result on a negative variance is not a number); numpy.random.normal
    returns loc + scale * z for standard normal numbers z, and [gauss k size] are those of its [k]-th call. The dictionary maps names to
    series. *)
Section Samples.
  Context (root : Qc -> Qc) (gauss : nat -> nat -> list Qc).
  Definition normal (k : nat) (loc scale : Qc) (size : nat) : list Qc := map (fun z => loc + scale * z) (gauss k size).
  Definition get_samples (size k : nat) (m v : Qc) : list Qc := normal k m (if qeqb v 0 then qfrac 1 100 else root v) size.
  Definition sample_marginals (g : ginf) (size : nat) : res (list (string * list Qc)) :=
    ms <- gmarginals g ;;
    Ok (fold_left (fun d (x : nat * (string * Qc * Qc)) => let '(k, (s, m, v)) := x in dset d s (get_samples size k m v)) (enumerate ms) []).
End Samples.
