(** What observing variables of a multivariate Gaussian should give, by variable name and without matrices. *)
From Verif Require Import Py M_Gauss.
Open Scope Qc_scope.

(** ** Reading a GaussianInference by name *)
Fixpoint position (l : list string) (s : string) : nat := match l with [] => O | h :: t => if string_dec h s then O else S (position t s) end.
Definition mean_of (g : ginf) (s : string) : Qc := nth (position (gi_H g) s) (gi_M g) 0.
Definition cov_of (g : ginf) (s t : string) : Qc := gi_E g (position (gi_H g) s) (position (gi_H g) t).
(** one mean, one row and one column for every header, and nothing observed twice or observed and still there *)
Definition gwf (g : ginf) : Prop :=
  NoDup (gi_H g) /\ List.length (gi_M g) = List.length (gi_H g) /\ gi_n g = List.length (gi_H g) /\
  (forall s, In s (gi_H g) -> ~ In s (map fst (gi_meta g))) /\ NoDup (map fst (gi_meta g)).
Definition symmetric (g : ginf) : Prop := forall s t, In s (gi_H g) -> In t (gi_H g) -> cov_of g s t = cov_of g t s.

(** ** Conditional distributions *)
(** a linear combination of variables, and the covariance of two *)
Definition combination := list (Qc * string).
Definition combined_cov (c : string -> string -> Qc) (a b : combination) : Qc :=
  qsum (map (fun x => qsum (map (fun y => fst x * fst y * c (snd x) (snd y)) b)) a).
(** [y] minus its prediction from the variables [zs] with coefficients [K y] *)
Definition residual (zs : list string) (K : string -> string -> Qc) (y : string) : combination :=
  (1, y) :: map (fun w => (- K y w, w)) zs.

(** [K] are the regression coefficients of each of [ys] on [zs]: what remains of y is uncorrelated with all of [zs] *)
Definition regression (c : string -> string -> Qc) (ys zs : list string) (K : string -> string -> Qc) : Prop :=
  forall y z, In y ys -> In z zs -> combined_cov c (residual zs K y) [(1, z)] = 0.
(** the covariance of [ys] once [zs] are known is the covariance of what remains *)
Definition conditional_cov (c : string -> string -> Qc) (ys zs : list string) (K : string -> string -> Qc) (c' : string -> string -> Qc) : Prop :=
  forall y y', In y ys -> In y' ys -> c' y y' = combined_cov c (residual zs K y) (residual zs K y').
(** the mean of [y] once [zs] are known to have the values [obs] *)
Definition conditional_mean (m : string -> Qc) (K : string -> string -> Qc) (obs : list (string * Qc)) (y : string) : Qc :=
  m y + qsum (map (fun ob => K y (fst ob) * (snd ob - m (fst ob))) obs).

(** ** Inverses of square arrays *)
Definition delta (i j : nat) : Qc := if Nat.eqb i j then 1 else 0.
Definition inverse (k : nat) (a b : arr) : Prop :=
  forall i j, (i < k)%nat -> (j < k)%nat ->
    qsum (map (fun c => a i c * b c j) (seq 0 k)) = delta i j /\ qsum (map (fun c => b i c * a c j) (seq 0 k)) = delta i j.
(** what numpy.linalg.inv returns is an inverse *)
Definition inv_sound (inv : nat -> arr -> res arr) : Prop := forall k a b, inv k a = Ok b -> inverse k a b.

(** it returns one whenever there is one *)
Definition inv_total (inv : nat -> arr -> res arr) : Prop := forall k a, (exists b, inverse k a b) -> exists b, inv k a = Ok b.

(** the means of the observed variables stand in the order of the observations: true when they all have the same mean, and
    when the observations are listed in header order *)
Definition aligned (g : ginf) (obs : list (string * Qc)) : Prop :=
  map (mean_of g) (map fst obs) = map (mean_of g) (filter (fun h => mem h (map fst obs)) (gi_H g)).
