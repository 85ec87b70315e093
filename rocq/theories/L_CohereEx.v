(** Checks for the examples of PropCohere: the model is run and the numbers it reports are compared. *)
From Verif Require Import Py M_Node M_Pptc Spec SpecNet SpecEv SpecCohere L_Check.

Definition told (ops : list bop) (h : history) (i : Z) (v : string) : Qc :=
  match session ord_rev ops h with Ok j => match reported j (net_name ops i) v with Some q => q | None => (-(1))%Qc end | Err _ => (-(1))%Qc end.
Definition with_one (ops : list bop) (h : history) (i : Z) (v : string) : history := h ++ [(ord_id, observe (net_of ops) i v)].
(** for all values; the numbers are not all the same before and after *)
Definition bayes_holds (ops : list bop) (h : history) (i k : Z) : bool :=
  forallb (fun v => forallb (fun y => qeqb (told ops h i v * told ops (with_one ops h i v) k y) (told ops h k y * told ops (with_one ops h k y) i v) &&
                                      qleb 0 (told ops h i v) && qleb 0 (told ops h k y)) (net_dom ops k)) (net_dom ops i) &&
  existsb (fun v => existsb (fun y => negb (qeqb (told ops h k y) (told ops (with_one ops h i v) k y))) (net_dom ops k)) (net_dom ops i).
Definition total_holds (ops : list bop) (h : history) (i k : Z) : bool :=
  forallb (fun y => qeqb (qsum (map (fun v => told ops h i v * told ops (with_one ops h i v) k y)%Qc (net_dom ops i))) (told ops h k y)) (net_dom ops k).
