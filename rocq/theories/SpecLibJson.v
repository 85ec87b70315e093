(** When a JSON value is a libpgm network. *)
From Verif Require Import Py M_Factory M_Json Spec SpecFactory.
Local Open Scope string_scope.
Local Open Scope list_scope.

(** an object with this member, among others, in any order *)
Definition has (v : json) (k : string) (x : json) : Prop := exists l, v = JsObj l /\ NoDup (map fst l) /\ In (k, x) l.
Definition strings (l : list string) : json := JsList (map JsStr l).
(** the number [q], as a float or an int *)
Definition is_num (q : Qc) (x : json) : Prop := x = JsFloat q \/ exists z, x = JsInt z /\ q = Q2Qc (inject_Z z).
Definition is_row (l : list Qc) (x : json) : Prop := exists xs, x = JsList xs /\ Forall2 is_num l xs.
Definition is_cprob (c : cprob) (x : json) : Prop :=
  match c with
  | Plain l => is_row l x
  | Keyed d => exists m, x = JsObj m /\ Forall2 (fun p y => fst p = fst y /\ is_row (snd p) (snd y)) d m
  end.
Definition is_parents (ps : option (list string)) : json := match ps with None => JsNull | Some l => strings l end.
Definition is_vdata (d : vdata) (v : json) : Prop :=
  has v "vals" (strings (vd_vals d)) /\ has v "ord" (JsInt (vd_ord d)) /\ has v "parents" (is_parents (vd_parents d)) /\
  exists c, has v "cprob" c /\ is_cprob (vd_cprob d) c.
Definition is_libpgm (bn : libpgm) (v : json) : Prop :=
  has v "V" (strings (lp_V bn)) /\ (exists e, has v "E" e) /\
  exists m, has v "Vdata" (JsObj m) /\ Forall2 (fun p y => fst p = fst y /\ is_vdata (snd p) (snd y)) (lp_data bn) m.
(** any two variables are joined by parents and children *)
Definition lp_connected (bn : libpgm) : Prop := forall x y, In x (lp_V bn) -> In y (lp_V bn) -> path (sym (fun p c => In c (lp_V bn) /\ In p (lp_pars bn c))) x y.
