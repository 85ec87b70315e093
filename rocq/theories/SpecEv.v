(** What evidence calls mean: the likelihoods in force after a history of calls, said without the code's stores. *)
From Verif Require Import Py M_Node M_Pptc Spec.

(** likelihood the caller supplied for a value; 0 when not mentioned *)
Definition supplied (e : evidence) (v : string) : Qc := match dget (ev_values e) v with Some q => q | None => 0%Qc end.
(** the values, those mentioned by the caller first *)
Definition considered (e : evidence) : list string :=
  dkeys (ev_values e) ++ filter (fun v => negb (mem v (dkeys (ev_values e)))) (ev_dom e).
(** first element of the list with the greatest [f] *)
Fixpoint best (f : string -> Qc) (l : list string) : string :=
  match l with
  | [] => EmptyString
  | x :: t => match t with [] => x | _ => if qleb (f (best f t)) (f x) then x else best f t end
  end.

(** the likelihoods a piece of evidence stands for *)
Definition like_of (e : evidence) (v : string) : Qc :=
  match ev_type e with
  | VIRTUAL => if qltb (supplied e v) 0%Qc then 0%Qc else if qltb 1%Qc (supplied e v) then 1%Qc else supplied e v
  | FINDING => if existsb (fun w => qltb 0%Qc (supplied e w)) (ev_dom e)
               then (if qltb 0%Qc (supplied e v) then 1%Qc else 0%Qc) else 1%Qc
  | OBSERVATION => if String.eqb v (best (supplied e) (considered e)) then 1%Qc else 0%Qc
  | UNOBSERVE => 1%Qc
  end.

(** evidence on a variable of the network, about values it has, each mentioned once *)
Definition known (N : net) (e : evidence) : Prop :=
  In (ev_node e) (vars N) /\ ev_dom e = dom N (ev_node e) /\ NoDup (dkeys (ev_values e)) /\ incl (dkeys (ev_values e)) (ev_dom e).
Definition hard (e : evidence) : Prop := ev_type e <> VIRTUAL.

(** new evidence replaces the old evidence on its variable *)
Definition assimilate (L : likelihood) (e : evidence) : likelihood :=
  fun i v => if Z.eqb i (ev_node e) then like_of e v else L i v.

(** [y] is the only value of variable [i] whose likelihood is 1 *)
Definition only_one (N : net) (f : string -> Qc) (i : Z) (y : string) : Prop :=
  In y (dom N i) /\ f y = 1%Qc /\ forall v, In v (dom N i) -> f v = 1%Qc -> v = y.

(** Evidence that the code's change detection overlooks: the old and the new likelihoods both have a single 1, on the
    same value, but differ elsewhere. *)
Definition overlooked (N : net) (L : likelihood) (e : evidence) : Prop :=
  exists y, only_one N (L (ev_node e)) (ev_node e) y /\ only_one N (like_of e) (ev_node e) y /\
    exists v, In v (dom N (ev_node e)) /\ L (ev_node e) v <> like_of e v.

(** the four evidence calls of a join tree *)
Inductive call := Update (es : list evidence) | Unobserve (ns : list bnode) | UnobserveAll | SetObservation (e : evidence).

Definition node_in (N : net) (n : bnode) : Prop := In (n_id n) (vars N) /\ n_values n = dom N (n_id n).
(** first value mentioned with likelihood exactly 1 *)
Definition first_one (e : evidence) : option string :=
  match filter (fun p => qeqb 1%Qc (snd p)) (ev_values e) with [] => None | (k, _) :: _ => Some k end.

Definition valid_call (N : net) (c : call) : Prop :=
  match c with
  | Update es => Forall (known N) es
  | Unobserve ns => Forall (node_in N) ns
  | UnobserveAll => True
  | SetObservation e => known N e /\ first_one e <> None
  end.
Definition hard_call (c : call) : Prop :=
  match c with Update es => Forall hard es | SetObservation e => hard e | _ => True end.

(** set_observation of the value that is already the only one with likelihood 1 withdraws the evidence *)
Definition toggles (N : net) (L : likelihood) (e : evidence) : bool :=
  match filter (fun v => qeqb 1%Qc (L (ev_node e) v)) (dom N (ev_node e)), first_one e with
  | [y], Some k => String.eqb y k
  | _, _ => false
  end.

Definition withdraw (L : likelihood) (is : list Z) : likelihood := fun i v => if mem i is then 1%Qc else L i v.
Definition effect (N : net) (L : likelihood) (c : call) : likelihood :=
  match c with
  | Update es => fold_left assimilate es L
  | Unobserve ns => withdraw L (map n_id ns)
  | UnobserveAll => no_evidence
  | SetObservation e => if toggles N L e then withdraw L [ev_node e] else assimilate L e
  end.
Definition in_force (N : net) (h : list call) : likelihood := fold_left (effect N) h no_evidence.

(** no evidence of the call is overlooked when the likelihoods in force are [L] *)
Definition noticed (N : net) (L : likelihood) (c : call) : Prop :=
  match c with
  | Update es => forall e, In e es -> ~ overlooked N L e
  | SetObservation e => toggles N L e = false -> ~ overlooked N L e
  | _ => True
  end.
Fixpoint all_noticed (N : net) (L : likelihood) (h : list call) : Prop :=
  match h with [] => True | c :: t => noticed N L c /\ all_noticed N (effect N L c) t end.

(** making the calls one after the other, each with its own set iteration order; an exception stops *)
Definition do_call (o : Ord) (j : jtree) (c : call) : jtree * option exn :=
  match c with
  | Update es => update_evidences o j es
  | Unobserve ns => unobserve o j ns
  | UnobserveAll => unobserve_all o j
  | SetObservation e => set_observation o j e
  end.
Fixpoint do_calls (j : jtree) (h : list (Ord * call)) : jtree * option exn :=
  match h with
  | [] => (j, None)
  | (o, c) :: t => match do_call o j c with (j, None) => do_calls j t | r => r end
  end.

(** ** What is shown when changes go unnoticed *)

(** the value of variable [i] that alone has likelihood 1, if there is just one *)
Definition sole (N : net) (f : string -> Qc) (i : Z) : option string :=
  match filter (fun v => qeqb 1%Qc (f v)) (dom N i) with [y] => Some y | _ => None end.
(** evidence the code takes for no change: all likelihoods were 1 and still are, or the same single value has 1 *)
Definition quiet (N : net) (L : likelihood) (e : evidence) : bool :=
  let i := ev_node e in
  forallb (fun v => qeqb 1%Qc (L i v) && qeqb 1%Qc (like_of e v)) (dom N i) ||
  match sole N (L i) i, sole N (like_of e) i with Some y, Some z => String.eqb y z | _, _ => false end.
(** evidence that says nothing about variable [i] *)
Definition nothing (N : net) (i : Z) : evidence := mkEv i (dom N i) UNOBSERVE [].
(** the evidence a call amounts to *)
Definition about (N : net) (L : likelihood) (c : call) : list evidence :=
  match c with
  | Update es => es
  | Unobserve ns => map (fun n => nothing N (n_id n)) ns
  | UnobserveAll => map (nothing N) (vars N)
  | SetObservation e => if toggles N L e then [nothing N (ev_node e)] else [e]
  end.
(** likelihoods stored, and likelihoods the posteriors shown are computed from *)
Definition step (N : net) (s : likelihood * likelihood) (c : call) : likelihood * likelihood :=
  let L := effect N (fst s) c in (L, if forallb (quiet N (fst s)) (about N (fst s) c) then snd s else L).
Definition shown (N : net) (h : list call) : likelihood := snd (fold_left (step N) h (no_evidence, no_evidence)).

(** ** Sessions: apply, then a history of calls *)
Definition history := list (Ord * call).
Definition calls (h : history) : list call := map snd h.
(** every call is about things the network has; sets may be iterated in any order *)
Definition valid_history (N : net) (h : history) : Prop := Forall (fun p => ord_ok (fst p)) h /\ Forall (valid_call N) (calls h).
(** the join tree at the end *)
Definition session (o : Ord) (ops : list bop) (h : history) : res jtree :=
  bj <- apply o (build ops) ;; match do_calls (snd bj) h with (j, None) => Ok j | (_, Some x) => Err x end.

(** the likelihood a join tree has stored for a value of a variable *)
Definition stored_likelihood (j : jtree) (i : Z) (v : string) : option Qc :=
  match dget (jt_evid j) i with
  | Some m => match dget m v with Some (e :: _) => Some (pe_val e) | _ => None end
  | None => None
  end.
(** [e] observes the value [y] of its variable *)
Definition observes (e : evidence) (y : string) : Prop := ev_type e = OBSERVATION /\ ev_values e = [(y, 1%Qc)].
(** likelihoods [L] with the variable [i] observed to be [y] *)
Definition observing (L : likelihood) (i : Z) (y : string) : likelihood :=
  fun k v => if Z.eqb k i then (if String.eqb v y then 1%Qc else 0%Qc) else L k v.
(** evidence that can be validated: an observation is about a variable that has values *)
Definition sensible (e : evidence) : Prop := ev_type e = OBSERVATION -> ev_dom e <> [].
(** [e] mentions the value [v] *)
Definition mentions (e : evidence) (v : string) : Prop := In v (dkeys (ev_values e)) \/ In v (ev_dom e).
