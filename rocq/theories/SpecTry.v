(** Evidence calls of which some may be rejected, the caller going on: the likelihoods stored and the likelihoods shown
    after each, and the exception each raises, said without the code's stores. *)
From Verif Require Import Py M_Node M_Pptc Spec SpecEv.

(** evidence as a caller can have it: on any variable, mentioning any values. If the variable is the network's the values
    it can have are the network's; a value is mentioned once *)
Definition plausible (N : net) (e : evidence) : Prop :=
  sensible e /\ (In (ev_node e) (vars N) -> ev_dom e = dom N (ev_node e) /\ NoDup (dkeys (ev_values e))).
Definition plausible_call (N : net) (c : call) : Prop :=
  match c with
  | Update es => Forall (plausible N) es
  | Unobserve ns => Forall (fun n => In (n_id n) (vars N) -> n_values n = dom N (n_id n)) ns
  | UnobserveAll => True
  | SetObservation e => plausible N e
  end.

(** the variable is the network's *)
Definition has_var (N : net) (e : evidence) : bool := mem (ev_node e) (vars N).
(** all values mentioned are values of the variable *)
Definition inside (N : net) (e : evidence) : bool := forallb (fun v => mem v (dom N (ev_node e))) (dkeys (ev_values e)).
(** the likelihoods evidence stands for when it may mention other values too: a finding then counts as saying nothing if
    its zeros and ones and the numbers given for the other values add up to 0 *)
Definition like_any (e : evidence) (v : string) : Qc :=
  match ev_type e with
  | FINDING =>
      if qeqb 0%Qc (qsum (map (fun w => if mem w (ev_dom e) then (if qltb 0%Qc (supplied e w) then 1%Qc else 0%Qc) else supplied e w) (considered e)))
      then 1%Qc else if qltb 0%Qc (supplied e v) then 1%Qc else 0%Qc
  | _ => like_of e v
  end.
(** the part of the list before the first element outside [d] *)
Fixpoint before (d l : list string) : list string :=
  match l with [] => [] | v :: t => if mem v d then v :: before d t else [] end.
(** likelihoods stored when evidence is broken off at the first value its variable does not have *)
Definition partly (N : net) (L : likelihood) (e : evidence) : likelihood :=
  fun i v => if Z.eqb i (ev_node e) && mem v (before (dom N i) (considered e)) then like_any e v else L i v.
(** likelihoods stored when a list of evidence is broken off there *)
Fixpoint until (N : net) (L : likelihood) (es : list evidence) : likelihood :=
  match es with [] => L | e :: t => if inside N e then until N (assimilate L e) t else partly N L e end.

(** likelihoods stored and shown *)
Definition situation : Type := likelihood * likelihood.
Definition try_update (N : net) (s : situation) (es : list evidence) : situation * option exn :=
  if negb (forallb (has_var N) es) then (s, Some KeyError)
  else if negb (forallb (inside N) es) then ((until N (fst s) es, snd s), Some KeyError)
  else (step N s (Update es), None).
Definition attempt (N : net) (s : situation) (c : call) : situation * option exn :=
  match c with
  | Update es => try_update N s es
  | Unobserve ns => if forallb (fun n => mem (n_id n) (vars N)) ns then (step N s c, None) else (s, Some KeyError)
  | UnobserveAll => (step N s c, None)
  | SetObservation e =>
      if negb (has_var N e) then (s, Some KeyError)
      else match sole N (fst s (ev_node e)) (ev_node e), first_one e with
           | Some _, None => (s, Some IndexError)
           | _, _ => if toggles N (fst s) e then (step N s c, None) else try_update N s [e]
           end
  end.
(** one call after the other, whatever they raise; what each raised *)
Fixpoint attempts (N : net) (s : situation) (h : list call) : situation * list (option exn) :=
  match h with
  | [] => (s, [])
  | c :: t => let (s1, x) := attempt N s c in let (s2, xs) := attempts N s1 t in (s2, x :: xs)
  end.
Fixpoint do_tries (j : jtree) (h : history) : jtree * list (option exn) :=
  match h with
  | [] => (j, [])
  | (o, c) :: t => let (j1, x) := do_call o j c in let (j2, xs) := do_tries j1 t in (j2, x :: xs)
  end.
Definition plausible_history (N : net) (h : history) : Prop :=
  Forall (fun p => ord_ok (fst p)) h /\ Forall (plausible_call N) (calls h).
