(** Reading DNE files: a reader for the part of the format that has assignments of words and of lists of words, and nodes. *)
From Coq Require Import Ascii.
From Verif Require Import Py.
Local Open Scope string_scope.
Open Scope nat_scope.

(** ** tokens *)
Inductive tok := W (w : string) | P (c : ascii).
(** tab, newline, carriage return, space *)
Definition blank (c : ascii) : bool := match nat_of_ascii c with 9 | 10 | 13 | 32 => true | _ => false end.
Definition punct (c : ascii) : bool := existsb (Ascii.eqb c) (list_ascii_of_string "{}(),;=").
Definition stops (c : ascii) : bool := blank c || punct c.
Fixpoint tokens (s : string) : list tok :=
  match s with
  | EmptyString => []
  | String a t =>
      if blank a then tokens t
      else if punct a then P a :: tokens t
      else match t with
           | String b _ => if stops b then W (String a EmptyString) :: tokens t
                           else match tokens t with W w :: r => W (String a w) :: r | r => r end
           | EmptyString => [W (String a EmptyString)]
           end
  end.
(** a first line starting with // is a comment *)
Fixpoint rest_of_file (s : string) : string :=
  match s with EmptyString => EmptyString | String a t => if Nat.eqb (nat_of_ascii a) 10 then t else rest_of_file t end.
Definition body (s : string) : string := match s with String "/" (String "/" t) => rest_of_file t | _ => s end.

(** ** assignments, nodes, networks *)
Inductive value := Word (w : string) | Words (l : list string).
Record dne_node := mkDN { dn_name : string; dn_fields : list (string * value) }.
Record dne_net := mkDne { dne_name : string; dne_fields : list (string * value); dne_nodes : list dne_node }.

Fixpoint words (ts : list tok) : option (list string * list tok) :=
  match ts with
  | W w :: P ")" :: r => Some ([w], r)
  | W w :: P "," :: r => match words r with Some (l, r') => Some (w :: l, r') | None => None end
  | _ => None
  end.
Definition read_value (ts : list tok) : option (value * list tok) :=
  match ts with
  | W w :: r => Some (Word w, r)
  | P "(" :: P ")" :: r => Some (Words [], r)
  | P "(" :: r => match words r with Some (l, r') => Some (Words l, r') | None => None end
  | _ => None
  end.
Fixpoint read_fields (fuel : nat) (ts : list tok) : option (list (string * value) * list tok) :=
  match fuel, ts with
  | S f, W k :: P "=" :: r =>
      match read_value r with
      | Some (v, P ";" :: r') => match read_fields f r' with Some (l, r'') => Some ((k, v) :: l, r'') | None => None end
      | _ => None
      end
  | _, _ => Some ([], ts)
  end.
Fixpoint read_nodes (fuel : nat) (ts : list tok) : option (list dne_node * list tok) :=
  match fuel, ts with
  | S f, W "node" :: W n :: P "{" :: r =>
      match read_fields f r with
      | Some (l, P "}" :: P ";" :: r') => match read_nodes f r' with Some (m, r'') => Some (mkDN n l :: m, r'') | None => None end
      | _ => None
      end
  | _, _ => Some ([], ts)
  end.
(** the whole file; no token may be left over *)
Definition read_dne (s : string) : option dne_net :=
  let ts := tokens (body s) in
  let fuel := List.length ts in
  match ts with
  | W "bnet" :: W n :: P "{" :: r =>
      match read_fields fuel r with
      | Some (l, r') => match read_nodes fuel r' with
                        | Some (m, [P "}"; P ";"]) => Some (mkDne n l m)
                        | _ => None
                        end
      | None => None
      end
  | _ => None
  end.

(** ** what can be written: words without blanks and punctuation *)
Definition wordy (s : string) : Prop := s <> EmptyString /\ forall c, In c (list_ascii_of_string s) -> stops c = false.

(** what the file says about one node *)
Definition seen_node (nm : string) (states parents probs : list string) : dne_node :=
  mkDN nm [("discrete", Word "TRUE"); ("states", Words states); ("kind", Word "NATURE"); ("chance", Word "CHANCE");
           ("parents", Words parents); ("probs", Words probs)].
