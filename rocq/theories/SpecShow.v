(** Reading printed join trees and printed Gaussians. *)
From Coq Require Import Ascii.
From Verif Require Import Py M_Node M_Pptc M_Gauss SpecGauss SpecNet SpecStr SpecPrint.
Local Open Scope string_scope.

(** ** join trees *)
Definition tail (s : string) : string := match s with EmptyString => EmptyString | String _ t => t end.
(** "(name,...)" *)
Definition read_clique (s : string) : option (list string) := match s with String "(" t => Some (fields "," (chop t)) | _ => None end.
(** "(name,...) -- name,... -- (name,...)": the names of the separation set between the cliques *)
Definition read_between (s : string) : option (list string * list string * list string) :=
  match cut ")" s with
  | Some (a, b) =>
      match cut "(" b with
      | Some (m, r) =>
          match read_clique (a ++ ")"), fields "-" m, read_clique ("(" ++ r) with
          | Some l, [_; _; n; _; _], Some r => Some (l, fields "," (chop (tail n)), r)
          | _, _, _ => None
          end
      | None => None
      end
  | None => None
  end.
(** the same between bars *)
Definition read_sepset (s : string) : option (list string * list string * list string) := match s with String "|" t => read_between (chop t) | _ => None end.
(** "(name,...)--|...|--(name,...)" *)
Definition read_link (s : string) : option (list string * (list string * list string * list string) * list string) :=
  match cut "|" s with
  | Some (a, t) =>
      match cut "|" t with
      | Some (b, d) => match read_clique (chop (chop a)), read_between b, read_clique (tail (tail d)) with Some l, Some x, Some r => Some (l, x, r) | _, _, _ => None end
      | None => None
      end
  | None => None
  end.
Definition bar_first (s : string) : bool := match s with String "|" _ => true | _ => false end.
(** lines without a bar are cliques, lines that begin with one separation sets, other lines with a bar edges *)
Definition read_tree (s : string) :=
  let ls := filter (fun l => negb (is_blank l)) (fields line_feed s) in
  match every read_clique (filter (fun l => negb (has_bar l)) ls), every read_sepset (filter bar_first ls), every read_link (filter (fun l => has_bar l && negb (bar_first l)) ls) with
  | Some cs, Some ss, Some es => Some (cs, ss, es)
  | _, _, _ => None
  end.

Definition tidy_name (s : string) : Prop := lacks "," s /\ lacks "(" s /\ lacks ")" s /\ lacks "|" s /\ lacks "-" s /\ lacks line_feed s.
(** the names of the members, in some order *)
Definition names_members (nm : Z -> string) (names : list string) (c : clique) : Prop := Permutation names (map nm (cl_nodes c)).
Definition names_sepset (nm : Z -> string) (x : list string * list string * list string) (s : sepset) : Prop :=
  names_members nm (fst (fst x)) (ss_left s) /\ snd (fst x) = map nm (ss_nodes s) /\ names_members nm (snd x) (ss_right s).

(** ** Gaussians *)
Definition read_numbers (s : string) : option (list Qc) := every number (fields "," s).
(** "[...]" with any number of opening brackets *)
Definition unbracketed (s : string) : string := string_of_list_ascii (filter (fun c => negb (Ascii.eqb c "[")) (list_ascii_of_string s)).
Definition read_row (s : string) : option (list Qc) := match cut "]" s with Some (a, _) => read_numbers (unbracketed a) | None => None end.
Definition read_seen (s : string) : option (string * Qc) := match cut "=" s with Some (a, b) => option_map (fun q => (a, q)) (number b) | None => None end.
(** "GaussianInference[H=[...], M=[...], E=[[...]|[...]], meta={...}]": headers, means, rows of covariances, what was observed *)
Definition read_gaussian (s : string) : option (list string * list Qc * list (list Qc) * list (string * Qc)) :=
  match cut "[" s with Some (_, s) => match cut "[" s with Some (_, s) => match cut "]" s with Some (hs, s) =>
  match cut "[" s with Some (_, s) => match cut "]" s with Some (ms, s) =>
  match cut "=" s with Some (_, s) => match cut "{" s with Some (es, s) => match cut "}" s with Some (os, _) =>
    match read_numbers ms, every read_row (fields "|" es), every read_seen (match os with EmptyString => [] | _ => fields "," os end) with
    | Some m, Some e, Some o => Some (fields "," hs, m, e, o)
    | _, _, _ => None
    end
  | None => None end | None => None end | None => None end | None => None end | None => None end | None => None end | None => None end | None => None end.
(** rounded to three digits *)
Definition close3 (q v : Qc) : Prop := (v - qfrac 1 2000 <= q)%Qc /\ (q <= v + qfrac 1 2000)%Qc.
Definition plain_header (s : string) : Prop := lacks "," s /\ lacks "]" s.
Definition plain_seen (s : string) : Prop := lacks "," s /\ lacks "=" s /\ lacks "}" s.
