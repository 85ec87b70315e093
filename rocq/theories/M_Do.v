(** Model of pybbn/causality/do.py, on integer nodes. The graph's undirected copy [g.u] is always the one get_graph
    (do.py:22-25) makes, so it is recomputed from [g.d]. Sets that are turned into lists are put in an arbitrary order
    by the oracle. *)
From Verif Require Import Py M_Graph M_Nx M_Gen.

(** do.py:10-19 get_undirected_graph: the same as in the generator *)
Definition do_undirected (d : digraph) : ugraph := to_undirected d.

(** do.py:28-29 get_all_paths, for start <> stop (for equal nodes networkx versions differ) *)
Definition get_all_paths (d : digraph) (start stop : Z) : res (list (list Z)) := all_simple_paths (do_undirected d) start stop.

(** do.py:32-36 get_path_triplets *)
Definition get_path_triplets (p : list Z) : list (list Z) :=
  if Nat.ltb (List.length p) 3 then [p] else map (fun i => firstn 3 (skipn i p)) (seq 0 (List.length p - 2)).
(** [for x, z, y in ...]: unpacking *)
Definition unpack3 (l : list Z) : res (Z * Z * Z) := match l with [x; z; y] => Ok (x, z, y) | _ => Err ValueError end.

(** do.py:39-52 get_triplet_type *)
Inductive ttype := Serial | Diverging | Converging.
Definition get_triplet_type (d : digraph) (x z y : Z) : res ttype :=
  xc <- successors d x ;; zc <- successors d z ;; yc <- successors d y ;;
  if mem z xc && mem y zc then Ok Serial
  else if mem z yc && mem x zc then Ok Serial
  else if mem x zc && mem y zc then Ok Diverging
  else if mem z xc && mem z yc then Ok Converging
  else Err PlainException.

(** evidence is given as a set, or (by find_minimal_confounders) as a list, for which [z_set & evidence] raises TypeError *)
Inductive pyev := EvSet (l : list Z) | EvList (l : list Z).
Definition ev_items (e : pyev) : list Z := match e with EvSet l => l | EvList l => l end.

(** do.py:55-70 is_active_triplet *)
Definition is_active_triplet (d : digraph) (x z y : Z) (e : pyev) : res bool :=
  t <- get_triplet_type d x z y ;;
  match t with
  | Serial | Diverging => Ok (negb (mem z (ev_items e)))
  | Converging =>
      zs <- descendants d z ;;
      match e with
      | EvSet l => Ok (Nat.ltb 0 (List.length (filter (fun v => mem v l) (sadd zs z))))
      | EvList _ => Err TypeError
      end
  end.

(** do.py:73-85 is_active_path *)
Fixpoint all_active (d : digraph) (ts : list (list Z)) (e : pyev) : res bool :=
  match ts with
  | [] => Ok true
  | t :: ts =>
      u <- unpack3 t ;;
      let '(x, z, y) := u in
      b <- is_active_triplet d x z y e ;;
      if b then all_active d ts e else Ok false
  end.
Definition is_active_path (d : digraph) (p : list Z) (e : pyev) : res bool :=
  if Nat.ltb (List.length p) 3 then
    match hd_error p, hd_error (rev p) with
    | Some a, Some b => Ok (negb (mem a (ev_items e) || mem b (ev_items e)))
    | _, _ => Err IndexError
    end
  else all_active d (get_path_triplets p) e.

(** do.py:88-95 get_colliders *)
Definition get_colliders (d : digraph) (p : list Z) : res (list Z) :=
  if Nat.ltb (List.length p) 3 then Ok []
  else
    zs <- mapM (fun t => u <- unpack3 t ;; let '(x, z, y) := u in
                         k <- get_triplet_type d x z y ;;
                         Ok (match k with Converging => [z] | _ => [] end)) (get_path_triplets p) ;;
    Ok (List.concat zs).

(** set(p) - {x, y} - set(colliders), put in some order (do.py:112) *)
Definition inner (o : Ord) (k : nat) (p : list Z) (x y : Z) (cs : list Z) : list Z :=
  zord o (Z.of_nat k) (filter (fun v => negb (mem v [x; y]) && negb (mem v cs)) (sof p)).

(** do.py:98-126 get_paths *)
Record pinfo := mkPi { pi_z : list Z; pi_path : list Z; pi_active : bool; pi_colliders : list Z; pi_back : bool; pi_front : bool }.
Definition path_metadata (o : Ord) (d : digraph) (x y : Z) (kp : nat * list Z) : res pinfo :=
  let '(k, p) := kp in
  cs <- get_colliders d p ;;
  a <- is_active_path d p (EvSet []) ;;
  match p with
  | p0 :: p1 :: _ => Ok (mkPi (inner o k p x y cs) p a cs (dg_has_edge d p1 p0) (dg_has_edge d p0 p1))
  | _ => Err IndexError
  end.
Definition get_paths (o : Ord) (d : digraph) (x y : Z) : res (list pinfo) :=
  ps <- get_all_paths d x y ;;
  mapM (path_metadata o d x y) (combine (seq 0 (List.length ps)) ps).

(** do.py:129-156 get_all_confounders; the result is a set *)
Definition get_all_confounders (o : Ord) (d : digraph) (x y : Z) : res (list Z) :=
  ps <- get_paths o d x y ;;
  let colliders := flat_map pi_colliders (filter (fun p => negb (pi_active p) && pi_back p) ps) in
  ds <- descendants d x ;;
  let exclude := colliders ++ ds ++ [x; y] in
  Ok (sof (flat_map (fun p => filter (fun n => negb (mem n exclude)) (pi_path p)) (filter (fun p => pi_active p && pi_back p) ps))).

(** do.py:159-171 find_minimal_confounders: [keep] is empty until the loop is left *)
Fixpoint find_minimal (d : digraph) (p : list Z) (z : list Z) : res (list Z) :=
  match z with
  | [] => Ok []
  | c :: t => a <- is_active_path d p (EvList [c]) ;; if a then find_minimal d p t else Ok [c]
  end.

(** do.py:174-181 get_minimal_confounders *)
Definition get_minimal_confounders (o : Ord) (d : digraph) (x y : Z) : res (list Z) :=
  ps <- get_paths o d x y ;;
  cs <- mapM (fun p => find_minimal d (pi_path p) (pi_z p)) (filter (fun p => pi_active p && pi_back p) ps) ;;
  Ok (zord o (-1) (sof (List.concat cs))).

(** do.py:184-200 find_minimal_mediator *)
Definition find_minimal_mediator (o : Ord) (k : nat) (d : digraph) (p : list Z) (x y : Z) : res (list Z) :=
  cs <- get_colliders d p ;;
  find_minimal d p (inner o k p x y cs).

(** do.py:203-219 get_minimal_mediators *)
Definition get_minimal_mediators (o : Ord) (d : digraph) (x y : Z) : res (list Z) :=
  ps <- get_paths o d x y ;;
  let fs := filter (fun p => pi_active p && pi_front p) ps in
  ms <- mapM (fun kp => find_minimal_mediator o (fst kp) d (pi_path (snd kp)) x y) (combine (seq 0 (List.length fs)) fs) ;;
  let cs := flat_map pi_colliders ps in
  Ok (zord o (-1) (filter (fun v => negb (mem v cs)) (sof (List.concat ms)))).
