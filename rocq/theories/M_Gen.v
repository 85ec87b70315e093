(** Model of pybbn/generator/bbngenerator.py. Random numbers are given: [ints] are the answers of np.random.randint(0, n),
    [units] those of np.random.random(); running out of them is [OutOfFuel]. *)
From Verif Require Import Py M_Graph M_Node M_Nx.

Definition upto (n : nat) : list Z := map Z.of_nat (seq 0 n).

(** bbngenerator.py:15-31 __get_simple_ordered_tree__ *)
Definition simple_ordered_tree (n : nat) : digraph :=
  let g := fold_left dg_add_node (upto n) dg_empty in
  fold_left (fun g i => dg_add_edge g i (i + 1)%Z) (upto (n - 1)) g.

(** bbngenerator.py:34-51 __convert_to_undirected_graph__ *)
Definition to_undirected (g : digraph) : ugraph := u_of (dg_nodes g) (edge_list g).
(** bbngenerator.py:54-61 __is_connected__ *)
Definition connected_dg (g : digraph) : res bool := is_connected (to_undirected g).

(** np.random.randint(0, n) *)
Definition randint (n : nat) (ints : list Z) : res (Z * list Z) :=
  if Nat.eqb n 0 then Err ValueError else match ints with [] => Err OutOfFuel | i :: t => Ok (i, t) end.
(** bbngenerator.py:64-75 __get_random_node_pair__; the while loop consumes numbers until one differs from i *)
Fixpoint other_than (i : Z) (ints : list Z) : res (Z * list Z) :=
  match ints with
  | [] => Err OutOfFuel
  | j :: t => if eqb j i then other_than i t else Ok (j, t)
  end.
Definition random_node_pair (n : nat) (ints : list Z) : res (Z * Z * list Z) :=
  p <- randint n ints ;; q <- other_than (fst p) (snd p) ;; Ok (fst p, fst q, snd q).

(** bbngenerator.py:90-105 __del_edge__ *)
Definition del_edge (i j : Z) (g : digraph) : res digraph :=
  if dg_has_edge g i j then
    g1 <- dg_remove_edge g i j ;;
    c <- connected_dg g1 ;;
    Ok (if c then g1 else dg_add_edge g1 i j)
  else Ok g.
(** bbngenerator.py:108-121 __add_edge__ *)
Definition add_edge_dag (i j : Z) (g : digraph) : res digraph :=
  let g1 := dg_add_edge g i j in
  if is_dag g1 then Ok g1 else dg_remove_edge g1 i j.

(** bbngenerator.py:124-146 __find_predecessor__ *)
Definition find_predecessor (i j : Z) (g : digraph) : res (option Z) :=
  ps <- predecessors g j ;;
  Ok (find (fun pa => has_path (to_undirected g) pa i) ps).

(** bbngenerator.py:149-164 __generate_multi_connected_structure__ *)
Fixpoint multi_loop (iters n : nat) (ints : list Z) (g : digraph) : res digraph :=
  match iters with
  | O => Ok g
  | S k =>
      p <- random_node_pair n ints ;;
      let '(i, j, ints) := p in
      g <- (if dg_has_edge g i j then del_edge i j g else add_edge_dag i j g) ;;
      multi_loop k n ints g
  end.
Definition multi_structure (n max_iter : nat) (ints : list Z) : res digraph :=
  multi_loop max_iter n ints (simple_ordered_tree n).

(** bbngenerator.py:167-198 __generate_singly_structure__ *)
Definition half : Qc := qfrac 1 2.
Definition singly_step (i j : Z) (p : Qc) (g : digraph) : res digraph :=
  k <- find_predecessor i j g ;;
  match k with
  | None => Ok g
  | Some k =>
      g1 <- dg_remove_edge g k j ;;
      let g2 := if qltb p half then dg_add_edge g1 j i else dg_add_edge g1 i j in
      c <- connected_dg g2 ;;
      if c then Ok g2
      else let g3 := dg_add_edge g2 k j in
           if qltb p half then dg_remove_edge g3 j i else dg_remove_edge g3 i j
  end.
Fixpoint singly_loop (iters n : nat) (ints : list Z) (units : list Qc) (g : digraph) : res digraph :=
  match iters with
  | O => Ok g
  | S it =>
      p <- random_node_pair n ints ;;
      let '(i, j, ints) := p in
      if dg_has_edge g i j || dg_has_edge g j i then singly_loop it n ints units g
      else match units with
           | [] => Err OutOfFuel
           | u :: units => g <- singly_step i j u g ;; singly_loop it n ints units g
           end
  end.
Definition singly_structure (n max_iter : nat) (ints : list Z) (units : list Qc) : res digraph :=
  singly_loop max_iter n ints units (simple_ordered_tree n).

(** ** parameters *)

(** bbngenerator.py:201-213 __generate_num_values__: [draws] are the answers of np.random.randint(0, max_values), which
    raises ValueError for max_values <= 0; the result is indexed by position *)
Definition num_values (n : nat) (max_values : nat) (draws : list nat) : res (list nat) :=
  if Nat.eqb max_values 0 && negb (Nat.eqb n 0) then Err ValueError
  else if Nat.ltb (List.length draws) n then Err OutOfFuel
  else Ok (map (fun d => Nat.max (d + 1) 2) (firstn n draws)).

Definition indexE {A} (l : list A) (i : Z) : res A :=
  if Z.ltb i 0 then Err IndexError else match nth_error l (Z.to_nat i) with Some x => Ok x | None => Err IndexError end.

(** bbngenerator.py:242-254 __get_num_parent_instantiations__ *)
Definition num_parent_instantiations (parents : list Z) (nv : list nat) : res nat :=
  foldM (fun acc pa => k <- indexE nv pa ;; Ok (acc * k)) parents 1.

(** bbngenerator.py:229-239, 257-281 __generate_dirichlet_parameters__: the [k]-th probability vector for node i, of
    length n, is [dir i k n] (its hyperparameters, 216-226, are in M_GenAlpha) *)
Definition dirichlet_parameters (dir : Z -> nat -> nat -> list Qc) (i : Z) (parents : list Z) (nv : list nat) : res (list (list Qc)) :=
  m <- num_parent_instantiations parents nv ;;
  n <- indexE nv i ;;
  Ok (map (fun k => dir i k n) (seq 0 m)).

(** bbngenerator.py:284-308 __generate_parameters__ *)
Record gparams := mkGp { gp_parents : list Z; gp_params : list (list Qc); gp_shape : nat * nat }.
Definition generate_parameters (dir : Z -> nat -> nat -> list Qc) (g : digraph) (max_values : nat) (draws : list nat)
  : res (list (Z * gparams)) :=
  nv <- num_values (List.length (dg_nodes g)) max_values draws ;;
  foldM (fun d i =>
           parents <- predecessors g i ;;
           params <- dirichlet_parameters dir i parents nv ;;
           m <- num_parent_instantiations parents nv ;;
           n <- indexE nv i ;;
           Ok (dset d i (mkGp parents params (m, n)))) (dg_nodes g) [].

(** bbngenerator.py:332-359 generate_multi_bbn and generate_singly_bbn *)
Definition generate_multi_bbn dir n max_iter max_values ints draws : res (digraph * list (Z * gparams)) :=
  g <- multi_structure n max_iter ints ;; p <- generate_parameters dir g max_values draws ;; Ok (g, p).
Definition generate_singly_bbn dir n max_iter max_values ints units draws : res (digraph * list (Z * gparams)) :=
  g <- singly_structure n max_iter ints units ;; p <- generate_parameters dir g max_values draws ;; Ok (g, p).

(** bbngenerator.py:362-388 convert_for_exact_inference: the calls of add_node and add_edge *)
Definition state_name (k : nat) : string := ("state" ++ str_of_Z (Z.of_nat k))%string.
Definition exact_node (p : list (Z * gparams)) (i : Z) : res bnode :=
  x <- dgetE p i ;;
  Ok (new_node i (str_of_Z i) (map state_name (seq 0 (snd (gp_shape x)))) (List.concat (gp_params x))).
Definition convert_calls (g : digraph) (p : list (Z * gparams)) : res (list bop) :=
  ns <- foldM (fun d i => n <- exact_node p i ;; Ok (dset d i n)) (dg_nodes g) [] ;;
  es <- mapM (fun e => pa <- dgetE ns (fst e) ;; ch <- dgetE ns (snd e) ;; Ok (AddEdge pa ch)) (edge_list g) ;;
  Ok (map AddNode (map snd ns) ++ es).
Definition convert_for_exact_inference (g : digraph) (p : list (Z * gparams)) : res bbn :=
  calls <- convert_calls g p ;; Ok (build calls).
