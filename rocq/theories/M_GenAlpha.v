(** Model of the drawing of parameters in pybbn/generator/bbngenerator.py with its hyperparameters. [alphas] are the answers of
    np.random.randint(1, max_alpha + 1), in order; running out of them is [OutOfFuel]. [rvs i k al] is the vector that
    scipy.stats.dirichlet.rvs(al)[0] gives for the k-th row of node i. *)
From Verif Require Import Py M_Graph M_Node M_Nx M_Gen.

(** bbngenerator.py:216-226 __generate_alphas__; numpy.random.randint(low, high) raises ValueError when low >= high *)
Definition generate_alphas (n : nat) (max_alpha : Z) (alphas : list Z) : res (list Z * list Z) :=
  if Nat.eqb n 0 then Ok ([], alphas)
  else if Z.leb (max_alpha + 1) 1 then Err ValueError
  else if Nat.ltb (List.length alphas) n then Err OutOfFuel
  else Ok (firstn n alphas, skipn n alphas).
(** bbngenerator.py:229-239 __sample_dirichlet__; rvs raises ValueError when there are no parameters or one is not positive *)
Definition sample_dirichlet (rvs : list Z -> list Qc) (n : nat) (max_alpha : Z) (alphas : list Z) : res (list Qc * list Z) :=
  a <- generate_alphas n max_alpha alphas ;;
  if Nat.eqb (List.length (fst a)) 0 || existsb (fun x => Z.leb x 0) (fst a) then Err ValueError else Ok (rvs (fst a), snd a).
(** bbngenerator.py:257-281 __generate_dirichlet_parameters__ *)
Definition dirichlet_parameters_a (rvs : Z -> nat -> list Z -> list Qc) (i : Z) (parents : list Z) (nv : list nat) (max_alpha : Z) (alphas : list Z)
  : res (list (list Qc) * list Z) :=
  m <- num_parent_instantiations parents nv ;;
  n <- indexE nv i ;;
  foldM (fun s k => r <- sample_dirichlet (rvs i k) n max_alpha (snd s) ;; Ok (fst s ++ [fst r], snd r)) (seq 0 m) ([], alphas).
(** bbngenerator.py:284-308 __generate_parameters__; also returns the numbers left over *)
Definition generate_parameters_a (rvs : Z -> nat -> list Z -> list Qc) (g : digraph) (max_values : nat) (max_alpha : Z) (draws : list nat) (alphas : list Z)
  : res (list (Z * gparams) * list Z) :=
  nv <- num_values (List.length (dg_nodes g)) max_values draws ;;
  foldM (fun s i =>
           parents <- predecessors g i ;;
           params <- dirichlet_parameters_a rvs i parents nv max_alpha (snd s) ;;
           m <- num_parent_instantiations parents nv ;;
           n <- indexE nv i ;;
           Ok (dset (fst s) i (mkGp parents (fst params) (m, n)), snd params)) (dg_nodes g) ([], alphas).
(** bbngenerator.py:332-359 generate_multi_bbn and generate_singly_bbn *)
Definition generate_multi_bbn_a rvs n max_iter max_values max_alpha ints draws alphas : res (digraph * list (Z * gparams) * list Z) :=
  g <- multi_structure n max_iter ints ;; p <- generate_parameters_a rvs g max_values max_alpha draws alphas ;; Ok (g, fst p, snd p).
Definition generate_singly_bbn_a rvs n max_iter max_values max_alpha ints units draws alphas : res (digraph * list (Z * gparams) * list Z) :=
  g <- singly_structure n max_iter ints units ;; p <- generate_parameters_a rvs g max_values max_alpha draws alphas ;; Ok (g, fst p, snd p).
