(** Model of pybbn/causality/ace.py: average causal effects. *)
From Verif Require Import Py M_Graph M_Node M_Pptc.
Open Scope Qc_scope.

(** a method call on the join tree that returns nothing or raises *)
Definition done (r : jtree * option exn) : res jtree := match r with (j, None) => Ok j | (_, Some x) => Err x end.

(** ace.py:14-21 Ace.__init__: the network (whose nodes apply gave potentials) and its join tree *)
Definition ace_init (o : Ord) (b : bbn) : res (bbn * jtree) := apply o b.

(** ace.py:33-42 get_evidence, get_evidences. An unknown name gives evidence whose node is None. *)
Definition ace_evidence (j : jtree) (n v : string) : option evidence :=
  option_map (fun d => build_evidence d OBSERVATION [(v, 1)]) (get_bbn_node_by_name j n).
(** using evidence whose node is None *)
Definition with_node (e : option evidence) : res evidence := match e with Some e => Ok e | None => Err AttributeError end.

(** ace.py:44-49 get_y_xz_prob *)
Definition y_xz_prob (o : Ord) (y y_val : string) (j : jtree) (x : option evidence) (z : list (option evidence)) : res (jtree * Qc) :=
  j <- done (unobserve_all o j) ;;
  evs <- mapM with_node (x :: z) ;;
  j <- done (update_evidences o j evs) ;;
  p <- posterior j y y_val ;;
  Ok (j, p).

(** ace.py:51-56 get_z_prob *)
Definition z_prob (o : Ord) (j : jtree) (z : list (string * string)) : res (jtree * Qc) :=
  j <- done (unobserve_all o j) ;;
  posteriors <- get_posteriors j ;;
  probs <- mapM (fun nv => m <- dgetE posteriors (fst nv) ;; dgetE m (snd nv)) z ;;
  Ok (j, fold_left Qcmult probs 1).

(** update_evidences validates the evidence object in place; the object for x is used again in the next round *)
Definition revalidated (e : option evidence) : option evidence :=
  match e with Some e => match validate e with Ok e => Some e | Err _ => Some e end | None => None end.

(** ace.py:73-78: one round of the loop over the values of the parents; the state is the tree, the evidence object for
    x and the total *)
Definition ace_round (o : Ord) (y y_val : string) (st : jtree * option evidence * Qc) (z : list (string * string))
    : res (jtree * option evidence * Qc) :=
  let '(j, x_ev, total) := st in
  let z_ev := map (fun nv => ace_evidence j (fst nv) (snd nv)) z in
  jp <- y_xz_prob o y y_val j x_ev z_ev ;;
  jz <- z_prob o (fst jp) z ;;
  Ok (fst jz, revalidated x_ev, total + snd jp * snd jz).

(** ace.py:70-80: one value of x *)
Definition ace_value (o : Ord) (x y y_val : string) (zs : list (list (string * string))) (st : jtree * list (string * Qc)) (x_val : string)
    : res (jtree * list (string * Qc)) :=
  r <- foldM (ace_round o y y_val) zs (fst st, ace_evidence (fst st) x x_val, 0) ;;
  let '(j, _, total) := r in Ok (j, dset (snd st) x_val total).

(** ace.py:23-82 get_ace; returns the results and leaves the tree in its last state *)
Definition get_ace (o : Ord) (b : bbn) (j : jtree) (x y y_val : string) : res (jtree * list (string * Qc)) :=
  i <- dgetE (get_n2i b) x ;;
  let Z := get_parents (b_g b) i in
  names <- mapM (dgetE (get_i2n b)) Z ;;
  nodes <- mapM (get_node (b_g b)) Z ;;
  let zs := map (combine names) (cartesian (map n_values nodes)) in
  n <- get_node (b_g b) i ;;
  foldM (ace_value o x y y_val zs) (n_values n) (j, []).
