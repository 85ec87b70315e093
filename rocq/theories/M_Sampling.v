(** Model of pybbn/sampling/sampling.py: tables, visiting order and rejection sampling. *)
From Verif Require Import Py M_Graph M_Node.

(** ** Table *)

(** numpy.cumsum (sampling.py:43, 58) *)
Fixpoint cumsum_from (acc : Qc) (l : list Qc) : list Qc :=
  match l with [] => [] | q :: t => (acc + q)%Qc :: cumsum_from (acc + q)%Qc t end.
Definition cumsum (l : list Qc) : list Qc := cumsum_from 0%Qc l.

(** sampling.py:57: [l[i : i + n] for i in range(0, len(l), n)]; at most [fuel] slices, [len(l)] are enough for n > 0 *)
Fixpoint slices (fuel n : nat) (l : list Qc) : list (list Qc) :=
  match fuel with
  | O => []
  | S f => match l with [] => [] | _ => firstn n l :: slices f n (skipn n l) end
  end.

(** sampling.py:43, 59: self.probs is one array, or a dictionary of arrays *)
Inductive tprobs := Flat (l : list Qc) | Keyed (d : list (string * list Qc)).
(** sampling.py:25-59 *)
Record table := mkTable { tb_node : bnode; tb_parents : list bnode; tb_pids : list Z; tb_probs : tprobs }.

(** sampling.py:48, 72 *)
Definition get_kv (i : Z) (v : string) : string := (str_of_Z i ++ "=" ++ v)%string.

(** sampling.py:31-59 __init__. [range(0, n, 0)] raises ValueError. *)
Definition mk_table (n : bnode) (parents : list bnode) : res table :=
  let sorted := isort (fun a b => Z.leb (n_id a) (n_id b)) parents in
  let pids := map n_id parents in
  match parents with
  | [] => Ok (mkTable n sorted pids (Flat (cumsum (n_probs n))))
  | _ =>
      let keys := map (fun vs => join "," (map (fun p => get_kv (n_id (fst p)) (snd p)) (combine sorted vs)))
                      (cartesian (map n_values sorted)) in
      let k := List.length (n_values n) in
      if Nat.eqb k 0 then Err ValueError
      else
        let rows := map cumsum (slices (List.length (n_probs n)) k (n_probs n)) in
        Ok (mkTable n sorted pids (Keyed (fold_left (fun d p => dset d (fst p) (snd p)) (combine keys rows) [])))
  end.

(** bisect.bisect = bisect_right (standard library): one unit of fuel per halving *)
Fixpoint bisect_loop (fuel : nat) (a : list Qc) (x : Qc) (lo hi : nat) : res nat :=
  if Nat.ltb lo hi then
    match fuel with
    | O => Err OutOfFuel
    | S f =>
        let mid := Nat.div2 (lo + hi) in
        match nth_error a mid with
        | None => Err IndexError
        | Some y => if qltb x y then bisect_loop f a x lo mid else bisect_loop f a x (S mid) hi
        end
    end
  else Ok lo.
Definition bisect (a : list Qc) (x : Qc) : res nat := bisect_loop (List.length a) a x 0 (List.length a).

Definition nthE {A} (l : list A) (k : nat) : res A := match nth_error l k with Some x => Ok x | None => Err IndexError end.

(** sampling.py:61-75 get_value, with has_parents (77-83) *)
Definition get_value (t : table) (prob : Qc) (sample : list (Z * string)) : res string :=
  match tb_probs t with
  | Flat l => i <- bisect l prob ;; nthE (n_values (tb_node t)) i
  | Keyed d =>
      kvs <- mapM (fun i => v <- dgetE sample i ;; Ok (get_kv i v)) (tb_pids t) ;;
      l <- dgetE d (join "," kvs) ;;
      i <- bisect l prob ;; nthE (n_values (tb_node t)) i
  end.

(** ** sorted() with a comparison function, for lists of fewer than 64 elements (CPython's list.sort: the leading run,
    then binary insertion). Longer lists are merged from several runs, which is not modelled; see [sorter_ok]. *)
Section Sorted.
  Context {A : Type} (lt : A -> A -> bool).

  (** count_run, ascending: elements are taken as long as none is less than its predecessor *)
  Fixpoint take_asc (last : A) (l : list A) : list A * list A :=
    match l with
    | [] => ([], [])
    | x :: t => if lt x last then ([], l) else let (a, b) := take_asc x t in (x :: a, b)
    end.
  (** count_run, strictly descending *)
  Fixpoint take_desc (last : A) (l : list A) : list A * list A :=
    match l with
    | [] => ([], [])
    | x :: t => if lt x last then let (a, b) := take_desc x t in (x :: a, b) else ([], l)
    end.
  Definition first_run (l : list A) : list A * list A :=
    match l with
    | x :: y :: t =>
        if lt y x then let (a, b) := take_desc y t in (rev (x :: y :: a), b)
        else let (a, b) := take_asc y t in (x :: y :: a, b)
    | _ => (l, [])
    end.
  (** binarysort: position of the pivot *)
  Fixpoint bin_pos (fuel : nat) (l : list A) (pivot : A) (lo hi : nat) : nat :=
    match fuel with
    | O => lo
    | S f =>
        if Nat.ltb lo hi then
          let p := lo + Nat.div2 (hi - lo) in
          match nth_error l p with
          | None => lo
          | Some y => if lt pivot y then bin_pos f l pivot lo p else bin_pos f l pivot (S p) hi
          end
        else lo
    end.
  Definition insert_at (k : nat) (x : A) (l : list A) : list A := firstn k l ++ x :: skipn k l.
  Definition small_sort (l : list A) : list A :=
    let (a, b) := first_run l in
    fold_left (fun acc x => insert_at (bin_pos (List.length acc) acc x 0 (List.length acc)) x acc) b a.
End Sorted.

(** ** LogicSampler *)

(** sampling.py:10-22 SortableNode *)
Record snode := mkSn { sn_id : Z; sn_parents : list Z }.

(** What is known of sorted(): it permutes its argument, sorts it when the comparison is a strict total order on it,
    and is [small_sort] on short lists. *)
Definition sorter := (snode -> snode -> bool) -> list snode -> list snode.
Definition strict_order (lt : snode -> snode -> bool) (l : list snode) : Prop :=
  (forall x y, In x l -> In y l -> lt x y = true -> lt y x = false) /\
  (forall x y, In x l -> In y l -> x <> y -> lt x y = true \/ lt y x = true) /\
  (forall x y z, In x l -> In y l -> In z l -> lt x y = true -> lt y z = true -> lt x z = true).
Definition sorter_ok (s : sorter) : Prop :=
  (forall lt l, Permutation (s lt l) l) /\
  (forall lt l, List.length l < 64 -> s lt l = small_sort lt l) /\
  (forall lt l a x b y c, NoDup l -> strict_order lt l -> s lt l = a ++ x :: b ++ y :: c -> lt x y = true).

(** sampling.py:126-131 id_sorter and pa_sorter *)
Definition pa_sorter (x y : snode) : comparison :=
  if mem (sn_id x) (sn_parents y) then Lt
  else if mem (sn_id y) (sn_parents x) then Gt
  else Z.compare (sn_id x) (sn_id y).
(** functools.cmp_to_key: x < y iff the comparison is negative *)
Definition pa_lt (x y : snode) : bool := match pa_sorter x y with Lt => true | _ => false end.

(** sampling.py:116-134 __topological_sort__ *)
Definition topological_sort (s : sorter) (b : bbn) : list Z :=
  map sn_id (s pa_lt (map (fun n => mkSn (n_id n) (sof (get_parents_ordered b (n_id n)))) (get_nodes (b_g b)))).

(** sampling.py:101-114 __get_tables__ *)
Definition get_tables (b : bbn) : res (list (Z * table)) :=
  foldM (fun d n =>
           ps <- mapM (get_node (b_g b)) (get_parents_ordered b (n_id n)) ;;
           t <- mk_table n ps ;; Ok (dset d (n_id n) t)) (get_nodes (b_g b)) [].

(** sampling.py:86-99 LogicSampler.__init__ *)
Record sampler := mkSampler { sp_nodes : list Z; sp_tables : list (Z * table) }.
Definition logic_sampler (s : sorter) (b : bbn) : res sampler :=
  t <- get_tables b ;; Ok (mkSampler (topological_sort s b) t).

Definition sample := list (Z * string).

(** sampling.py:152-158: the for loop over zip(probs, self.nodes), left by [break] on a mismatch *)
Fixpoint sample_walk (tables : list (Z * table)) (evidence sample : list (Z * string)) (l : list (Qc * Z))
  : res (list (Z * string)) :=
  match l with
  | [] => Ok sample
  | (p, i) :: t =>
      tb <- dgetE tables i ;;
      v <- get_value tb p sample ;;
      match dget evidence i with
      | Some e => if eqb v e then sample_walk tables evidence (dset sample i v) t else Ok sample
      | None => sample_walk tables evidence (dset sample i v) t
      end
  end.

(** sampling.py:149-158: one pass of the while loop, for the draws [probs] *)
Definition sample_once (s : sampler) (evidence : sample) (probs : list Qc) : res sample :=
  sample_walk (sp_tables s) evidence evidence (combine probs (sp_nodes s)).

(** sampling.py:136-166 get_samples. The vectors of uniform draws are given as a list; running out of them is
    [OutOfFuel]. *)
Fixpoint samples_loop (s : sampler) (evidence : sample) (n_samples : nat) (draws : list (list Qc)) (samples : list sample)
  : res (list sample) :=
  match draws with
  | [] => Err OutOfFuel
  | probs :: t =>
      d <- sample_once s evidence probs ;;
      let samples := if Nat.eqb (List.length d) (List.length (sp_nodes s)) then samples ++ [d] else samples in
      if Nat.eqb (List.length samples) n_samples then Ok samples else samples_loop s evidence n_samples t samples
  end.
Definition get_samples (s : sampler) (evidence : sample) (n_samples : nat) (draws : list (list Qc)) : res (list sample) :=
  samples_loop s evidence n_samples draws [].
