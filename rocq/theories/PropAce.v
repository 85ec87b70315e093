(** Average causal effects. Nothing but theorems and examples. *)
From Verif Require Import Py M_Graph M_Node M_Pptc M_Ace Spec SpecNet SpecEv SpecPot SpecAce SpecSep L_Base L_Check Ex L_R1 L_R4 L_P9 L_Door2 L_SepEx L_DoorEx.
Open Scope nat_scope.

(** C33. The full claim would be: for every connected network whose tables are distributions and where every value of x
    is possible whenever its parents' values are, get_ace gives P(y | do(x)). It is false, because the probabilities of
    x's parents are multiplied as if they were independent: *)
Theorem C33_ace_refuted : exists ops o x y yv xv, well_shaped ops /\ connected ops /\ ord_ok o /\ acyclic (is_parent (net_of ops)) /\ stochastic (net_of ops) /\
  overlapping (net_of ops) x /\ In x (vars (net_of ops)) /\ In y (vars (net_of ops)) /\ In yv (dom (net_of ops) y) /\ In xv (dom (net_of ops) x) /\
  exists b j j' r q, ace_init o (build ops) = Ok (b, j) /\ get_ace o b j (net_name ops x) (net_name ops y) yv = Ok (j', r) /\ dget r xv = Some q /\ q <> do_prob (net_of ops) x xv y yv.
Proof. exact c33_refuted. Qed.
Print Assumptions C33_ace_refuted.

(** It holds when x's parents are independent of each other, after any history of observations and earlier calls. *)
Theorem C33_ace_partial : forall ops o0 o x y yv, well_shaped ops -> connected ops -> ord_ok o0 -> ord_ok o -> let N := net_of ops in
  acyclic (is_parent N) -> stochastic N -> In x (vars N) -> In y (vars N) -> In yv (dom N y) -> independent N (par N x) -> overlapping N x ->
  exists b j0, ace_init o0 (build ops) = Ok (b, j0) /\
  forall h j, valid_history N h -> Forall hard_call (calls h) -> session o0 ops h = Ok j ->
  exists j' h', get_ace o b j (net_name ops x) (net_name ops y) yv = Ok (j', map (fun xv => (xv, do_prob N x xv y yv)) (dom N x)) /\
    valid_history N h' /\ Forall hard_call (calls h') /\ session o0 ops h' = Ok j'.
Proof. exact c33_part. Qed.
Print Assumptions C33_ace_partial.

(** They are when there is at most one, and when none of them has parents. *)
Theorem C33_independent : forall ops x, well_shaped ops -> let N := net_of ops in acyclic (is_parent N) -> stochastic N ->
  (List.length (par N x) <= 1 \/ forall p, In p (par N x) -> par N p = []) -> independent N (par N x).
Proof. exact c33_few. Qed.
Print Assumptions C33_independent.

(** They are when do.py finds every path between any two of them inactive, in the graph that to_nx_graph gives. *)
Theorem C33_unrelated : forall ops x, well_shaped ops -> let N := net_of ops in acyclic (is_parent N) -> stochastic N ->
  (forall p q, In p (par N x) -> In q (par N x) -> p <> q -> all_inactive (net_graph ops) [] p q) -> independent N (par N x).
Proof. exact c33_unrelated. Qed.
Print Assumptions C33_unrelated.

(** What it gives in every connected network. *)
Theorem C33_formula : forall ops o0 o x y yv, well_shaped ops -> connected ops -> ord_ok o0 -> ord_ok o -> let N := net_of ops in
  In x (vars N) -> In y (vars N) -> In yv (dom N y) ->
  exists b j0, ace_init o0 (build ops) = Ok (b, j0) /\
  forall h j, valid_history N h -> Forall hard_call (calls h) -> session o0 ops h = Ok j ->
  exists j' h', get_ace o b j (net_name ops x) (net_name ops y) yv = Ok (j', map (fun xv => (xv, adjusted N x xv y yv)) (dom N x)) /\
    valid_history N h' /\ Forall hard_call (calls h') /\ session o0 ops h' = Ok j'.
Proof. exact c33_formula. Qed.
Print Assumptions C33_formula.

(** the hypotheses hold of b (one parent) and d in the diamond network after a history of observations; the numbers are
    those of the intervention and not those of conditioning *)
Example C33_case : let N := net_of diamond in
  acyclic (is_parent N) /\ stochastic N /\ List.length (par N 2%Z) <= 1 /\ overlapping N 2%Z /\
  acesb ord_rev ord_id diamond hard_history 2%Z 30%Z "t" (fun xv => do_prob N 2%Z xv 30%Z "t") = true /\
  acesb ord_rev ord_id diamond hard_history 2%Z 30%Z "t" (fun xv => exact_posterior N (seeing [2%Z] (fun _ => xv)) 30%Z "t") = false /\
  acesb ord_id ord_rev confounded [] 3%Z 4%Z "1" (fun xv => adjusted (net_of confounded) 3%Z xv 4%Z "1") = true.
Proof.
  split; [apply rankedb_ok with diamond_rank; vm_compute; reflexivity|]. split; [apply stochasticb_ok; vm_compute; reflexivity|].
  split; [vm_compute; constructor|]. split; [apply overlappingb_ok; vm_compute; reflexivity|]. vm_compute. auto.
Qed.

(** the parents p and q of x in [two_sides], of which p has a parent *)
Example C33_case_unrelated : let N := net_of two_sides in
  well_shaped two_sides /\ connected two_sides /\ acyclic (is_parent N) /\ stochastic N /\ overlapping N 4%Z /\ par N 4%Z = [2; 3]%Z /\ par N 2%Z = [1]%Z /\
  all_inactive (net_graph two_sides) [] 2%Z 3%Z /\ all_inactive (net_graph two_sides) [] 3%Z 2%Z /\
  acesb ord_rev ord_id two_sides [] 4%Z 5%Z "1" (fun xv => do_prob N 4%Z xv 5%Z "1") = true.
Proof.
  split; [apply well_shapedb_ok; vm_compute; reflexivity|]. split; [apply connectedb_ok; vm_compute; reflexivity|].
  split; [apply rankedb_ok with Z.to_nat; vm_compute; reflexivity|]. split; [apply stochasticb_ok; vm_compute; reflexivity|]. split; [apply overlappingb_ok; vm_compute; reflexivity|].
  split; [vm_compute; reflexivity|]. split; [vm_compute; reflexivity|]. split; [apply inactiveb_ok; vm_compute; reflexivity|]. split; [apply inactiveb_ok; vm_compute; reflexivity|]. vm_compute. reflexivity.
Qed.
