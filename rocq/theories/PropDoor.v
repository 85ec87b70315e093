(** Adjustment sets and interventions. Nothing but theorems and examples. *)
From Verif Require Import Py M_Graph M_Node M_Pptc M_Nx M_Do Spec SpecNet SpecPot SpecEv SpecNx SpecDo SpecAce SpecSep SpecDoor L_Base L_Check Ex L_R1 L_R4 L_R6 L_P9 L_Door2 L_DoorEx.
Open Scope nat_scope.

(** C62. If [Zs] holds no descendant of [x], and do.py finds every backdoor path from [x] to [y] inactive given [Zs] in the graph
    that to_nx_graph gives, then summing over the values of [Zs] gives P(y | do(x)). *)
Theorem C62_backdoor : forall ops Zs x xv y yv, let N := net_of ops in well_shaped ops -> acyclic (is_parent N) -> stochastic N ->
  In x (vars N) -> In xv (dom N x) -> In y (vars N) -> In yv (dom N y) -> x <> y -> NoDup Zs -> incl Zs (vars N) -> ~ In y Zs ->
  (forall z, In z Zs -> ~ path (is_parent N) x z) -> backdoors_inactive (net_graph ops) Zs x y -> overlaps N Zs x xv ->
  do_prob N x xv y yv = adjusting N Zs x xv y yv.
Proof. exact c62_backdoor. Qed.
Print Assumptions C62_backdoor.

(** The parents of [x] always do, taken together. *)
Theorem C62_parents : forall ops x xv y yv, let N := net_of ops in well_shaped ops -> acyclic (is_parent N) -> stochastic N ->
  In x (vars N) -> In xv (dom N x) -> In y (vars N) -> In yv (dom N y) -> x <> y -> ~ In y (par N x) -> overlaps N (par N x) x xv ->
  do_prob N x xv y yv = adjusting N (par N x) x xv y yv.
Proof. exact c62_parents. Qed.
Print Assumptions C62_parents.

(** The full claim would be that the sets get_all_confounders and get_minimal_confounders find do, whenever [y] is no parent of
    [x]. It is false of both. *)
Theorem C62_all_refuted : exists ops o x xv y yv Z0, let N := net_of ops in well_shaped ops /\ connected ops /\ acyclic (is_parent N) /\ stochastic N /\ ord_ok o /\
  In x (vars N) /\ In xv (dom N x) /\ In y (vars N) /\ In yv (dom N y) /\ x <> y /\ ~ is_parent N y x /\
  get_all_confounders o (net_graph ops) x y = Ok Z0 /\ overlaps N Z0 x xv /\ do_prob N x xv y yv <> adjusting N Z0 x xv y yv.
Proof. exact c62_all_refuted. Qed.
Print Assumptions C62_all_refuted.

(** The second is of no use even where no backdoor path has a collider. *)
Theorem C62_minimal_refuted : exists ops o x xv y yv Z0, let N := net_of ops in well_shaped ops /\ connected ops /\ acyclic (is_parent N) /\ stochastic N /\ ord_ok o /\
  In x (vars N) /\ In xv (dom N x) /\ In y (vars N) /\ In yv (dom N y) /\ x <> y /\ ~ is_parent N y x /\
  (forall p z, simple_path (dg_edges (net_graph ops)) x y p -> backdoor (dg_edges (net_graph ops)) p -> ~ collider_on (dg_edges (net_graph ops)) p z) /\
  get_minimal_confounders o (net_graph ops) x y = Ok Z0 /\ overlaps N Z0 x xv /\ do_prob N x xv y yv <> adjusting N Z0 x xv y yv.
Proof. exact c62_minimal_refuted. Qed.
Print Assumptions C62_minimal_refuted.

(** There the first does ... *)
Theorem C62_all_partial : forall ops o x xv y yv, let N := net_of ops in let d := net_graph ops in well_shaped ops -> acyclic (is_parent N) -> stochastic N -> ord_ok o ->
  In x (vars N) -> In xv (dom N x) -> In y (vars N) -> In yv (dom N y) -> x <> y -> ~ is_parent N y x ->
  (forall p z, simple_path (dg_edges d) x y p -> backdoor (dg_edges d) p -> ~ collider_on (dg_edges d) p z) ->
  exists Z0, get_all_confounders o d x y = Ok Z0 /\ (overlaps N Z0 x xv -> do_prob N x xv y yv = adjusting N Z0 x xv y yv).
Proof. exact c62_confounders. Qed.
Print Assumptions C62_all_partial.

(** ... and the second if it has no descendant of [x]. *)
Theorem C62_minimal_partial : forall ops o x xv y yv, let N := net_of ops in let d := net_graph ops in well_shaped ops -> acyclic (is_parent N) -> stochastic N -> ord_ok o ->
  In x (vars N) -> In xv (dom N x) -> In y (vars N) -> In yv (dom N y) -> x <> y -> ~ is_parent N y x ->
  (forall p z, simple_path (dg_edges d) x y p -> backdoor (dg_edges d) p -> ~ collider_on (dg_edges d) p z) ->
  exists Z0, get_minimal_confounders o d x y = Ok Z0 /\
    ((forall z, In z Z0 -> ~ path (is_parent N) x z) -> overlaps N Z0 x xv -> do_prob N x xv y yv = adjusting N Z0 x xv y yv).
Proof. exact c62_minimal. Qed.
Print Assumptions C62_minimal_partial.

Local Open Scope Z_scope.
(** the effect of [b] on [d] in [diamond], by way of [c], which is no parent of [b]; it is not what observing [b] tells *)
Example C62_case : let N := net_of diamond in
  acyclic (is_parent N) /\ stochastic N /\ (forall z, In z [1] -> ~ path (is_parent N) 2 z) /\ backdoors_inactive (net_graph diamond) [1] 2 30 /\ overlaps N [1] 2 "x" /\
  qeqb (do_prob N 2 "x" 30 "t") (adjusting N [1] 2 "x" 30 "t") = true /\ qeqb (do_prob N 2 "x" 30 "t") (exact_posterior N (seeing [2] (fun _ => "x"%string)) 30 "t") = false.
Proof.
  cbv zeta. split; [apply rankedb_ok with diamond_rank; vm_compute; reflexivity|]. split; [apply stochasticb_ok; vm_compute; reflexivity|].
  split; [apply no_descb_ok with [2; 30]; vm_compute; reflexivity|]. split; [apply backdoors_inactiveb_ok; vm_compute; reflexivity|]. split; [apply overlapsb_ok; vm_compute; reflexivity|]. vm_compute. auto.
Qed.
(** the sets found there *)
Example C62_case_found : let d := net_graph diamond in
  (forall p z, simple_path (dg_edges d) 2 30 p -> backdoor (dg_edges d) p -> ~ collider_on (dg_edges d) p z) /\
  get_all_confounders ord_asc d 2 30 = Ok [10; 1] /\ get_minimal_confounders ord_asc d 2 30 = Ok [1] /\
  overlaps (net_of diamond) [10; 1] 2 "y" /\ qeqb (do_prob (net_of diamond) 2 "y" 30 "t") (adjusting (net_of diamond) [10; 1] 2 "y" 30 "t") = true.
Proof.
  cbv zeta. split; [apply backdoors_plainb_ok; [apply (proj1 (mem_In _ _)); vm_compute; reflexivity|apply (proj1 (mem_In _ _)); vm_compute; reflexivity|discriminate|vm_compute; reflexivity]|].
  split; [vm_compute; reflexivity|]. split; [vm_compute; reflexivity|]. split; [apply overlapsb_ok; vm_compute; reflexivity|]. vm_compute. reflexivity.
Qed.
