(** Properties of the do-calculus helpers. Nothing but theorems and examples. *)
From Verif Require Import Py M_Graph M_Nx M_Gen M_Do Spec SpecNx SpecDo L_Base L_R6 L_Do3.
Open Scope nat_scope.

(** C34. A path of three or more nodes is reported active exactly when the evidence leaves it open. *)
Theorem C34_active : forall d p ev, graph_ok (dg_nodes d) (dg_edges d) -> acyclic (arc (dg_edges d)) -> 3 <= List.length p -> chain (sym (arc (dg_edges d))) p ->
  exists b, is_active_path d p (EvSet ev) = Ok b /\ (b = true <-> open_path (dg_edges d) ev p).
Proof. exact c34. Qed.
Print Assumptions C34_active.

(** A path of two nodes is active unless one of its ends is in the evidence. *)
Theorem C34_short : forall d a b ev, exists r, is_active_path d [a; b] (EvSet ev) = Ok r /\ (r = true <-> ~ In a ev /\ ~ In b ev).
Proof. exact c34_short. Qed.
Print Assumptions C34_short.

(** 0 <- 2 -> 1 <- 3 -> 4, with the descendant 5 of 1 *)
Example C34_case : let d := mkDg [0; 1; 2; 3; 4; 5]%Z [(2, 0); (2, 1); (3, 1); (3, 4); (1, 5)]%Z in
  dagb d = true /\ chainb (dg_edges d) [0; 2; 1; 3; 4]%Z = true /\
  is_active_path d [0; 2; 1; 3; 4]%Z (EvSet []) = Ok false /\ is_active_path d [0; 2; 1; 3; 4]%Z (EvSet [5]%Z) = Ok true /\
  is_active_path d [0; 2; 1; 3; 4]%Z (EvSet [1]%Z) = Ok true /\ is_active_path d [0; 2; 1; 3; 4]%Z (EvSet [5; 3]%Z) = Ok false.
Proof. vm_compute. auto 10. Qed.

(** C35, false: the set may contain a descendant of x ... *)
Theorem C35_descendant_refuted : exists o d x y Z0 z, ord_ok o /\ graph_ok (dg_nodes d) (dg_edges d) /\ acyclic (arc (dg_edges d)) /\
  get_minimal_confounders o d x y = Ok Z0 /\ In z Z0 /\ z <> x /\ path (arc (dg_edges d)) x z.
Proof. exact c35_descendant. Qed.
Print Assumptions C35_descendant_refuted.

(** ... and may open a backdoor path by conditioning on a collider. *)
Theorem C35_collider_refuted : exists o d x y Z0 p, ord_ok o /\ graph_ok (dg_nodes d) (dg_edges d) /\ acyclic (arc (dg_edges d)) /\ ~ In (y, x) (dg_edges d) /\
  get_minimal_confounders o d x y = Ok Z0 /\ simple_path (dg_edges d) x y p /\ backdoor (dg_edges d) p /\ open_path (dg_edges d) Z0 p.
Proof. exact c35_collider. Qed.
Print Assumptions C35_collider_refuted.

(** What holds: every backdoor path of three or more nodes that is open without evidence is blocked, and nothing is
    chosen that is not inside such a path. *)
Theorem C35_active_partial : forall o d x y, ord_ok o -> graph_ok (dg_nodes d) (dg_edges d) -> acyclic (arc (dg_edges d)) -> In x (dg_nodes d) -> In y (dg_nodes d) -> x <> y ->
  exists Z0, get_minimal_confounders o d x y = Ok Z0 /\ NoDup Z0 /\
    (forall p, simple_path (dg_edges d) x y p -> backdoor (dg_edges d) p -> open_path (dg_edges d) [] p -> 3 <= List.length p -> ~ open_path (dg_edges d) Z0 p) /\
    (forall z, In z Z0 -> exists p, simple_path (dg_edges d) x y p /\ backdoor (dg_edges d) p /\ open_path (dg_edges d) [] p /\ inside p z).
Proof. exact c35. Qed.
Print Assumptions C35_active_partial.

(** Where no backdoor path has a collider and y is not a parent of x, every backdoor path is blocked. *)
Theorem C35_valid_partial : forall o d x y, ord_ok o -> graph_ok (dg_nodes d) (dg_edges d) -> acyclic (arc (dg_edges d)) -> In x (dg_nodes d) -> In y (dg_nodes d) -> x <> y ->
  ~ In (y, x) (dg_edges d) -> (forall p z, simple_path (dg_edges d) x y p -> backdoor (dg_edges d) p -> ~ collider_on (dg_edges d) p z) ->
  exists Z0, get_minimal_confounders o d x y = Ok Z0 /\
    forall p, simple_path (dg_edges d) x y p -> backdoor (dg_edges d) p -> ~ open_path (dg_edges d) Z0 p.
Proof. exact c35_valid. Qed.
Print Assumptions C35_valid_partial.

(** Exactly what is returned: one inner node of each backdoor path of three or more nodes that is open without evidence.
    Which one is picked depends on the order of a set. *)
Theorem C35_exactly : forall o d x y, ord_ok o -> graph_ok (dg_nodes d) (dg_edges d) -> acyclic (arc (dg_edges d)) -> In x (dg_nodes d) -> In y (dg_nodes d) -> x <> y ->
  exists Z0 (pick : list Z -> Z), get_minimal_confounders o d x y = Ok Z0 /\ NoDup Z0 /\
    (forall p, simple_path (dg_edges d) x y p -> backdoor (dg_edges d) p -> open_path (dg_edges d) [] p -> 3 <= List.length p -> inside p (pick p)) /\
    (forall z, In z Z0 <-> exists p, simple_path (dg_edges d) x y p /\ backdoor (dg_edges d) p /\ open_path (dg_edges d) [] p /\ 3 <= List.length p /\ pick p = z).
Proof. exact c35_exactly. Qed.
Print Assumptions C35_exactly.

(** 0 <- 1 -> 2 -> 4 and 0 -> 3 -> 4 *)
Example C35_case : let d := mkDg [0; 1; 2; 3; 4]%Z [(1, 0); (1, 2); (2, 4); (0, 3); (3, 4)]%Z in
  dagb d = true /\ simpleb (dg_edges d) 0 4 [0; 1; 2; 4]%Z = true /\ get_minimal_confounders ord_asc d 0 4 = Ok [1]%Z /\ get_minimal_confounders ord_rev d 0 4 = Ok [2]%Z.
Proof. vm_compute. auto. Qed.

(** C50. Exactly which nodes get_all_confounders returns; in particular no descendant of x, not x, not y. *)
Theorem C50_exactly : forall o d x y, ord_ok o -> graph_ok (dg_nodes d) (dg_edges d) -> acyclic (arc (dg_edges d)) -> In x (dg_nodes d) -> In y (dg_nodes d) -> x <> y ->
  exists Z0, get_all_confounders o d x y = Ok Z0 /\ NoDup Z0 /\
    (forall z, In z Z0 <-> z <> x /\ z <> y /\ ~ path (arc (dg_edges d)) x z /\
       (forall p, simple_path (dg_edges d) x y p -> backdoor (dg_edges d) p -> ~ open_path (dg_edges d) [] p -> ~ collider_on (dg_edges d) p z) /\
       exists p, simple_path (dg_edges d) x y p /\ backdoor (dg_edges d) p /\ open_path (dg_edges d) [] p /\ In z p).
Proof. exact c50. Qed.
Print Assumptions C50_exactly.

(** It need not block a backdoor path that is open without evidence. *)
Theorem C50_blocks_refuted : exists o d x y Z0 p, ord_ok o /\ graph_ok (dg_nodes d) (dg_edges d) /\ acyclic (arc (dg_edges d)) /\ ~ In (y, x) (dg_edges d) /\
  get_all_confounders o d x y = Ok Z0 /\ simple_path (dg_edges d) x y p /\ backdoor (dg_edges d) p /\ open_path (dg_edges d) [] p /\ open_path (dg_edges d) Z0 p.
Proof. exact c50_refuted. Qed.
Print Assumptions C50_blocks_refuted.

Example C50_case : let d := mkDg [0; 1; 2; 3; 4]%Z [(1, 0); (1, 2); (2, 4); (0, 3); (3, 4)]%Z in
  dagb d = true /\ get_all_confounders ord_asc d 0 4 = Ok [1; 2]%Z /\ get_all_confounders ord_asc g_coll 0 4 = Ok [3; 2]%Z.
Proof. vm_compute. auto. Qed.

(** C51, false: a mediator that is a collider on some other path is left out, so a directed path may stay open. *)
Theorem C51_mediators_refuted : exists o d x y M p, ord_ok o /\ graph_ok (dg_nodes d) (dg_edges d) /\ acyclic (arc (dg_edges d)) /\
  get_minimal_mediators o d x y = Ok M /\ simple_path (dg_edges d) x y p /\ directed (dg_edges d) p /\ 3 <= List.length p /\ open_path (dg_edges d) M p.
Proof. exact c51_refuted. Qed.
Print Assumptions C51_mediators_refuted.

(** What holds: every directed path from x to y none of whose inner nodes is a collider on a path between x and y is
    blocked; every node chosen lies inside a directed path from x to y. *)
Theorem C51_mediators_partial : forall o d x y, ord_ok o -> graph_ok (dg_nodes d) (dg_edges d) -> acyclic (arc (dg_edges d)) -> In x (dg_nodes d) -> In y (dg_nodes d) -> x <> y ->
  exists M, get_minimal_mediators o d x y = Ok M /\ NoDup M /\
    (forall p, simple_path (dg_edges d) x y p -> directed (dg_edges d) p -> 3 <= List.length p ->
       (forall z q, inside p z -> simple_path (dg_edges d) x y q -> ~ collider_on (dg_edges d) q z) -> ~ open_path (dg_edges d) M p) /\
    (forall z, In z M -> (exists p, simple_path (dg_edges d) x y p /\ directed (dg_edges d) p /\ inside p z) /\
       forall q, simple_path (dg_edges d) x y q -> ~ collider_on (dg_edges d) q z).
Proof. exact c51. Qed.
Print Assumptions C51_mediators_partial.

(** Exactly what is returned: one inner node of each directed path of three or more nodes, less the colliders of all paths. *)
Theorem C51_exactly : forall o d x y, ord_ok o -> graph_ok (dg_nodes d) (dg_edges d) -> acyclic (arc (dg_edges d)) -> In x (dg_nodes d) -> In y (dg_nodes d) -> x <> y ->
  exists M (pick : list Z -> Z), get_minimal_mediators o d x y = Ok M /\ NoDup M /\
    (forall p, simple_path (dg_edges d) x y p -> directed (dg_edges d) p -> 3 <= List.length p -> inside p (pick p)) /\
    (forall z, In z M <-> (exists p, simple_path (dg_edges d) x y p /\ directed (dg_edges d) p /\ 3 <= List.length p /\ pick p = z) /\
       forall q, simple_path (dg_edges d) x y q -> ~ collider_on (dg_edges d) q z).
Proof. exact c51_exactly. Qed.
Print Assumptions C51_exactly.

Example C51_case : let d := mkDg [0; 1; 2; 3; 4]%Z [(1, 0); (1, 2); (2, 4); (0, 3); (3, 4)]%Z in
  dagb d = true /\ get_minimal_mediators ord_asc d 0 4 = Ok [3]%Z /\ get_minimal_mediators ord_asc g_med 0 2 = Ok [].
Proof. vm_compute. auto. Qed.

(** C75. get_paths lists every path between x and y exactly once, with the right metadata. *)
Theorem C75_paths : forall o d x y, ord_ok o -> graph_ok (dg_nodes d) (dg_edges d) -> acyclic (arc (dg_edges d)) -> In x (dg_nodes d) -> In y (dg_nodes d) -> x <> y ->
  exists l, get_paths o d x y = Ok l /\ NoDup (map pi_path l) /\ (forall p, In p (map pi_path l) <-> simple_path (dg_edges d) x y p) /\
    forall i, In i l ->
      (pi_active i = true <-> open_path (dg_edges d) [] (pi_path i)) /\
      (forall z, In z (pi_colliders i) <-> collider_on (dg_edges d) (pi_path i) z) /\
      (pi_back i = true <-> backdoor (dg_edges d) (pi_path i)) /\
      (pi_front i = true <-> frontdoor (dg_edges d) (pi_path i)) /\
      NoDup (pi_z i) /\ forall z, In z (pi_z i) <-> inside (pi_path i) z /\ ~ collider_on (dg_edges d) (pi_path i) z.
Proof. exact c75. Qed.
Print Assumptions C75_paths.

(** four paths from 0 to 4 in [g_coll]: 0 <- 1 -> 4, 0 <- 1 <- 3 -> 4, 0 <- 2 -> 1 -> 4, 0 <- 2 -> 1 <- 3 -> 4 *)
Example C75_case : dagb g_coll = true /\
  match get_paths ord_asc g_coll 0 4 with Ok l => map (fun i => (pi_path i, (pi_z i, pi_colliders i), (pi_active i, pi_back i, pi_front i))) l | Err _ => [] end =
  [([0; 1; 4], ([1], []), (true, true, false)); ([0; 1; 3; 4], ([1; 3], []), (true, true, false));
   ([0; 2; 1; 4], ([1; 2], []), (true, true, false)); ([0; 2; 1; 3; 4], ([2; 3], [1]), (false, true, false))]%Z.
Proof. vm_compute. auto. Qed.
