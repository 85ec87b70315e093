(** What interventions can and cannot change. Nothing but theorems and examples. *)
From Verif Require Import Py M_Graph M_Node M_Pptc M_Ace Spec SpecNet SpecEv SpecPot SpecAce SpecSep SpecRow SpecCause L_Base L_Check Ex L_R1 L_R4 L_P9 L_DoorEx L_Cause2 L_CauseEx.
Local Open Scope Qc_scope.

(** C104. The full claim would be: get_ace says of every variable that is no effect of x what is reported of it without evidence, and
    its numbers for the values of one variable add up to 1. Both are false, *)
Theorem C104_unaffected_refuted : exists ops o x y yv xv, well_shaped ops /\ connected ops /\ ord_ok o /\ acyclic (is_parent (net_of ops)) /\ stochastic (net_of ops) /\
  overlapping (net_of ops) x /\ In x (vars (net_of ops)) /\ In y (vars (net_of ops)) /\ In yv (dom (net_of ops) y) /\ In xv (dom (net_of ops) x) /\ y <> x /\ ~ effect_of (net_of ops) x y /\
  exists b j j' r q, ace_init o (build ops) = Ok (b, j) /\ get_ace o b j (net_name ops x) (net_name ops y) yv = Ok (j', r) /\ dget r xv = Some q /\ q <> exact_posterior (net_of ops) no_evidence y yv.
Proof. exact c104_unaffected_refuted. Qed.
Print Assumptions C104_unaffected_refuted.

Theorem C104_distribution_refuted : exists ops o x y xv, well_shaped ops /\ connected ops /\ ord_ok o /\ acyclic (is_parent (net_of ops)) /\ stochastic (net_of ops) /\
  overlapping (net_of ops) x /\ In x (vars (net_of ops)) /\ In y (vars (net_of ops)) /\ In xv (dom (net_of ops) x) /\
  exists r : string -> Qc, (forall yv, In yv (dom (net_of ops) y) -> exists b j j' t, ace_init o (build ops) = Ok (b, j) /\ get_ace o b j (net_name ops x) (net_name ops y) yv = Ok (j', t) /\ dget t xv = Some (r yv)) /\
    qsum (map r (dom (net_of ops) y)) <> 1.
Proof. exact c104_distribution_refuted. Qed.
Print Assumptions C104_distribution_refuted.

(** the first holds when the parents of x are independent of each other, *)
Theorem C104_unaffected_partial : forall ops o0 o x y yv, well_shaped ops -> connected ops -> ord_ok o0 -> ord_ok o -> let N := net_of ops in acyclic (is_parent N) -> stochastic N ->
  In x (vars N) -> In y (vars N) -> In yv (dom N y) -> y <> x -> ~ effect_of N x y -> independent N (par N x) -> overlapping N x ->
  gives o0 o ops x y yv (fun _ => exact_posterior N no_evidence y yv).
Proof. exact c104_unaffected. Qed.
Print Assumptions C104_unaffected_partial.

(** and of the parents of x themselves when their values are possible in all combinations; *)
Theorem C104_parents : forall ops o0 o x y yv, well_shaped ops -> connected ops -> ord_ok o0 -> ord_ok o -> let N := net_of ops in acyclic (is_parent N) -> stochastic N ->
  In x (vars N) -> In y (par N x) -> In yv (dom N y) -> (forall xv, In xv (dom N x) -> combinable N x xv) ->
  gives o0 o ops x y yv (fun _ => exact_posterior N no_evidence y yv).
Proof. exact c104_parents. Qed.
Print Assumptions C104_parents.

(** then the second holds too. *)
Theorem C104_distribution_partial : forall ops o0 o x y, well_shaped ops -> connected ops -> ord_ok o0 -> ord_ok o -> let N := net_of ops in acyclic (is_parent N) -> stochastic N ->
  In x (vars N) -> In y (vars N) ->
  exists r : string -> string -> Qc, (forall yv, In yv (dom N y) -> gives o0 o ops x y yv (r yv)) /\
    forall xv, In xv (dom N x) -> (forall yv, 0 <= r yv xv) /\ (combinable N x xv -> qsum (map (fun yv => r yv xv) (dom N y)) = 1).
Proof. exact c104_distribution. Qed.
Print Assumptions C104_distribution_partial.

(** They are when the parents are independent and every value of x is possible with them. *)
Theorem C104_combinable : forall ops x xv, well_shaped ops -> let N := net_of ops in acyclic (is_parent N) -> stochastic N -> In x (vars N) -> In xv (dom N x) ->
  independent N (par N x) -> overlapping N x -> combinable N x xv.
Proof. exact c104_combinable. Qed.
Print Assumptions C104_combinable.

(** x itself has the value it is given. *)
Theorem C104_self : forall ops o0 o x yv, well_shaped ops -> connected ops -> ord_ok o0 -> ord_ok o -> let N := net_of ops in acyclic (is_parent N) -> stochastic N ->
  In x (vars N) -> In yv (dom N x) -> (forall xv, In xv (dom N x) -> combinable N x xv) ->
  gives o0 o ops x x yv (fun xv => if string_dec xv yv then 1 else 0).
Proof. exact c104_self. Qed.
Print Assumptions C104_self.

(** If x has no parents, setting it is observing it. *)
Theorem C104_root : forall ops o0 o x y yv, well_shaped ops -> connected ops -> ord_ok o0 -> ord_ok o -> let N := net_of ops in
  In x (vars N) -> In y (vars N) -> In yv (dom N y) -> par N x = [] -> gives o0 o ops x y yv (fun xv => exact_posterior N (seeing [x] (fun _ => xv)) y yv).
Proof. exact c104_root. Qed.
Print Assumptions C104_root.

(** the grandparent 1 of x = 4 in [two_sides]; the parents of x, which depend on each other, in [confounded] *)
Example C104_case : let N := net_of two_sides in let K := net_of confounded in
  ~ effect_of N 4 1 /\ par N 4 = [2; 3]%Z /\ par N 2 = [1]%Z /\ overlapping N 4 /\
  acesb ord_rev ord_id two_sides [] 4%Z 1%Z "1" (fun _ => exact_posterior N no_evidence 1 "1") = true /\
  combinable K 3 "0" /\ combinable K 3 "1" /\ par K 3 = [1; 2]%Z /\
  acesb ord_rev ord_id confounded [] 3%Z 2%Z "1" (fun _ => exact_posterior K no_evidence 2 "1") = true /\
  acesb ord_rev ord_id confounded [] 3%Z 3%Z "1" (fun xv => if string_dec xv "1" then 1 else 0) = true /\
  par (net_of diamond) 10 = [] /\ acesb ord_rev ord_id diamond hard_history 10%Z 30%Z "t" (fun xv => exact_posterior (net_of diamond) (seeing [10%Z] (fun _ => xv)) 30 "t") = true.
Proof.
  cbv zeta. split; [apply no_effect with Z.to_nat; [apply ranks_ok; vm_compute; reflexivity|vm_compute; lia]|]. split; [vm_compute; reflexivity|]. split; [vm_compute; reflexivity|].
  split; [apply overlappingb_ok; vm_compute; reflexivity|]. split; [vm_compute; reflexivity|]. split; [apply combinableb_ok; vm_compute; reflexivity|]. split; [apply combinableb_ok; vm_compute; reflexivity|]. vm_compute. auto 10.
Qed.
(** what is reported of the common cause in [forked], and of p in [doubled], when x is set to 0 *)
Example C104_wrong : map (fun v => this (exact_posterior (net_of forked) no_evidence 1 v)) ["0"; "1"]%string = [3 # 4; 1 # 4]%Q /\
  ace_numbers forked 4 1 "0" ["0"; "1"]%string = [Some (143235 # 181376); Some (38141 # 181376)]%Q /\ ace_numbers doubled 3 1 "0" ["0"; "1"]%string = [Some (1 # 4); Some (1 # 4)]%Q.
Proof. vm_compute. auto. Qed.
