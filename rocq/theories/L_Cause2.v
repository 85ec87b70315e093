(** Final forms and witnesses. *)
From Verif Require Import Py M_Graph M_Node M_Pptc M_Ace Spec SpecNet SpecEv SpecPot SpecAce SpecSep SpecRow SpecCause L_Base L_Apply L_Net L_Claims L_P9 L_Cut L_Check L_R1 L_R4 L_Cause.
Local Open Scope Qc_scope.

Lemma gives_formula ops o0 o x y yv f : well_shaped ops -> connected ops -> ord_ok o0 -> ord_ok o -> In x (vars (net_of ops)) -> In y (vars (net_of ops)) -> In yv (dom (net_of ops) y) ->
  (forall xv, In xv (dom (net_of ops) x) -> adjusted (net_of ops) x xv y yv = f xv) -> gives o0 o ops x y yv f.
Proof.
  intros HW HC H0 Ho Hx Hy Hv E. destruct (c33_formula ops o0 o x y yv HW HC H0 Ho Hx Hy Hv) as (b & j0 & A1 & A2). exists b, j0. split; auto. intros h j V Hh HJ.
  destruct (A2 h j V Hh HJ) as (j' & h' & B1 & _). exists j'. rewrite B1. do 2 f_equal. apply map_ext_in. intros xv Hxv. rewrite E; auto.
Qed.
Lemma c104_unaffected ops o0 o x y yv : well_shaped ops -> connected ops -> ord_ok o0 -> ord_ok o -> let N := net_of ops in acyclic (is_parent N) -> stochastic N ->
  In x (vars N) -> In y (vars N) -> In yv (dom N y) -> y <> x -> ~ effect_of N x y -> independent N (par N x) -> overlapping N x ->
  gives o0 o ops x y yv (fun _ => exact_posterior N no_evidence y yv).
Proof.
  intros HW HC H0 Ho N HA HS Hx Hy Hv Hn He HI HO. apply gives_formula; auto. intros xv Hxv. fold N. pose proof (net_shape ops HW) as HN.
  rewrite (adjusted_do N HN HA HS x Hx xv y yv Hxv HI HO). apply do_unaffected; auto.
Qed.
Lemma c104_parents ops o0 o x y yv : well_shaped ops -> connected ops -> ord_ok o0 -> ord_ok o -> let N := net_of ops in acyclic (is_parent N) -> stochastic N ->
  In x (vars N) -> In y (par N x) -> In yv (dom N y) -> (forall xv, In xv (dom N x) -> combinable N x xv) ->
  gives o0 o ops x y yv (fun _ => exact_posterior N no_evidence y yv).
Proof.
  intros HW HC H0 Ho N HA HS Hx Hy Hv Hc. pose proof (net_shape ops HW) as HN. apply gives_formula; auto; [apply (ns_ends _ HN y x Hy)|]. intros xv Hxv. apply adjusted_parent; auto.
Qed.
Lemma c104_self ops o0 o x yv : well_shaped ops -> connected ops -> ord_ok o0 -> ord_ok o -> let N := net_of ops in acyclic (is_parent N) -> stochastic N ->
  In x (vars N) -> In yv (dom N x) -> (forall xv, In xv (dom N x) -> combinable N x xv) ->
  gives o0 o ops x x yv (fun xv => if string_dec xv yv then 1 else 0).
Proof. intros HW HC H0 Ho N HA HS Hx Hv Hc. pose proof (net_shape ops HW) as HN. apply gives_formula; auto. intros xv Hxv. apply adjusted_self; auto. Qed.
Lemma c104_root ops o0 o x y yv : well_shaped ops -> connected ops -> ord_ok o0 -> ord_ok o -> let N := net_of ops in
  In x (vars N) -> In y (vars N) -> In yv (dom N y) -> par N x = [] -> gives o0 o ops x y yv (fun xv => exact_posterior N (seeing [x] (fun _ => xv)) y yv).
Proof. intros HW HC H0 Ho N Hx Hy Hv Hp. apply gives_formula; auto. intros xv Hxv. apply adjusted_root; auto. Qed.
Lemma c104_distribution ops o0 o x y : well_shaped ops -> connected ops -> ord_ok o0 -> ord_ok o -> let N := net_of ops in acyclic (is_parent N) -> stochastic N ->
  In x (vars N) -> In y (vars N) ->
  exists r : string -> string -> Qc, (forall yv, In yv (dom N y) -> gives o0 o ops x y yv (r yv)) /\
    forall xv, In xv (dom N x) -> (forall yv, 0 <= r yv xv) /\ (combinable N x xv -> qsum (map (fun yv => r yv xv) (dom N y)) = 1).
Proof.
  intros HW HC H0 Ho N HA HS Hx Hy. pose proof (net_shape ops HW) as HN. exists (fun yv xv => adjusted N x xv y yv). split; [intros yv Hv; apply gives_formula; auto|].
  intros xv Hxv. split; [intros yv; apply adjusted_nonneg; auto|]. intros Hc. apply (adjusted_sum N HN HA HS x Hx xv y Hy Hc).
Qed.
Lemma c104_combinable ops x xv : well_shaped ops -> let N := net_of ops in acyclic (is_parent N) -> stochastic N -> In x (vars N) -> In xv (dom N x) ->
  independent N (par N x) -> overlapping N x -> combinable N x xv.
Proof. intros HW N HA HS Hx Hv HI HO. apply independent_combinable; auto. apply (net_shape ops HW). Qed.

(** a is the parent of p and q, which are the parents of x *)
Definition f_a := new_node 1 "a" ["0"; "1"]%string [qfrac 3 4; qfrac 1 4].
Definition f_p := new_node 2 "p" ["0"; "1"]%string [qfrac 9 10; qfrac 1 10; qfrac 1 5; qfrac 4 5].
Definition f_q := new_node 3 "q" ["0"; "1"]%string [qfrac 4 5; qfrac 1 5; qfrac 1 10; qfrac 9 10].
Definition f_x := new_node 4 "x" ["0"; "1"]%string [qfrac 1 2; qfrac 1 2; qfrac 1 3; qfrac 2 3; qfrac 1 4; qfrac 3 4; qfrac 1 5; qfrac 4 5].
Definition forked : list bop := [AddNode f_a; AddNode f_p; AddNode f_q; AddNode f_x; AddEdge f_a f_p; AddEdge f_a f_q; AddEdge f_p f_x; AddEdge f_q f_x].
(** q is a copy of p, both are parents of x *)
Definition d_p := new_node 1 "p" ["0"; "1"]%string [qfrac 1 2; qfrac 1 2].
Definition d_q := new_node 2 "q" ["0"; "1"]%string [1; 0; 0; 1].
Definition d_x := new_node 3 "x" ["0"; "1"]%string [qfrac 1 2; qfrac 1 2; qfrac 1 3; qfrac 2 3; qfrac 1 4; qfrac 3 4; qfrac 1 5; qfrac 4 5].
Definition doubled : list bop := [AddNode d_p; AddNode d_q; AddNode d_x; AddEdge d_p d_q; AddEdge d_p d_x; AddEdge d_q d_x].

(** no directed path between the two, by ranks *)
Lemma no_effect N (rank : Z -> nat) x y : (forall p v, is_parent N p v -> (rank p < rank v)%nat) -> (rank y <= rank x)%nat -> ~ effect_of N x y.
Proof.
  intros H Hr (c & P1 & P2). assert (R : (rank c <= rank y)%nat). { clear - H P2. induction P2 as [|u c w P1 _ IH]; auto. apply H in P1. lia. } apply H in P1. lia.
Qed.
Lemma ranks_ok N rank : forallb (fun v => forallb (fun p => Nat.ltb (rank p) (rank v)) (par N v)) (vars N) = true -> forall p v, is_parent N p v -> (rank p < rank v)%nat.
Proof. rewrite forallb_forall. intros H p v [Hv Hp]. specialize (H v Hv). rewrite forallb_forall in H. apply Nat.ltb_lt. auto. Qed.
Definition moved_aceb (o : Ord) (ops : list bop) (x y : Z) (yv xv : string) : bool :=
  match ace_init o (build ops) with
  | Ok (b, j) => match get_ace o b j (net_name ops x) (net_name ops y) yv with
                 | Ok (_, r) => match dget r xv with Some q => negb (qeqb q (exact_posterior (net_of ops) no_evidence y yv)) | None => false end
                 | Err _ => false
                 end
  | Err _ => false
  end.
Lemma moved_aceb_ok o ops x y yv xv : moved_aceb o ops x y yv xv = true ->
  exists b j j' r q, ace_init o (build ops) = Ok (b, j) /\ get_ace o b j (net_name ops x) (net_name ops y) yv = Ok (j', r) /\ dget r xv = Some q /\ q <> exact_posterior (net_of ops) no_evidence y yv.
Proof.
  unfold moved_aceb. destruct (ace_init o (build ops)) as [[b j]|]; [|discriminate]. destruct (get_ace o b j _ _ yv) as [[j' r]|] eqn:E; [|discriminate].
  destruct (dget r xv) as [q|] eqn:Eq; [|discriminate]. intros H. apply negb_true_iff, qeqb_false in H. exists b, j, j', r, q. auto.
Qed.
Definition ace_number (o : Ord) (ops : list bop) (x y : Z) (xv yv : string) : option Qc :=
  match ace_init o (build ops) with
  | Ok (b, j) => match get_ace o b j (net_name ops x) (net_name ops y) yv with Ok (_, r) => dget r xv | Err _ => None end
  | Err _ => None
  end.
Lemma ace_number_ok o ops x y xv yv q : ace_number o ops x y xv yv = Some q ->
  exists b j j' r, ace_init o (build ops) = Ok (b, j) /\ get_ace o b j (net_name ops x) (net_name ops y) yv = Ok (j', r) /\ dget r xv = Some q.
Proof.
  unfold ace_number. destruct (ace_init o (build ops)) as [[b j]|]; [|discriminate]. destruct (get_ace o b j _ _ yv) as [[j' r]|] eqn:E; [|discriminate]. intros H. exists b, j, j', r. auto.
Qed.
Lemma c104_unaffected_refuted : exists ops o x y yv xv, well_shaped ops /\ connected ops /\ ord_ok o /\ acyclic (is_parent (net_of ops)) /\ stochastic (net_of ops) /\
  overlapping (net_of ops) x /\ In x (vars (net_of ops)) /\ In y (vars (net_of ops)) /\ In yv (dom (net_of ops) y) /\ In xv (dom (net_of ops) x) /\ y <> x /\ ~ effect_of (net_of ops) x y /\
  exists b j j' r q, ace_init o (build ops) = Ok (b, j) /\ get_ace o b j (net_name ops x) (net_name ops y) yv = Ok (j', r) /\ dget r xv = Some q /\ q <> exact_posterior (net_of ops) no_evidence y yv.
Proof.
  exists forked, ord_id, 4%Z, 1%Z, "1"%string, "0"%string. split; [apply well_shapedb_ok; vm_compute; reflexivity|]. split; [apply connectedb_ok; vm_compute; reflexivity|]. split; [apply ord_id_ok|].
  split; [apply rankedb_ok with Z.to_nat; vm_compute; reflexivity|]. split; [apply stochasticb_ok; vm_compute; reflexivity|]. split; [apply overlappingb_ok; vm_compute; reflexivity|].
  split; [vm_compute; tauto|]. split; [vm_compute; tauto|]. split; [vm_compute; tauto|]. split; [vm_compute; tauto|]. split; [discriminate|].
  split; [apply no_effect with Z.to_nat; [apply ranks_ok; vm_compute; reflexivity|vm_compute; lia]|]. apply moved_aceb_ok. vm_compute. reflexivity.
Qed.
Definition short_sumb (o : Ord) (ops : list bop) (x y : Z) (xv : string) (vs : list string) : bool :=
  negb (qeqb (qsum (map (fun yv => match ace_number o ops x y xv yv with Some q => q | None => 1 end) vs)) 1) && forallb (fun yv => match ace_number o ops x y xv yv with Some _ => true | None => false end) vs.
Lemma short_sumb_ok o ops x y xv vs : short_sumb o ops x y xv vs = true ->
  exists r : string -> Qc, (forall yv, In yv vs -> exists b j j' t, ace_init o (build ops) = Ok (b, j) /\ get_ace o b j (net_name ops x) (net_name ops y) yv = Ok (j', t) /\ dget t xv = Some (r yv)) /\ qsum (map r vs) <> 1.
Proof.
  unfold short_sumb. rewrite andb_true_iff, forallb_forall. intros [H1 H2]. apply negb_true_iff, qeqb_false in H1. eexists. split; [|exact H1].
  intros yv Hv. specialize (H2 yv Hv). cbv beta. destruct (ace_number o ops x y xv yv) eqn:E; [|discriminate]. apply ace_number_ok. exact E.
Qed.
Lemma c104_distribution_refuted : exists ops o x y xv, well_shaped ops /\ connected ops /\ ord_ok o /\ acyclic (is_parent (net_of ops)) /\ stochastic (net_of ops) /\
  overlapping (net_of ops) x /\ In x (vars (net_of ops)) /\ In y (vars (net_of ops)) /\ In xv (dom (net_of ops) x) /\
  exists r : string -> Qc, (forall yv, In yv (dom (net_of ops) y) -> exists b j j' t, ace_init o (build ops) = Ok (b, j) /\ get_ace o b j (net_name ops x) (net_name ops y) yv = Ok (j', t) /\ dget t xv = Some (r yv)) /\
    qsum (map r (dom (net_of ops) y)) <> 1.
Proof.
  exists doubled, ord_id, 3%Z, 1%Z, "0"%string. split; [apply well_shapedb_ok; vm_compute; reflexivity|]. split; [apply connectedb_ok; vm_compute; reflexivity|]. split; [apply ord_id_ok|].
  split; [apply rankedb_ok with Z.to_nat; vm_compute; reflexivity|]. split; [apply stochasticb_ok; vm_compute; reflexivity|]. split; [apply overlappingb_ok; vm_compute; reflexivity|].
  split; [vm_compute; tauto|]. split; [vm_compute; tauto|]. split; [vm_compute; tauto|]. apply short_sumb_ok. vm_compute. reflexivity.
Qed.
