(** Two variables with one name. *)
From Verif Require Import Py M_Graph M_Node M_Pptc Spec SpecNet SpecEv SpecPot SpecName Ex L_Base L_Check L_R1 L_R2 L_R7 L_Name L_Part4.
Local Open Scope string_scope.

Definition w_b := new_node 2 "x" ["on"; "off"] [qfrac 1 4; qfrac 3 4].
Definition w_a := new_node 1 "x" ["on"; "off"] [qfrac 1 2; qfrac 1 2; qfrac 1 8; qfrac 7 8].
Definition w_c := new_node 3 "y" ["on"; "off"] [qfrac 1 2; qfrac 1 2; qfrac 1 3; qfrac 2 3].
(** [w_b] is the parent of [w_a], of the same name, and of [w_c] *)
Definition twins : list bop := [AddNode w_b; AddNode w_a; AddNode w_c; AddEdge w_b w_a; AddEdge w_b w_c].
(** the second table has one number too few *)
Definition cut_short : list bop := [AddEdge n_1 (new_node 2 "v2" ["on"; "off"] [qfrac 1 2; qfrac 1 2; qfrac 1 10])].

Definition shapedb (ops : list bop) : bool :=
  forallb (fun n => match n_mclq n with None => true | Some _ => false end) (mentioned ops) &&
  nonempty (net_vars ops) &&
  forallb (fun i => nodupb (net_dom ops i) && nonempty (net_dom ops i)) (net_vars ops) &&
  forallb (fun i => size (net_dom ops) (net_par ops i ++ [i]) <=? List.length (net_cpt ops i))%nat (net_vars ops) &&
  forallb (fun i => forallb (qleb 0%Qc) (net_cpt ops i)) (net_vars ops) &&
  forallb (fun i => negb (mem i (net_par ops i))) (net_vars ops).
Lemma shapedb_ok ops : shapedb ops = true -> shaped ops.
Proof.
  unfold shapedb. rewrite !andb_true_iff. intros [[[[[H1 H2] H3] H4] H5] H6]. rewrite forallb_forall in *. constructor.
  - intros n Hn. specialize (H1 n Hn). destruct (n_mclq n); auto; discriminate.
  - destruct (net_vars ops); [discriminate H2|congruence].
  - intros i Hi. specialize (H3 i Hi). apply andb_true_iff in H3. destruct H3 as [A B]. split; [apply nodupb_ok; auto|]. destruct (net_dom ops i); [discriminate|congruence].
  - intros i Hi. apply Nat.leb_le. apply H4; auto.
  - intros i q Hi Hq. specialize (H5 i Hi). rewrite forallb_forall in H5. apply qleb_ok; auto.
  - intros i Hi. assert (Hv : In i (net_vars ops)) by (apply (L_Build.bi_ends _ _ (L_Build.build_inv ops) i i Hi)).
    specialize (H6 i Hv). apply (proj2 (mem_In _ _)) in Hi. rewrite Hi in H6. discriminate.
Qed.

Lemma twins_shaped : shaped twins.
Proof. apply shapedb_ok. vm_compute. reflexivity. Qed.
Lemma twins_connected : connected twins.
Proof. apply connectedb_ok. vm_compute. reflexivity. Qed.

(** the observation of the node found under the name is not what is reported under the name *)
Definition misnamed (ops : list bop) (o : Ord) (x v : string) : bool :=
  match session o ops [] with
  | Ok j => match get_bbn_node_by_name j x with
            | Some n => mem v (n_values n) && possibleb (net_of ops) (in_force (net_of ops) (calls (([] ++ [(o, the_obs n v)])%list))) &&
                match session o ops (([] ++ [(o, the_obs n v)])%list) with
                | Ok j' => match get_posteriors j' with
                           | Ok t => match dget t x with Some ((w, q) :: _) => negb (qeqb q (if String.eqb w v then 1%Qc else 0%Qc)) && String.eqb w (hd "" (n_values n)) | _ => false end
                           | Err _ => false end
                | Err _ => false end
            | None => false end
  | Err _ => false end.
Lemma misnamed_ok ops o x v : misnamed ops o x v = true ->
  exists j n, session o ops [] = Ok j /\ get_bbn_node_by_name j x = Some n /\ In v (n_values n) /\
    possible (net_of ops) (in_force (net_of ops) (calls (([] ++ [(o, the_obs n v)])%list))) /\
    ~ exists j' t, session o ops (([] ++ [(o, the_obs n v)])%list) = Ok j' /\ get_posteriors j' = Ok t /\
        dget t x = Some (map (fun w => (w, if String.eqb w v then 1%Qc else 0%Qc)) (n_values n)).
Proof.
  unfold misnamed. destruct (session o ops []) as [j|] eqn:E1; [|discriminate]. destruct (get_bbn_node_by_name j x) as [n|] eqn:E2; [|discriminate].
  rewrite !andb_true_iff. intros [[H1 H2] H3]. exists j, n. split; auto. split; auto. split; [apply mem_In; auto|]. split; [apply possibleb_ok; auto|].
  intros [j' [t [A1 [A2 A3]]]]. rewrite A1 in H3. rewrite A2 in H3. rewrite A3 in H3. destruct (n_values n) as [|w l]; [discriminate|]. simpl map in H3. cbv iota beta in H3.
  apply andb_true_iff in H3. destruct H3 as [H3 _]. apply negb_true_iff in H3. apply qeqb_false in H3. congruence.
Qed.

Lemma c84_refuted : ~ (forall ops o h o' j x n v, shaped ops -> connected ops -> ord_ok o -> valid_history (net_of ops) h -> Forall hard_call (calls h) -> ord_ok o' ->
  session o ops h = Ok j -> get_bbn_node_by_name j x = Some n -> In v (n_values n) ->
  possible (net_of ops) (in_force (net_of ops) (calls ((h ++ [(o', the_obs n v)])%list))) ->
  exists j' t, session o ops ((h ++ [(o', the_obs n v)])%list) = Ok j' /\ get_posteriors j' = Ok t /\
    dget t x = Some (map (fun w => (w, if String.eqb w v then 1%Qc else 0%Qc)) (n_values n))).
Proof.
  intros H. destruct (misnamed_ok twins ord_id "x" "on") as [j [n [A1 [A2 [A3 [A4 A5]]]]]]; [vm_compute; reflexivity|].
  apply A5. apply (H twins ord_id [] ord_id j "x" n "on"); auto using twins_shaped, twins_connected, ord_id_ok.
  - split; constructor.
  - constructor.
Qed.

(** with distinct names it is *)
Lemma c85_partial : forall ops o h o' j x n v, well_shaped ops -> ord_ok o -> valid_history (net_of ops) h -> Forall hard_call (calls h) -> ord_ok o' ->
  session o ops h = Ok j -> get_bbn_node_by_name j x = Some n -> In v (n_values n) ->
  possible (net_of ops) (in_force (net_of ops) (calls ((h ++ [(o', the_obs n v)])%list))) ->
  exists j' t, session o ops ((h ++ [(o', the_obs n v)])%list) = Ok j' /\ get_posteriors j' = Ok t /\
    dget t x = Some (map (fun w => (w, if String.eqb w v then 1%Qc else 0%Qc)) (n_values n)).
Proof.
  intros ops o h o' j x n v HW Ho Hh Hhard Ho' Hj Hn Hv Hp. destruct (proj1 (well_shaped_iff ops) HW) as [HS _].
  destruct (shaped_shows ops o h HS Ho Hh) as [j0 [A1 [A2 _]]]. rewrite A1 in Hj. injection Hj as ->. destruct (L_Shown.sw_live _ _ _ _ _ A2) as [ev Hl].
  destruct (by_name_node _ _ (set_jevid j ev) x n (L_Net.lv_net _ _ _ _ Hl) Hn) as [Hi B2].
  rewrite <- B2. unfold calls in *. rewrite map_app in Hp. exact (L_Part4.c46_any ops o h o' n v HW Ho Hh Hhard Ho' Hi Hv Hp).
Qed.
