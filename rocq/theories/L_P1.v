(** Final forms of the statements about inference. *)
From Verif Require Import Py M_Graph M_Node M_Pptc Spec SpecNet SpecEv L_Base L_PD L_Sums L_Table L_Tree L_Walk L_Forest L_Root L_Good L_Prop L_Init L_Post L_Read
  L_Ids L_Trans L_Elim L_UG L_Tri L_Moral L_Build L_Exact L_Apply L_Net L_Evid L_Hist L_Rip L_Claims L_Shape L_Shown.
Open Scope nat_scope.

(** ** noticed changes are shown *)
Section Noticed.
  Context (N : net) (HD : forall i, In i (vars N) -> NoDup (dom N i) /\ dom N i <> []).

  Lemma quiet_same L e : In (ev_node e) (vars N) -> quiet N L e = true -> ~ overlooked N L e -> forall v, In v (dom N (ev_node e)) -> L (ev_node e) v = like_of e v.
  Proof using HD.
    intros Hi Hq Hov v Hv. destruct (HD _ Hi) as [D1 _]. rewrite quiet_eq in Hq. unfold quietD in Hq. apply orb_true_iff in Hq. destruct Hq as [Hq|Hq].
    - apply all_ones in Hq. destruct Hq as [A B]. rewrite A, B; auto.
    - unfold soleD in Hq. destruct (ones (L (ev_node e)) (dom N (ev_node e))) as [|y [|]] eqn:Ey; try discriminate.
      destruct (ones (like_of e) (dom N (ev_node e))) as [|z [|]] eqn:Ez; try discriminate. apply String.eqb_eq in Hq. subst z.
      destruct (Qc_eq_dec (L (ev_node e) v) (like_of e v)) as [|Hn]; auto. exfalso. apply Hov. exists y.
      split; [apply only_one_ones; auto|]. split; [apply only_one_ones; auto|]. eauto.
  Qed.

  Lemma step_agree s c : valid_call N c -> noticed N (fst s) c -> agree N (snd s) (fst s) -> agree N (snd (step N s c)) (fst (step N s c)).
  Proof using HD.
    intros Hv Hn HA. unfold step. cbn [fst snd]. destruct (forallb (quiet N (fst s)) (about N (fst s) c)) eqn:Eq; [|apply agree_refl].
    rewrite forallb_forall in Eq. eapply agree_trans; [exact HA|]. set (L := fst s) in *. clearbody L. clear HA.
    assert (W : forall is, (forall i, In i is -> quiet N L (nothing N i) = true) -> agree N L (withdraw L is)).
    { intros is H i v Hi Hvv. unfold withdraw. destruct (mem i is) eqn:E; auto. apply mem_In in E. apply (quiet_ones N L (nothing N i)); auto. }
    destruct c as [es|ns| |e]; cbn [effect about valid_call noticed] in *.
    - apply agree_sym, assims_agree. intros e He. apply quiet_same; auto. rewrite Forall_forall in Hv. apply (Hv e He).
    - apply W. intros i Hi. apply in_map_iff in Hi. destruct Hi as [n [<- Hn']]. apply Eq. apply in_map_iff. exists n; auto.
    - intros i v Hi Hvv. apply (quiet_ones N L (nothing N i)); auto. apply Eq. apply in_map; auto.
    - destruct (toggles N L e) eqn:Et.
      + apply W. intros i [<-|[]]. apply Eq. left; auto.
      + apply agree_sym. apply (assims_agree N [e]). intros e' [<-|[]]. apply quiet_same; auto. apply Hv. apply Eq. left; auto.
  Qed.

  Lemma shown_in_force h : Forall (valid_call N) h -> all_noticed N no_evidence h -> agree N (shown N h) (in_force N h).
  Proof using HD.
    intros Hv Hn. unfold shown, in_force. change (fold_left (effect N) h no_evidence) with (fold_left (effect N) h (fst (no_evidence, no_evidence))). rewrite <- step_fst.
    assert (G : forall s, agree N (snd s) (fst s) -> all_noticed N (fst s) h -> agree N (snd (fold_left (step N) h s)) (fst (fold_left (step N) h s))).
    { clear Hn. induction Hv as [|c h V1 V2 IH]; intros s HA Hn; simpl; auto. destruct Hn as [N1 N2]. apply IH; [apply step_agree; auto|exact N2]. }
    apply G; auto. apply agree_refl.
  Qed.
End Noticed.

Lemma exact_table_agree N nm L L' t : agree N L L' -> exact_table N nm L t -> exact_table N nm L' t.
Proof.
  intros HA [H1 H2]. split; auto. intros i Hi. rewrite H2 by auto. f_equal. apply map_ext_in. intros y _. f_equal. apply posterior_agree; auto.
Qed.

(** ** any valid history *)
Lemma session_shows ops o h : well_shaped ops -> ord_ok o -> valid_history (net_of ops) h ->
  exists b j j', apply o (build ops) = Ok (b, j) /\ do_calls j h = (j', None) /\
    shows (net_of ops) (net_name ops) (in_force (net_of ops) (calls h)) (shown (net_of ops) (calls h)) j' /\ jt_nodes j' = jt_nodes j /\
    live (net_of ops) (net_name ops) no_evidence j /\ (connected ops -> jconn j /\ jconn j').
Proof.
  intros HW Ho [H1 H2]. destruct (apply_build ops o HW Ho) as [b [j [A1 [A2 A3]]]].
  destruct (calls_shows (net_of ops) (net_name ops) (firsts_NoDup _) (ws_names _ HW) (ws_dom _ HW) h H1 (no_evidence, no_evidence) j) as [j' [B1 [B2 B3]]]; auto.
  { apply live_shows; auto. apply unit_none. }
  exists b, j, j'. split; auto. split; auto. split. { unfold in_force, shown. rewrite step_fst in B2. exact B2. }
  split; auto. split; auto. intros Hc. specialize (A3 Hc). split; auto. apply jconn_ext with j; auto.
Qed.

Lemma session_eq o ops h b j j' : apply o (build ops) = Ok (b, j) -> do_calls j h = (j', None) -> session o ops h = Ok j'.
Proof. intros H1 H2. unfold session. rewrite H1. cbn [rbind snd]. rewrite H2. auto. Qed.

Lemma session_live ops o h : well_shaped ops -> ord_ok o -> valid_history (net_of ops) h ->
  exists j ev, session o ops h = Ok j /\ live (net_of ops) (net_name ops) (shown (net_of ops) (calls h)) (set_jevid j ev) /\ (connected ops -> jconn (set_jevid j ev)).
Proof.
  intros HW Ho Hh. destruct (session_shows ops o h HW Ho Hh) as [b [j [j' [A1 [A2 [A3 [A4 [A5 A6]]]]]]]]. destruct (sw_live _ _ _ _ _ A3) as [ev Hl].
  exists j', ev. split; [eapply session_eq; eauto|]. split; auto. intros Hc. destruct (A6 Hc) as [_ B]. exact B.
Qed.

(** posteriors are exact for what is shown *)
Lemma session_exact ops o h : well_shaped ops -> connected ops -> ord_ok o -> valid_history (net_of ops) h ->
  exists j t, session o ops h = Ok j /\ get_posteriors j = Ok t /\ exact_table (net_of ops) (net_name ops) (shown (net_of ops) (calls h)) t.
Proof.
  intros HW Hc Ho Hh. destruct (session_live ops o h HW Ho Hh) as [j [ev [A1 [A2 A3]]]].
  destruct (live_exact_table (net_of ops) (net_name ops) _ _ (firsts_NoDup _) (ws_names _ HW) A2 (A3 Hc)) as [t [B1 B2]]. exists j, t. split; auto.
Qed.

Lemma c01 ops o : well_shaped ops -> connected ops -> ord_ok o ->
  exists b j t, apply o (build ops) = Ok (b, j) /\ get_posteriors j = Ok t /\ exact_table (net_of ops) (net_name ops) no_evidence t.
Proof.
  intros HW Hc Ho. destruct (apply_build ops o HW Ho) as [b [j [A1 [A2 A3]]]].
  destruct (live_exact_table (net_of ops) (net_name ops) _ _ (firsts_NoDup _) (ws_names _ HW) A2 (A3 Hc)) as [t [B1 B2]]. exists b, j, t. auto.
Qed.

Lemma c03_noticed ops o h : well_shaped ops -> connected ops -> ord_ok o -> valid_history (net_of ops) h -> all_noticed (net_of ops) no_evidence (calls h) ->
  exists j t, session o ops h = Ok j /\ get_posteriors j = Ok t /\ exact_table (net_of ops) (net_name ops) (in_force (net_of ops) (calls h)) t.
Proof.
  intros HW Hc Ho Hh Hn. destruct (session_exact ops o h HW Hc Ho Hh) as [j [t [A1 [A2 A3]]]]. exists j, t. split; auto. split; auto.
  eapply exact_table_agree; [|exact A3]. apply shown_in_force; auto. apply (ws_dom _ HW). apply Hh.
Qed.

Lemma c02 ops o h : well_shaped ops -> connected ops -> ord_ok o -> valid_history (net_of ops) h -> Forall hard_call (calls h) ->
  exists j t, session o ops h = Ok j /\ get_posteriors j = Ok t /\ exact_table (net_of ops) (net_name ops) (in_force (net_of ops) (calls h)) t.
Proof.
  intros HW Hc Ho Hh Hd. apply c03_noticed; auto. eapply hard_all_noticed; eauto. apply Hh.
Qed.

Lemma c04_part ops o h : well_shaped ops -> ord_ok o -> valid_history (net_of ops) h -> Forall hard_call (calls h) -> let N := net_of ops in let L := in_force N (calls h) in
  possible N L ->
  exists j t x, session o ops h = Ok j /\ get_posteriors j = Ok t /\ In x (jt_cliques j) /\ (forall c, In c (jt_cliques j) -> str_leb (cl_id x) (cl_id c) = true) /\
    forall v i, In v (cl_nodes x) -> path (sym (is_parent N)) v i -> dget t (net_name ops i) = Some (map (fun y => (y, exact_posterior N L i y)) (dom N i)).
Proof.
  intros HW Ho Hh Hd N L Hp. destruct (session_live ops o h HW Ho Hh) as [j [ev [A1 [A2 A3]]]]. fold N in A2.
  assert (HA : agree N (shown N (calls h)) L). { apply shown_in_force. apply (ws_dom _ HW). apply Hh. eapply hard_all_noticed; eauto. apply Hh. }
  assert (A2' : live N (net_name ops) L (set_jevid j ev)) by (eapply live_agree; [exact A2|apply agree_sym; auto]).
  destruct (live_part N (net_name ops) (net_shape ops HW) (ws_names _ HW) L (set_jevid j ev) A2' Hp) as [t [x [B1 [B2 [B3 B4]]]]].
  exists j, t, x. split; auto.
Qed.

Lemma c05 ops o h : well_shaped ops -> connected ops -> ord_ok o -> valid_history (net_of ops) h -> let N := net_of ops in
  exists j t, session o ops h = Ok j /\ get_posteriors j = Ok t /\ Permutation (map fst t) (map (net_name ops) (vars N)) /\
    forall i, In i (vars N) -> exists m, dget t (net_name ops i) = Some m /\ map fst m = dom N i /\ (forall q, In q (map snd m) -> (0 <= q)%Qc) /\
      (possible N (shown N (calls h)) -> qsum (map snd m) = 1%Qc) /\ (~ possible N (shown N (calls h)) -> forall q, In q (map snd m) -> q = 0%Qc).
Proof.
  intros HW Hc Ho Hh N. destruct (session_shows ops o h HW Ho Hh) as [b [j0 [j [A1 [A2 [A3 [A4 [A5 A6]]]]]]]].
  destruct (session_exact ops o h HW Hc Ho Hh) as [j' [t [B1 [B2 [B3 B4]]]]]. fold N in A3, B3, B4. exists j', t. split; auto. split; auto. split; auto.
  intros i Hi. eexists. split; [apply B4; auto|]. rewrite !map_map. simpl. split; [apply map_id|]. pose proof (net_shape ops HW) as HN. fold N in HN. split; [|split].
  - intros q Hq. apply in_map_iff in Hq. destruct Hq as [y [<- _]]. apply posterior_nonneg; auto. intros k v Hk Hv. apply (sw_unit _ _ _ _ _ A3); auto.
  - intros Hp. apply posterior_sum; auto.
  - intros Hp q Hq. apply in_map_iff in Hq. destruct Hq as [y [<- _]]. apply posterior_zero; auto.
Qed.

Lemma c06 ops o1 o2 h1 h2 : well_shaped ops -> connected ops -> ord_ok o1 -> ord_ok o2 -> valid_history (net_of ops) h1 -> valid_history (net_of ops) h2 -> calls h1 = calls h2 ->
  exists j1 j2 t1 t2, session o1 ops h1 = Ok j1 /\ session o2 ops h2 = Ok j2 /\ get_posteriors j1 = Ok t1 /\ get_posteriors j2 = Ok t2 /\
    Permutation (map fst t1) (map fst t2) /\ forall k, dget t1 k = dget t2 k.
Proof.
  intros HW Hc O1 O2 H1 H2 E. destruct (session_exact ops o1 h1 HW Hc O1 H1) as [j1 [t1 [A1 [A2 [A3 A4]]]]]. destruct (session_exact ops o2 h2 HW Hc O2 H2) as [j2 [t2 [B1 [B2 [B3 B4]]]]].
  exists j1, j2, t1, t2. split; auto. split; auto. split; auto. split; auto. rewrite <- E in B4.
  assert (P : Permutation (map fst t1) (map fst t2)) by (rewrite A3, B3; reflexivity). split; auto. intros k.
  destruct (in_dec string_dec k (map fst t1)) as [Hk|Hk].
  - apply (Permutation_in _ A3) in Hk. apply in_map_iff in Hk. destruct Hk as [i [<- Hi]]. rewrite A4, B4 by auto. auto.
  - assert (Hk' : ~ In k (map fst t2)) by (intros Hk'; apply Hk; apply (Permutation_in _ (Permutation_sym P)); auto).
    rewrite (proj2 (dget_None t1 k)), (proj2 (dget_None t2 k)); auto.
Qed.

Lemma c07 ops o h : well_shaped ops -> ord_ok o -> valid_history (net_of ops) h -> let N := net_of ops in
  exists j t, session o ops h = Ok j /\ get_posteriors j = Ok t /\ Permutation (map fst t) (map (net_name ops) (vars N)) /\
    (forall i, In i (vars N) -> exists m, dget t (net_name ops i) = Some m /\ map fst m = dom N i) /\
    (forall i, In i (vars N) -> exists n c, dget (jt_heap j) i = Some n /\ n_mclq n = Some (cl_id c) /\ In c (jt_cliques j) /\ incl (par N i ++ [i]) (cl_nodes c)).
Proof.
  intros HW Ho Hh N. destruct (session_live ops o h HW Ho Hh) as [j [ev [A1 [A2 A3]]]]. fold N in A2.
  destruct (live_names N _ (net_shape ops HW) (ws_names _ HW) _ _ A2) as [t [B1 [B2 B3]]]. exists j, t. split; auto. split; auto. split; auto. split; auto.
  apply (live_assigned N (net_name ops) _ _ A2).
Qed.

Lemma c08 ops o : well_shaped ops -> ord_ok o -> let N := net_of ops in
  exists u m cs, moralize (b_g (build ops)) = Ok u /\ triangulate o u = Ok (m, cs) /\
    (forall i, In i (vars N) -> exists c, In c cs /\ incl (par N i ++ [i]) (cl_nodes c)) /\
    (forall x y, moral_edge N x y -> exists c, In c cs /\ In x (cl_nodes c) /\ In y (cl_nodes c)) /\
    (forall c d, In c cs -> In d cs -> incl (cl_nodes c) (cl_nodes d) -> c = d) /\
    (NoDup cs /\ forall c, In c cs -> NoDup (cl_nodes c) /\ incl (cl_nodes c) (vars N) /\ cl_nodes c <> []) /\
    (forall x y, In y (get_neighbors m x) <-> x <> y /\ exists c, In c cs /\ In x (cl_nodes c) /\ In y (cl_nodes c)).
Proof.
  intros HW Ho N. destruct (moralize_build ops HW) as [u [E _]]. destruct (triangulate_build ops o u HW Ho E) as [m [cs H]]. exists u, m, cs. split; auto.
Qed.

Lemma c10_ids A B C D : NoDup A -> NoDup B -> NoDup C -> NoDup D ->
  let share X Y := exists x, In x X /\ In x Y in let cl := mk_clique in
  (cl_id (cl A) = cl_id (cl B) -> same_members A B) /\
  (share A B -> share C D -> ss_id (mk_sepset (cl A) (cl B)) = ss_id (mk_sepset (cl C) (cl D)) -> same_members A C /\ same_members B D) /\
  (share A B -> ss_id (mk_sepset (cl A) (cl B)) <> cl_id (cl C)).
Proof.
  intros HA HB HC HD share cl.
  assert (Hok : forall X, NoDup X -> cl_ok (cl X)) by (intros X HX; split; auto).
  assert (Hs : forall X Y, share X Y -> inter (cl X) (cl Y) <> []).
  { intros X Y [x [H1 H2]] E. assert (H : In x (inter (cl X) (cl Y))) by (apply inter_In; auto). rewrite E in H. destruct H. }
  assert (Hi : forall X Y, NoDup X -> NoDup Y -> cl_id (cl X) = cl_id (cl Y) -> same_members X Y).
  { intros X Y HX HY E x. apply cl_id_inj in E; auto. simpl in E. split; apply Permutation_in; auto. apply Permutation_sym; auto. }
  split; [auto|]. split.
  - intros S1 S2 E. apply ss_id_inj in E; auto. destruct E; split; auto.
  - intros S1. apply ss_cl_id; auto.
Qed.

Lemma c10_tree ops o h : well_shaped ops -> ord_ok o -> valid_history (net_of ops) h ->
  exists j, session o ops h = Ok j /\ NoDup (map cl_id (jt_cliques j) ++ map ss_id (jt_sepsets j)).
Proof.
  intros HW Ho Hh. destruct (session_live ops o h HW Ho Hh) as [j [ev [A1 [A2 A3]]]]. exists j. split; auto.
  apply (jg_ids_NoDup (set_jevid j ev)). apply (jn_JG _ _ _ (lv_net _ _ _ _ A2)).
Qed.

Lemma c11 ops o h : well_shaped ops -> connected ops -> ord_ok o -> valid_history (net_of ops) h -> let N := net_of ops in let L := shown N (calls h) in
  exists j, session o ops h = Ok j /\
    (forall c, In c (jt_cliques j) -> exists p, dget (jt_pots j) (cl_id c) = Some p /\ tabulates (dom N) (cl_nodes c) (marginal N L (cl_nodes c)) p) /\
    (forall s, In s (jt_sepsets j) -> exists p, dget (jt_pots j) (ss_id s) = Some p /\ tabulates (dom N) (ss_nodes s) (marginal N L (ss_nodes s)) p).
Proof.
  intros HW Hc Ho Hh N L. destruct (session_live ops o h HW Ho Hh) as [j [ev [A1 [A2 A3]]]]. exists j. split; auto.
  apply (live_calibrated N (net_name ops) (net_shape ops HW) L (set_jevid j ev) A2 (A3 Hc)).
Qed.

(** the walks do not look at the evidence *)
Lemma collect_evid o j ev x st : collect o (set_jevid j ev) st x = collect o j st x.
Proof.
  unfold collect. change (neighboring o (set_jevid j ev)) with (neighboring o j).
  destruct (neighboring o j x); auto. cbn [rbind]. apply foldM_ext. intros st' p _.
  change (walk_fuel (set_jevid j ev)) with (walk_fuel j). generalize (walk_fuel j) as f. intros f.
  assert (G : forall f st a s b, collect_walk o (set_jevid j ev) f st a s b = collect_walk o j f st a s b).
  { clear. induction f as [|f IH]; intros; simpl; auto. change (neighboring o (set_jevid j ev)) with (neighboring o j).
    destruct (neighboring o j b); auto. cbn [rbind]. destruct (mark_new (snd st) a0) as [m todo].
    rewrite (foldM_ext _ (fun st p => collect_walk o j f st b (fst p) (snd p))); auto. }
  apply G.
Qed.
Lemma distribute_evid o j ev x st : distribute o (set_jevid j ev) st x = distribute o j st x.
Proof.
  unfold distribute. change (neighboring o (set_jevid j ev)) with (neighboring o j).
  destruct (neighboring o j x); auto. cbn [rbind]. apply foldM_ext. intros st' p _. change (jt_heap (set_jevid j ev)) with (jt_heap j).
  destruct (pass_message (jt_heap j) (fst st') x (fst p) (snd p)); auto. cbn [rbind].
  change (walk_fuel (set_jevid j ev)) with (walk_fuel j). generalize (walk_fuel j) as f. intros f.
  assert (G : forall f st b, distribute_walk o (set_jevid j ev) f st b = distribute_walk o j f st b).
  { clear. induction f as [|f IH]; intros; simpl; auto. change (neighboring o (set_jevid j ev)) with (neighboring o j).
    destruct (neighboring o j b); auto. cbn [rbind]. destruct (mark_new (snd st) a) as [m todo].
    apply foldM_ext. intros st' p _. destruct (pass_message (jt_heap j) (fst st') b (fst p) (snd p)); auto. cbn [rbind]. apply IH. }
  apply G.
Qed.
Lemma propagate_evid o j ev : propagate o (set_jevid j ev) = Ok (set_jevid j ev) -> propagate o j = Ok j.
Proof.
  unfold propagate. change (jt_cliques (set_jevid j ev)) with (jt_cliques j). destruct (isort cl_leb (jt_cliques j)) as [|c l]; [discriminate|].
  change (jt_pots (set_jevid j ev)) with (jt_pots j). rewrite collect_evid. destruct (collect o j (jt_pots j, []) c) as [st|]; [|discriminate]. cbn [rbind].
  rewrite distribute_evid. destruct (distribute o j (fst st, []) c) as [st'|]; [|discriminate]. cbn [rbind]. intros E. injection E as E. f_equal.
  rewrite E. destruct j; auto.
Qed.

Lemma c12 ops o h o' : well_shaped ops -> ord_ok o -> valid_history (net_of ops) h -> ord_ok o' ->
  exists j, session o ops h = Ok j /\ propagate o' j = Ok j.
Proof.
  intros HW Ho Hh Ho'. destruct (session_live ops o h HW Ho Hh) as [j [ev [A1 [A2 A3]]]]. exists j. split; auto. apply (propagate_evid o' j ev). eapply live_again; eauto.
Qed.

(** ** unobserve_all *)
Lemma do_calls_app h1 : forall j h2, do_calls j (h1 ++ h2) = match do_calls j h1 with (j', None) => do_calls j' h2 | r => r end.
Proof. induction h1 as [|[o c] h1 IH]; intros j h2; simpl; auto. destruct (do_call o j c) as [j' [x|]]; auto. Qed.

Lemma shown_unobserve_all ops o h : well_shaped ops -> ord_ok o -> valid_history (net_of ops) h ->
  agree (net_of ops) (shown (net_of ops) (calls h ++ [UnobserveAll])) no_evidence.
Proof.
  intros HW Ho Hh. set (N := net_of ops). destruct (session_shows ops o h HW Ho Hh) as [b [j0 [j [A1 [A2 [A3 [A4 [A5 A6]]]]]]]]. fold N in A3.
  unfold shown. rewrite fold_left_app. cbn [fold_left]. unfold step at 1. cbn [snd].
  destruct (forallb _ (about N (fst (fold_left (step N) (calls h) (no_evidence, no_evidence))) UnobserveAll)) eqn:Eq; [|apply agree_refl].
  rewrite forallb_forall in Eq. rewrite step_fst in Eq. intros i v Hi Hv. apply (step_ones N (calls h) (no_evidence, no_evidence)); auto. intros w Hw. rewrite step_fst.
  apply (quiet_ones N (in_force N (calls h)) (nothing N i)); auto. apply Eq. apply in_map; auto.
Qed.

Lemma c13 ops o h o' : well_shaped ops -> connected ops -> ord_ok o -> valid_history (net_of ops) h -> ord_ok o' ->
  exists b j j' t, apply o (build ops) = Ok (b, j) /\ do_calls j (h ++ [(o', UnobserveAll)]) = (j', None) /\ get_posteriors j = Ok t /\ get_posteriors j' = Ok t.
Proof.
  intros HW Hc Ho Hh Ho'. set (N := net_of ops).
  assert (Hh' : valid_history N (h ++ [(o', UnobserveAll)])).
  { destruct Hh as [H1 H2]. split. apply Forall_app; split; auto. unfold calls. rewrite map_app. apply Forall_app; split; auto. constructor; simpl; auto. }
  destruct (session_shows ops o _ HW Ho Hh') as [b [j [j' [A1 [A2 [A3 [A4 [A5 A6]]]]]]]]. fold N in A3, A5. destruct (A6 Hc) as [C1 C2].
  destruct (sw_live _ _ _ _ _ A3) as [ev Hl]. exists b, j, j'. eexists. split; auto. split; auto. split; [apply (live_table N (net_name ops) (firsts_NoDup _) (ws_names _ HW) no_evidence); auto|].
  change (get_posteriors j') with (get_posteriors (set_jevid j' ev)). rewrite (live_table N (net_name ops) (firsts_NoDup _) (ws_names _ HW) no_evidence).
  - f_equal. unfold jt_bbn_ids, jt_cliques. change (jt_nodes (set_jevid j' ev)) with (jt_nodes j'). rewrite A4. auto.
  - eapply live_agree; [exact Hl|]. apply agree_sym. unfold calls. rewrite map_app. apply (shown_unobserve_all ops o h); auto.
  - apply jconn_ext with j'; auto.
Qed.

(** ** observing a value *)
Lemma observe_like n v w : NoDup (n_values n) -> In v (n_values n) -> like_of (build_evidence n OBSERVATION [(v, 1%Qc)]) w = if String.eqb w v then 1%Qc else 0%Qc.
Proof.
  intros HN Hv. set (e := build_evidence n OBSERVATION [(v, 1%Qc)]). unfold like_of. simpl ev_type. cbn iota.
  assert (Hb : best (supplied e) (considered e) = v).
  { unfold considered. simpl dkeys. cbn [app]. generalize (filter (fun v0 => negb (mem v0 [v])) (ev_dom e)) as l. intros l. destruct l as [|y l]; auto.
    change (best (supplied e) (v :: y :: l)) with (if qleb (supplied e (best (supplied e) (y :: l))) (supplied e v) then v else best (supplied e) (y :: l)).
    assert (E : qleb (supplied e (best (supplied e) (y :: l))) (supplied e v) = true); [|rewrite E; auto].
    assert (Ev : supplied e v = 1%Qc). { unfold supplied. simpl. rewrite String.eqb_refl. auto. } rewrite Ev.
    apply qleb_le. generalize (best (supplied e) (y :: l)) as z. intros z. unfold supplied. simpl. destruct (String.eqb_spec z v); [apply Qcle_refl|apply le01]. }
  rewrite Hb. auto.
Qed.

Lemma c46 ops o h o' n v : well_shaped ops -> connected ops -> ord_ok o -> valid_history (net_of ops) h -> Forall hard_call (calls h) -> ord_ok o' ->
  node_in (net_of ops) n -> In v (n_values n) ->
  let obs := Update [build_evidence n OBSERVATION [(v, 1%Qc)]] in
  possible (net_of ops) (in_force (net_of ops) (calls h ++ [obs])) ->
  exists j t, session o ops (h ++ [(o', obs)]) = Ok j /\ get_posteriors j = Ok t /\
    dget t (net_name ops (n_id n)) = Some (map (fun w => (w, if String.eqb w v then 1%Qc else 0%Qc)) (n_values n)).
Proof.
  intros HW Hc Ho Hh Hd Ho' [Hn1 Hn2] Hv obs Hp. set (N := net_of ops) in *. pose proof (net_shape ops HW) as HN. fold N in HN.
  destruct (ns_dom _ HN _ Hn1) as [D1 D2].
  assert (Hk : valid_call N obs).
  { constructor; [|constructor]. split; [exact Hn1|]. split; [exact Hn2|]. simpl. split; [constructor; [intros []|constructor]|]. intros x [<-|[]]; auto. }
  assert (Hh' : valid_history N (h ++ [(o', obs)])).
  { destruct Hh as [H1 H2]. split. apply Forall_app; split; auto. unfold calls. rewrite map_app. apply Forall_app; split; auto. constructor; auto. }
  assert (Hd' : Forall hard_call (calls (h ++ [(o', obs)]))).
  { unfold calls. rewrite map_app. apply Forall_app; split; auto. constructor; auto. constructor; [|constructor]. discriminate. }
  destruct (c02 ops o _ HW Hc Ho Hh' Hd') as [j [t [A1 [A2 [A3 A4]]]]]. exists j, t. split; auto. split; auto. fold N in A4. rewrite A4 by auto. f_equal. rewrite Hn2. apply map_ext_in. intros w Hw. f_equal.
  assert (Ec : calls (h ++ [(o', obs)]) = calls h ++ [obs]) by (unfold calls; rewrite map_app; auto). rewrite Ec.
  assert (EL : forall x, in_force N (calls h ++ [obs]) (n_id n) x = if String.eqb x v then 1%Qc else 0%Qc).
  { intros x. unfold in_force. rewrite fold_left_app. cbn [fold_left effect]. unfold obs. cbn [effect fold_left]. unfold assimilate. simpl ev_node. rewrite Z.eqb_refl. apply observe_like; auto. rewrite Hn2; auto. }
  rewrite Hn2 in Hv. destruct (posterior_point N (in_force N (calls h ++ [obs])) HN (n_id n) v Hn1 Hv Hp) as [P1 P2].
  { intros x Hx Hne. rewrite EL. destruct (String.eqb_spec x v); congruence. }
  destruct (String.eqb_spec w v) as [->|Hne]; auto.
Qed.

Lemma c47 ops : well_shaped ops -> let N := net_of ops in
  exists u, moralize (b_g (build ops)) = Ok u /\ map fst (g_nodes u) = vars N /\ forall x y, In y (get_neighbors u x) <-> moral_edge N x y.
Proof. intros HW N. destruct (moralize_build ops HW) as [u [E [_ [_ [_ [H1 H2]]]]]]. exists u. auto. Qed.

Lemma hard_shown ops h : well_shaped ops -> Forall (valid_call (net_of ops)) h -> Forall hard_call h ->
  agree (net_of ops) (shown (net_of ops) h) (in_force (net_of ops) h).
Proof. intros HW Hv Hh. apply shown_in_force; auto. apply (ws_dom _ HW). eapply hard_all_noticed; eauto. Qed.
