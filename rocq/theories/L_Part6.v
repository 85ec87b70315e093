(** The same evidence twice, and restored networks, for networks in any number of parts. *)
From Verif Require Import Py M_Graph M_Node M_Pptc M_Serde M_Factory M_Csv Spec SpecNet SpecEv SpecRe SpecSer SpecCsv SpecPart L_Base L_PD L_Sums L_Table L_Tree L_Walk L_Forest L_Root L_Good L_Prop L_Init L_Post L_Read
  L_Ids L_Trans L_Elim L_UG L_Tri L_Moral L_Build L_Exact L_Apply L_Net L_Evid L_Hist L_Claims L_Shape L_Shown L_P1 L_P2 L_Reapply L_Rebuild L_Serde L_P8 L_Csv L_Csv2 L_Det L_Again L_Part L_Part2 L_Part3 L_Part4.
Open Scope nat_scope.

Lemma c15_update_any ops o h o1 o2 es : well_shaped ops -> ord_ok o -> ord_ok o1 -> ord_ok o2 -> valid_history (net_of ops) h -> Forall (known (net_of ops)) es ->
  exists j1 j2 t, session o ops (h ++ [(o1, Update es)]) = Ok j1 /\ session o ops (h ++ [(o1, Update es); (o2, Update es)]) = Ok j2 /\
    get_posteriors j1 = Ok t /\ get_posteriors j2 = Ok t.
Proof.
  intros HW Ho Ho1 Ho2 Hh HK. set (N := net_of ops) in *.
  assert (V1 : valid_history N (h ++ [(o1, Update es)])) by (apply valid_app; split; auto; apply valid_one; auto).
  assert (V2 : valid_history N (h ++ [(o1, Update es); (o2, Update es)])) by (apply valid_app; split; auto; apply (valid_app N [(o1, Update es)] [(o2, Update es)]); split; apply valid_one; auto).
  destruct (session_situ ops o _ HW Ho V1) as [j0 [b [j [j' [A1 [A2 [A3 [A4 [A5 [A6 [A7 A8]]]]]]]]]]]. destruct (session_situ ops o _ HW Ho V2) as [k0 [b' [k [k' [B1 [B2 [B3 [B4 [B5 [B6 [B7 B8]]]]]]]]]]].
  rewrite A1 in B1. injection B1 as <-. destruct (situ_same N _ (net_shape ops HW) (ws_names _ HW) _ _ j' k' A8 B8) as [f [F1 F2]].
  { apply agree_sym. apply (twice_shown ops h o1 o2 es); auto. } { rewrite (nodes_cl _ _ A6), (nodes_cl _ _ B6). apply sims_refl. }
  exists j', k'. eexists. split; auto. split; auto. split; [exact F1|]. rewrite F2, (nodes_ids _ _ A6), (nodes_ids _ _ B6). auto.
Qed.

Lemma same_network_tables ops ops' : same_network ops ops' -> well_shaped ops -> forall o o' h, ord_ok o -> ord_ok o' -> valid_history (net_of ops) h ->
  exists j b2 j2 j2' t t', session o ops h = Ok j /\ get_posteriors j = Ok t /\
    apply o' (build ops') = Ok (b2, j2) /\ do_calls j2 h = (j2', None) /\ get_posteriors j2' = Ok t' /\ Permutation (map fst t) (map fst t') /\ forall k, dget t k = dget t' k.
Proof.
  intros S HW o o' h Ho Ho' Hh. set (N := net_of ops) in *. pose proof (net_shape ops HW) as HN. fold N in HN. pose proof (ws_names _ HW) as Hnm. change (net_vars ops) with (vars N) in Hnm.
  assert (Hfr : forall i n, In (i, n) (g_nodes (b_g (build ops'))) -> n_mclq n = None).
  { intros i n Hn. pose proof (build_inv ops') as B. assert (En : node_of ops' i = Some n).
    { rewrite <- (bi_get _ _ B). apply dget_In_NoDup; auto. change (NoDup (ids (b_g (build ops')))). rewrite (bi_ids _ _ B). apply firsts_NoDup. }
    destruct (node_of_Some _ _ _ En) as [Hm _]. destruct (sn_new _ _ S n Hm) as [k [a [v [q ->]]]]. reflexivity. }
  destruct (session_situ ops o _ HW Ho Hh) as [j0 [b [j [j' [A1 [A2 [A3 [A4 [A5 [A6 [A7 A8]]]]]]]]]]]. fold N in A7, A8.
  destruct (fresh_situ N (net_name ops) HN Hnm (build ops') o' h (same_good _ _ S) Ho' Hfr Hh) as [k0 [b' [k [k' [B1 [B2 [B3 [B4 [B5 [B6 B7]]]]]]]]]].
  assert (HS : Forall2 clsim (jt_cliques j') (jt_cliques k')).
  { rewrite (nodes_cl _ _ A6), (nodes_cl _ _ B5). eapply (cliques_same N N (net_name ops) (net_name ops) (build ops) (build ops') o o'); auto. apply build_good. apply same_good; auto. }
  destruct (situ_same N _ HN Hnm _ _ j' k' A8 B7 (agree_refl _ _) HS) as [f [F1 F2]].
  pose proof (situ_perm N _ HN _ _ A8) as P1. pose proof (situ_perm N _ HN _ _ B7) as P2.
  exists j', b', k, k'. eexists _, _. split; auto. split; [exact F1|]. split; auto. split; auto. split; [exact F2|]. apply same_tables.
  - eapply Permutation_NoDup; [|exact Hnm]. apply Permutation_map, Permutation_sym, P1.
  - rewrite P1, P2. reflexivity.
Qed.

Theorem c20_any ops w : well_shaped ops -> exists b', reload_bbn w (build ops) = Ok b' /\
  forall o o' h, ord_ok o -> ord_ok o' -> valid_history (net_of ops) h ->
    exists j b2 j2 j2' t t', session o ops h = Ok j /\ get_posteriors j = Ok t /\
      apply o' b' = Ok (b2, j2) /\ do_calls j2 h = (j2', None) /\ get_posteriors j2' = Ok t' /\ Permutation (map fst t) (map fst t') /\ forall k, dget t k = dget t' k.
Proof. intros HW. destruct (c20 ops w) as [ops' [E S]]. exists (build ops'). split; auto. apply same_network_tables; auto. Qed.
Theorem c21_any show read ops : number_format show read -> clean_texts ops -> well_shaped ops -> exists b', from_csv read (to_csv show (build ops)) = Ok b' /\
  forall o o' h, ord_ok o -> ord_ok o' -> valid_history (net_of ops) h ->
    exists j b2 j2 j2' t t', session o ops h = Ok j /\ get_posteriors j = Ok t /\
      apply o' b' = Ok (b2, j2) /\ do_calls j2 h = (j2', None) /\ get_posteriors j2' = Ok t' /\ Permutation (map fst t) (map fst t') /\ forall k, dget t k = dget t' k.
Proof. intros HF HC HW. destruct (c21 show read ops HF HC) as [ops' [E S]]. exists (build ops'). split; auto. apply same_network_tables; auto. Qed.
