(** Join trees read from JSON with the members of objects in any order. *)
From Verif Require Import Py M_Graph M_Node M_Pptc M_Serde M_Json M_Json2 Spec SpecNet SpecEv SpecRe SpecSer SpecJson SpecShuf L_Base L_Table L_Ids L_Tree L_Good L_Net L_Evid L_Hist L_Claims L_Shape L_Shown L_P1 L_Reapply L_Rebuild L_Serde L_P8 L_Json L_Json2 L_Json3 L_Shuf.
From Verif Require Import L_Exact L_Apply L_Build.
Local Open Scope string_scope.
Local Open Scope list_scope.

Lemma dget_rel k m l' : Forall2 (fun p q : string * json => fst p = fst q /\ reordered (snd p) (snd q)) m l' -> forall x, dget m k = Some x -> exists x', dget l' k = Some x' /\ reordered x x'.
Proof.
  induction 1 as [|[a y] [c z] m l' [E Hr] F IH]; intros x Hx; [discriminate|]. cbn [fst snd] in *. subst. cbn [dget] in *. destruct (eqb k c); [|auto]. injection Hx as Hx. subst. eauto.
Qed.
Lemma member_ro l v k x : reordered (JsObj l) v -> NoDup (map fst l) -> dget l k = Some x -> exists x', member v k = Ok x' /\ reordered x x'.
Proof.
  intros Hr ND E. inversion Hr as [| | | | | |? m l' P F]; subst. assert (E' : dget m k = Some x). { rewrite <- E. symmetry. apply dget_perm; auto. unfold dkeys. apply (Permutation_NoDup (Permutation_map fst P) ND). }
  destruct (dget_rel k m l' F x E') as [x' [E1 E2]]. exists x'. split; auto. unfold member. apply dgetE_Ok. exact E1.
Qed.
Lemma ints_ro l v : reordered (JsList (map JsInt l)) v -> v = JsList (map JsInt l).
Proof. intros H. inversion H as [| | | | |? l' F|]; subst. f_equal. clear H. revert l' F. induction l as [|x l IH]; intros l' F; inversion F as [|? ? ? ? R F']; subst; simpl; auto. inversion R; subst. f_equal. auto. Qed.
Lemma strs_ro l v : reordered (JsList (map JsStr l)) v -> v = JsList (map JsStr l).
Proof. intros H. inversion H as [| | | | |? l' F|]; subst. f_equal. clear H. revert l' F. induction l as [|x l IH]; intros l' F; inversion F as [|? ? ? ? R F']; subst; simpl; auto. inversion R; subst. f_equal. auto. Qed.
Lemma floats_ro l v : reordered (JsList (map JsFloat l)) v -> v = JsList (map JsFloat l).
Proof. intros H. inversion H as [| | | | |? l' F|]; subst. f_equal. clear H. revert l' F. induction l as [|x l IH]; intros l' F; inversion F as [|? ? ? ? R F']; subst; simpl; auto. inversion R; subst. f_equal. auto. Qed.
Lemma floats_back l : mapM as_num (map JsFloat l) = Ok l. Proof. induction l as [|x l IH]; simpl; auto. rewrite IH. auto. Qed.

Ltac look H k E x R := destruct (member_ro _ _ k _ H ltac:(keys) eq_refl) as [x [E R]].
Lemma node_ro d v : reordered (node_json d) v -> json_node v = Ok d.
Proof.
  intros H. unfold node_json in H. look H "variable" E1 x R1. look H "probs" E2 ps R2. look R1 "id" E3 i R3. look R1 "name" E4 n R4. look R1 "values" E5 vs R5.
  apply floats_ro in R2. apply strs_ro in R5. inversion R3; subst. inversion R4; subst.
  unfold json_node. rewrite E1. cbn [rbind]. rewrite E3. cbn [rbind as_int]. rewrite E4. cbn [rbind as_str]. rewrite E5. cbn [rbind as_list]. rewrite strs_back. cbn [rbind]. rewrite E2. cbn [rbind as_list]. rewrite floats_back. cbn [rbind]. destruct d; reflexivity.
Qed.
Lemma jnode_ro k n v : reordered (jnode_json n) v -> json_jnode (k, v) = Ok [(k, n)].
Proof.
  intros H. destruct n as [ids|l r]; unfold jnode_json in H; look H "type" E1 t R1; inversion R1; subst; unfold json_jnode; cbn [fst snd]; rewrite E1; cbn [rbind as_str].
  - look H "node_ids" E2 x R2. apply ints_ro in R2. subst. change (String.eqb "clique" "clique") with true. cbv iota. rewrite E2. cbn [rbind as_list]. rewrite ints_back. reflexivity.
  - look H "left" E2 x R2. look H "right" E3 y R3. inversion R2; subst. inversion R3; subst. change (String.eqb "sepset" "clique") with false. change (String.eqb "sepset" "sepset") with true. cbv iota. rewrite E2. cbn [rbind as_str]. rewrite E3. reflexivity.
Qed.
Lemma obj_ro {A} (f : A -> string * json) ns v : reordered (JsObj (map f ns)) v -> exists m l', v = JsObj l' /\ Permutation m ns /\ Forall2 (fun a q => fst (f a) = fst q /\ reordered (snd (f a)) (snd q)) m l'.
Proof.
  intros H. inversion H as [| | | | | |? m l' P F]; subst. apply Permutation_sym, Permutation_map_inv in P. destruct P as [m' [-> P]]. exists m', l'. split; auto. split; [apply Permutation_sym; auto|].
  clear - F. revert l' F. induction m' as [|a m IH]; intros l' F; inversion F; subst; constructor; auto.
Qed.
Lemma tree_ro o j b d v : jt_to_dict o j b = Ok d -> reordered (jt_json d) v ->
  exists d', json_tree v = Ok d' /\ Permutation (jd_bbn d') (jd_bbn (json_jt d)) /\ Permutation (jd_nodes d') (jd_nodes d) /\ jd_edges d' = jd_edges d /\ Permutation (jd_pinfo d') (jd_pinfo d).
Proof.
  intros E H. destruct (tree_keys _ _ _ _ E) as [A [B [C D]]]. clear E. unfold json_jt. destruct d as [ns js es ps]. unfold jt_json in H. cbn [jd_bbn jd_nodes jd_edges jd_pinfo] in *. rewrite json_keys_fold by auto.
  look H "bbn_nodes" E1 x1 R1. look H "jt" E2 t R2. look R2 "nodes" E3 x3 R3. look R2 "edges" E4 x4 R4. look R2 "parent_info" E5 x5 R5.
  apply strs_ro in R4. subst x4. apply obj_ro in R1. destruct R1 as [m1 [l1 [-> [P1 F1]]]]. apply obj_ro in R3. destruct R3 as [m3 [l3 [-> [P3 F3]]]]. apply obj_ro in R5. destruct R5 as [m5 [l5 [-> [P5 F5]]]].
  assert (Q1 : mapM (fun p => d <- json_node (snd p) ;; Ok (KStr (fst p), d)) l1 = Ok (map (fun p => (json_key (fst p), snd p)) m1)).
  { assert (B1 : Forall (fun p : pykey * nodedict => exists z, fst p = KInt z) m1) by (apply Forall_forall; rewrite Forall_forall in B; intros p Hp; apply B; apply (Permutation_in _ P1 Hp)).
    clear - F1 B1. induction F1 as [|[k d] [k' v] m l [G1 G2] F IH]; auto. inversion B1 as [|? ? [z Hz] B2]; subst. cbn [fst snd] in *. subst. cbn [mapM map snd fst]. rewrite (node_ro _ _ G2). cbn [rbind]. rewrite IH by auto. reflexivity. }
  assert (Q3 : mapM json_jnode l3 = Ok (map (fun p => [p]) m3)).
  { clear - F3. induction F3 as [|[k n] [k' v] m l [G1 G2] F IH]; auto. cbn [fst snd] in *. subst. cbn [mapM map]. rewrite (jnode_ro _ _ _ G2). cbn [rbind]. rewrite IH. reflexivity. }
  assert (Q5 : mapM (fun p => l <- as_list (snd p) ;; l <- mapM as_int l ;; Ok (fst p, l)) l5 = Ok m5).
  { clear - F5. induction F5 as [|[k n] [k' v] m l [G1 G2] F IH]; auto. cbn [fst snd] in *. subst. apply ints_ro in G2. subst. cbn [mapM fst snd as_list rbind]. rewrite ints_back. cbn [rbind]. rewrite IH. reflexivity. }
  assert (Q : List.concat (map (fun p : string * jnodedict => [p]) m3) = m3). { clear. induction m3 as [|p js IH]; simpl; congruence. }
  eexists. split.
  - unfold json_tree. rewrite E1. cbn [rbind as_obj]. rewrite Q1. cbn [rbind]. rewrite E2. cbn [rbind]. rewrite E3. cbn [rbind as_obj]. rewrite Q3. cbn [rbind]. rewrite E4. cbn [rbind as_list]. rewrite strs_back. cbn [rbind]. rewrite E5. cbn [rbind as_obj]. rewrite Q5. cbn [rbind]. rewrite Q. reflexivity.
  - cbn [jd_bbn jd_nodes jd_edges jd_pinfo]. split; [apply Permutation_map; auto|]. auto.
Qed.

Lemma reordered_live N nm j b o o' d v : nshape N -> NoDup (map nm (vars N)) -> ready N nm j -> saveable j -> NoDup (dkeys (b_parents b)) -> (forall i, In i (vars N) -> dgets (b_parents b) i = par N i) ->
  ord_ok o -> ord_ok o' -> covered j -> jt_to_dict o j b = Ok d -> reordered (jt_json d) v ->
  exists j', (d' <- json_tree v ;; j1 <- jt_from_dict o' d' ;; apply_from_serde o' j1) = Ok j' /\ live N nm no_evidence j' /\ (jconn j -> jconn j').
Proof.
  intros HN Hnm R SV Hbk Hbp Ho Ho' CV E H. destruct (tree_ro _ _ _ _ _ E H) as [d' [E1 [P1 [P2 [P3 P4]]]]]. rewrite E1. cbn [rbind].
  destruct (saved N nm j R SV b Hbk o true) as [d0 [D1 D2]]. rewrite E in D1. injection D1 as <-. rewrite D2 in P1. cbn [jd_bbn] in P1.
  assert (D3 : jd_nodes d = jd_nodes (json_jt d)) by (destruct d; reflexivity). assert (D4 : jd_edges d = jd_edges (json_jt d)) by (destruct d; reflexivity). assert (D5 : jd_pinfo d = jd_pinfo (json_jt d)) by (destruct d; reflexivity).
  rewrite D3, D2 in P2. rewrite D4, D2 in P3. rewrite D5, D2 in P4. cbn [jd_nodes jd_edges jd_pinfo] in P2, P3, P4. clear D2 D3 D4 D5 E E1 H.
  apply Permutation_map_inv in P1. destruct P1 as [ids' [Q1 P1]]. apply Permutation_map_inv in P2. destruct P2 as [L [Q2 P2]]. apply Permutation_map_inv in P4. destruct P4 as [B [Q4 P4]].
  destruct d' as [x1 x2 x3 x4]. cbn [jd_bbn jd_nodes jd_edges jd_pinfo] in *. subst x1 x2 x3 x4.
  destruct (shuf_live N nm HN Hnm j R SV b Hbk Hbp o o' Ho Ho' true ids' (Permutation_sym P1) L (Permutation_sym P2) B (Permutation_sym P4) CV) as [j' [A1 [A2 [_ [_ A5]]]]]. exists j'. split; auto.
Qed.

Theorem c113_any read ops o l o1 o2 : well_shaped ops -> connected ops -> ord_ok o -> ord_ok o1 -> ord_ok o2 -> acts_ok (start ops) l ->
  exists b j0 j d, apply o (build ops) = Ok (b, j0) /\ foldM (do_act b) l j0 = Ok j /\ jt_to_dict o1 j b = Ok d /\
    forall s v, loads read s = Ok v -> reordered (jt_json d) v ->
      exists j' t, (j1 <- load_tree read o2 s ;; apply_from_serde o2 j1) = Ok j' /\ get_posteriors j' = Ok t /\
        exact_table (fst (fold_left after_act l (start ops))) (net_name ops) no_evidence t.
Proof.
  intros HW Hc Ho Ho1 Ho2 Hl. destruct (apply_situated ops o HW Ho) as [b [j0 [A1 [A2 A3]]]]. destruct (apply_saves ops o b j0 HW Ho A1) as [B1 [B2 _]].
  destruct (acts_after ops HW b B1 l (start ops) j0) as [j [E T]]; auto. { constructor; auto. }
  destruct T as [T1 T2 T3]. destruct (fold_left after_act l (start ops)) as [N [L S]]. destruct T1 as [S1 S2 S3 S4 S5]. simpl in *. pose proof (ws_names _ HW) as Hnm. rewrite <- S2 in Hnm.
  pose proof (st_net _ _ _ _ (sw_st _ _ _ _ _ S4)) as HJ. assert (Hbk : NoDup (dkeys (b_parents b))) by (rewrite B1; apply parents_keys).
  pose proof (jnet_ready _ _ _ HJ S5) as R.
  destruct (saved N (net_name ops) j R T2 b Hbk o1 true) as [d [D1 _]]. exists b, j0, j, d. split; auto. split; auto. split; auto. intros s v Hs Hv.
  destruct (reordered_live N (net_name ops) j b o1 o2 d v) as [j' [F1 [F2 F3]]]; auto.
  { intros i _. rewrite B1, S3. apply (bi_par _ _ (build_inv ops)). }
  { apply (jconn_covered _ (jn_JG _ _ _ HJ) T3). }
  destruct (live_exact_table N (net_name ops) no_evidence j' (ns_nd _ S1) Hnm F2 (F3 T3)) as [t [G1 G2]]. exists j', t. split; auto. unfold load_tree. rewrite Hs. cbn [rbind]. rewrite <- F1. destruct (json_tree v); reflexivity.
Qed.

(** ** sorted keys *)
Lemma sort_ro leb v : reordered v (sort_keys leb v).
Proof.
  induction v as [z|q|s|b| |l IH|l IH] using json_rec2; try constructor.
  - induction IH; simpl; constructor; auto.
  - simpl. set (g := fun p : string * json => let (k, x) := p in (k, sort_keys leb x)). assert (P : Permutation (map g l) (isort (fun p q => leb (fst p) (fst q)) (map g l))) by (apply Permutation_sym, isort_perm).
    apply Permutation_sym, Permutation_map_inv in P. destruct P as [m [E P]]. rewrite E. apply ro_obj with m; auto.
    assert (Fm : Forall (fun kv => reordered (snd kv) (sort_keys leb (snd kv))) m). { rewrite Forall_forall in *. intros p Hp. apply IH. apply (Permutation_in _ (Permutation_sym P) Hp). }
    clear - Fm. induction Fm as [|[k x] m Hx F I]; simpl; constructor; auto.
Qed.
Lemma sort_uniq leb v : uniq v -> uniq (sort_keys leb v).
Proof.
  induction v as [z|q|s|b| |l IH|l IH] using json_rec2; intros U; auto.
  - inversion U as [| | | | |? F|]; subst. simpl. constructor. clear U. induction IH as [|x l Hx Hl I]; simpl; inversion F; subst; constructor; auto.
  - inversion U as [| | | | | |? ND F]; subst. simpl. set (g := fun p : string * json => let (k, x) := p in (k, sort_keys leb x)).
    assert (P : Permutation (map g l) (isort (fun p q => leb (fst p) (fst q)) (map g l))) by (apply Permutation_sym, isort_perm). constructor.
    + apply (Permutation_NoDup (Permutation_map fst P)). rewrite map_map. rewrite (map_ext _ fst) by (intros [k x]; reflexivity). auto.
    + apply Forall_forall. intros p Hp. apply (Permutation_in _ (Permutation_sym P)) in Hp. apply in_map_iff in Hp. destruct Hp as [[k x] [<- Hx]]. simpl. rewrite Forall_forall in IH, F. apply (IH _ Hx). apply (F _ Hx).
Qed.
Theorem c113_sorted show read leb ind ops o l o1 o2 : float_format show read -> well_shaped ops -> connected ops -> ord_ok o -> ord_ok o1 -> ord_ok o2 -> acts_ok (start ops) l ->
  exists b j0 j d, apply o (build ops) = Ok (b, j0) /\ foldM (do_act b) l j0 = Ok j /\ jt_to_dict o1 j b = Ok d /\
    exists j' t, (j1 <- load_tree read o2 (dumps show ind (sort_keys leb (jt_json d))) ;; apply_from_serde o2 j1) = Ok j' /\ get_posteriors j' = Ok t /\
      exact_table (fst (fold_left after_act l (start ops))) (net_name ops) no_evidence t.
Proof.
  intros FF HW Hc Ho Ho1 Ho2 Hl. destruct (c113_any read ops o l o1 o2 HW Hc Ho Ho1 Ho2 Hl) as [b [j0 [j [d [E1 [E2 [E3 H]]]]]]]. exists b, j0, j, d. repeat (split; auto).
  apply (H _ (sort_keys leb (jt_json d))). { apply (c112_text show read FF). apply sort_uniq. eapply tree_uniq; eauto. } apply sort_ro.
Qed.
