(** Several join trees of one network object: the invariant. *)
From Verif Require Import Py M_Graph M_Node M_Pptc Spec SpecNet SpecEv SpecRe SpecAgain SpecPart SpecMany L_Base L_PD L_Sums L_Table L_Tree L_Walk L_Forest L_Root L_Good L_Prop L_Init L_Post L_Read
  L_Ids L_Trans L_Elim L_UG L_Tri L_Moral L_Build L_Exact L_Apply L_Net L_Evid L_Hist L_Claims L_Shape L_Shown L_P1 L_Reapply L_Det L_Again L_Part L_Part2 L_Part3 L_Part4 L_Part5 L_Many.
Open Scope nat_scope.

(** ** networks that differ in their CPTs only *)
Lemma valid_call_net N N' c : vars N' = vars N -> dom N' = dom N -> valid_call N c -> valid_call N' c.
Proof. destruct N as [v d p q], N' as [v' d' p' q']; simpl. intros -> ->. exact (fun H => H). Qed.
Lemma step_net N N' s c : vars N' = vars N -> dom N' = dom N -> step N' s c = step N s c.
Proof. destruct N as [v d p q], N' as [v' d' p' q']; simpl. intros -> ->. reflexivity. Qed.
Lemma quiets_net N N' L c : vars N' = vars N -> dom N' = dom N -> forallb (quiet N' L) (about N' L c) = forallb (quiet N L) (about N L c).
Proof. destruct N as [v d p q], N' as [v' d' p' q']; simpl. intros -> ->. reflexivity. Qed.
Lemma fitting_net N N' cpts : vars N' = vars N -> dom N' = dom N -> par N' = par N -> fitting N cpts -> fitting N' cpts.
Proof. destruct N as [v d p q], N' as [v' d' p' q']; simpl. intros -> -> ->. exact (fun H => H). Qed.

(** ** trees with other node objects *)
Definition pface (n : bnode) := (n_id n, n_name n, n_values n, n_pot n, n_mpar n, n_mclq n).
Lemma jnet_heap N nm j h : jnet N nm j -> (forall i, option_map pface (dget h i) = option_map pface (dget (jt_heap j) i)) -> jnet N nm (set_jheap j h).
Proof.
  intros [J1 J2 J3 J4 J5 J6] F. constructor; auto.
  - destruct J1; constructor; auto.
  - destruct J2 as [H1 H2 H3 H4 H5 H6]. constructor; auto. intros i Hi. destruct (H1 i Hi) as [n [E [E1 [E2 [E3 [E4 E5]]]]]]. pose proof (F i) as Fi. rewrite E in Fi. simpl. destruct (dget h i) as [m|] eqn:Em; [|discriminate].
    cbn [option_map] in Fi. unfold pface in Fi. injection Fi as F1 F2 F3 F4 F5 F6. exists m. split; auto. split; [congruence|]. split; [congruence|]. split; [congruence|]. split.
    + intros p. rewrite <- E4. unfold jt_parent_ids. simpl. rewrite Em, E, F5. reflexivity.
    + rewrite F6. exact E5.
  - intros i Hi. rewrite <- J5 by auto. pose proof (F i) as Fi. unfold h_name. simpl. destruct (dget h i), (dget (jt_heap j) i); try discriminate Fi; auto. cbn [option_map] in Fi. unfold pface in Fi. injection Fi. auto.
Qed.

Lemma transplant N N' nm j j' : vars N' = vars N -> par N' = par N -> jnet N nm j -> jnet N' nm j' -> Forall2 clsim (jt_cliques j) (jt_cliques j') -> jnet N' nm (set_jheap j (jt_heap j')).
Proof.
  intros Ev Ep [J1 J2 J3 J4 J5 J6] [K1 K2 K3 K4 K5 K6] S.
  assert (Hid : forall i, In i (jt_bbn_ids j) <-> In i (jt_bbn_ids j')) by (intros i; rewrite J4, K4, Ev; reflexivity).
  constructor; auto.
  - destruct J1; constructor; auto.
  - destruct K2 as [H1 H2 H3 H4 H5 H6]. constructor; try (intros i Hi; change (In i (jt_bbn_ids j)) in Hi; apply Hid in Hi; auto).
    + destruct (H1 i Hi) as [n [E [E1 [E2 [E3 [E4 E5]]]]]]. exists n. split; auto. split; auto. split; auto. split; auto. split; [exact E4|]. intros k Hk. destruct (E5 k Hk) as [c [C1 [C2 C3]]].
      destruct (sim_find _ _ c (sims_sym _ _ S) C1) as [d [D1 [D2 D3]]]. exists d. split; auto. split; [congruence|]. eapply incl_tran; eauto.
    + intros i a Hi. change (In i (jt_bbn_ids j)) in Hi. apply Hid in Hi. auto.
    + rewrite Ep. apply (hg_fam _ _ _ _ J2). apply Hid; auto.
  - intros i. rewrite Ev. apply J4.
Qed.

(** apply keeps the cliques nodes have, and gives the tree the parents of the network *)
Lemma apply_keeps N nm b o b' j : nshape N -> bgood N nm b -> ord_ok o -> apply o b = Ok (b', j) ->
  (forall i k, option_map n_mclq (dget (g_nodes (b_g b)) i) = Some (Some k) -> option_map n_mclq (dget (jt_heap j) i) = Some (Some k)) /\
  (forall i, In i (vars N) -> dgets (jt_pinfo j) i = par N i).
Proof.
  intros HN HB Ho E. destruct (compile_full N nm b HN HB o Ho) as [u [Ks [j0 [F [C1 [C2 [C3 [C4 [C5 [C6 [C7 [C8 [C9 [C10 [C11 _]]]]]]]]]]]]]]].
  rewrite apply_compile, C1 in E. cbn [rbind] in E. destruct (infer o j0) as [j1|] eqn:E1; cbn [rbind] in E; [|discriminate]. injection E as _ <-.
  pose proof (keeps_infer _ _ _ E1) as K. split.
  - intros i k Hk. simpl. apply (kp_m _ _ K). rewrite C7. destruct (dget (g_nodes (b_g b)) i) as [n|] eqn:En; [|discriminate]. simpl in Hk.
    assert (Hi : In i (vars N)). { rewrite <- (bg_ids _ _ _ HB). unfold ids. eapply dget_Some_key; eauto. }
    destruct (hm_get N nm b HB i Hi) as [m [Hm Em]]. rewrite Em. assert (Eg : dget (g_nodes (b_g b)) i = Some m).
    { apply dget_In_NoDup; auto. pose proof (bg_ids _ _ _ HB) as B. unfold ids in B. rewrite B. apply (ns_nd _ HN). }
    rewrite En in Eg. injection Eg as <-. exact Hk.
  - intros i Hi. simpl. rewrite (kp_p _ _ K), C11. rewrite pinfo_get. apply (bg_par _ _ _ HB).
    + assert (Ek : map n_id (get_nodes (gp N b)) = vars N).
      { rewrite <- (ids_gp N nm b HB). unfold get_nodes, dvals, ids, dkeys. rewrite map_map. apply map_ext_in. intros [k n] Hk. simpl. apply (kid_gp N nm b HB k n Hk). }
      rewrite Ek. apply (ns_nd _ HN).
    + rewrite <- (ids_gp N nm b HB) in Hi. unfold get_nodes, dvals. rewrite map_map. unfold ids, dkeys in Hi. apply in_map_iff in Hi. destruct Hi as [[k n] [<- Hk]].
      apply in_map_iff. exists (k, n). split; auto. simpl. apply (kid_gp N nm b HB k n Hk).
Qed.

Lemma stored_net N N' nm L j h h' : vars N' = vars N -> dom N' = dom N -> stored N nm L (set_jheap j h) -> jnet N' nm (set_jheap j h') -> stored N' nm L (set_jheap j h').
Proof.
  intros Ev Ed [S1 S2 S3 S4] HJ. constructor; auto; [rewrite Ed; exact S2|]. unfold unitL. rewrite Ev, Ed. exact S4.
Qed.

Lemma put_nth {A} (l : list A) : forall k a, nth_error l k = Some a -> forall b m, nth_error (put l k b) m = if Nat.eqb m k then Some b else nth_error l m.
Proof.
  induction l as [|x l IH]; intros [|k] a H b m; simpl in *; try discriminate.
  - destruct m; auto.
  - destruct m; auto. simpl. eapply IH; eauto.
Qed.
Lemma put_Forall2 {A B} (R : A -> B -> Prop) l l' : Forall2 R l l' -> forall k a b, R a b -> Forall2 R (put l k a) (put l' k b).
Proof. induction 1 as [|x y l l' H1 H2 IH]; intros k a b Hab; simpl; auto. destruct k; auto. Qed.
Lemma nth_Forall2 {A B} (R : A -> B -> Prop) l l' : Forall2 R l l' -> forall k, k < List.length l -> exists a b, nth_error l k = Some a /\ nth_error l' k = Some b /\ R a b.
Proof.
  induction 1 as [|x y l l' H1 H2 IH]; intros k Hk; simpl in *; [lia|]. destruct k; simpl; [exists x, y; auto|]. apply IH; lia.
Qed.

Section Many.
  Context (ops : list bop) (HW : well_shaped ops) (jr : jtree) (Hr : compile ord_id (build ops) = Ok jr).
  Notation nm := (net_name ops).
  Notation N0 := (net_of ops).

  Record alike (N : net) : Prop := { al_shape : nshape N; al_vars : vars N = vars N0; al_dom : dom N = dom N0; al_par : par N = par N0 }.

  (** a tree that holds the node objects [h] of the network, whose potentials are those of [U] *)
  Record both (U : net) (h : heap) (s : situation) (j : jtree) : Prop := {
    bo_alike : alike (fst s);
    bo_st : stored U nm (fst (snd s)) (set_jheap j h);
    bo_par : forall i, In i (vars N0) -> dgets (jt_pinfo j) i = par N0 i;
    bo_live : exists ev h0, live (fst s) nm (snd (snd s)) (set_jheap (set_jevid j ev) h0) /\ faces h0 h;
    bo_tight : tight N0 j;
    bo_placed : placed N0 (set_jheap j h);
    bo_cl : Forall2 clsim (jt_cliques jr) (jt_cliques j);
    bo_conn : connected ops -> jconn j }.
  (** a tree with node objects of its own *)
  Record own (s : situation) (j : jtree) : Prop := {
    ow_alike : alike (fst s);
    ow_sit : situated ops s j;
    ow_tight : tight N0 j;
    ow_placed : placed N0 j;
    ow_conn : connected ops -> jconn j }.
  Definition tree_ok (U : net) (h : heap) (q : bool * situation) (p : bool * jtree) : Prop :=
    fst q = fst p /\ if fst p then both U h (snd q) (snd p) else own (snd q) (snd p).
  Record fine (s : scene) (w : world) : Prop := {
    fi_now : alike (sc_now s);
    fi_used : alike (sc_used s);
    fi_good : bgood (sc_now s) nm (w_bbn w);
    fi_mclq : forall i n k, In (i, n) (g_nodes (b_g (w_bbn w))) -> n_mclq n = Some k -> exists c, first_holding N0 (jt_cliques jr) i c /\ k = cl_id c;
    fi_trees : Forall2 (tree_ok (sc_used s) (g_nodes (b_g (w_bbn w)))) (sc_trees s) (w_trees w) }.

  Lemma alike_names N : alike N -> NoDup (map nm (vars N)).
  Proof using HW. intros A. rewrite (al_vars _ A). apply (ws_names _ HW). Qed.
  Lemma alike_replaced N cpts : alike N -> fitting N cpts -> alike (replaced N cpts).
  Proof using. intros [A1 A2 A3 A4] F. constructor; auto. apply replaced_shape; auto. Qed.

  Lemma both_settled U h s j : both U h s j -> alike U -> settled (set_jheap j h).
  Proof using.
    intros B A i Hi. apply (jn_ids _ _ _ (st_net _ _ _ _ (bo_st _ _ _ _ B))) in Hi. rewrite (al_vars _ A) in Hi. destruct (bo_placed _ _ _ _ B i Hi) as [c [_ H]]. apply homed_id in H. eauto.
  Qed.

  (** ** an evidence call on a tree that shares the nodes *)
  Lemma tell_both U h s j o c : both U h s j -> alike U -> ord_ok o -> valid_call N0 c ->
    exists j', do_call o (set_jheap j h) c = (j', None) /\ jt_heap j' = h /\ both U h (snd (told U (true, s) c)) j'.
  Proof using HW.
    intros B A Ho Hv. pose proof B as [B0 B1 B2 B3 B4 B5 B6 B7]. destruct s as [N [L S]]. simpl in *.
    destruct (call_kept U nm (ns_nd _ (al_shape _ A)) (alike_names _ A) (ns_dom _ (al_shape _ A)) o L (set_jheap j h) c Ho B1) as [j' [E [K1 K2]]].
    { eapply valid_call_net; [| |exact Hv]; apply A. }
    pose proof (call_heap _ _ _ _ _ (both_settled _ _ _ _ B A) E) as Hh. pose proof (keeps_call _ _ _ _ _ E) as K. simpl in Hh.
    assert (EV : vars U = vars N) by (rewrite (al_vars _ A), (al_vars _ B0); auto). assert (ED : dom U = dom N) by (rewrite (al_dom _ A), (al_dom _ B0); auto).
    assert (Ej : set_jheap j' h = j') by (rewrite <- Hh; destruct j'; auto).
    exists j'. split; auto. split; auto. rewrite (quiets_net N U L c EV ED) in K2. unfold step. simpl.
    assert (EF : effect U L c = effect N L c). { pose proof (step_net N U (L, S) c EV ED) as Q. unfold step in Q. simpl in Q. injection Q. auto. } rewrite EF in *.
    constructor; cbn [fst snd].
    - destruct (negb _); auto.
    - rewrite Ej. exact K1.
    - rewrite (kp_p _ _ K). exact B2.
    - destruct (forallb (quiet N L) (about N L c)) eqn:Q; simpl.
      + destruct K2 as [ev ->]. destruct B3 as [ev' [h0 [H1 H2]]]. exists ev', h0. split; auto.
      + exists (jt_evid j'), h. split; [|intros i; auto]. assert (Ej2 : set_jheap (set_jevid j' (jt_evid j')) h = j') by (rewrite <- Hh; destruct j'; auto). rewrite Ej2. exact K2.
    - apply tight_ext with j; auto. apply (kp_n _ _ K).
    - rewrite Ej. apply placed_keeps with (set_jheap j h); auto.
    - unfold jt_cliques. rewrite (kp_n _ _ K). exact B6.
    - intros Hc. apply jconn_ext with j; auto. apply (kp_n _ _ K).
  Qed.

  Lemma shared_same b j : jt_heap j = g_nodes (b_g b) -> shared b j = b.
  Proof using. intros E. unfold shared, set_graph_nodes. rewrite E. destruct b as [[g1 g2 g3 g4] p]; auto. Qed.

  (** ** assigning CPTs to the nodes leaves the trees alone *)
  Lemma assign_get b cpts i : dget (g_nodes (b_g (assign b cpts))) i = match dget cpts i with Some c => option_map (fun n => set_probs n c) (dget (g_nodes (b_g b)) i) | None => dget (g_nodes (b_g b)) i end.
  Proof using.
    unfold assign. simpl. induction (g_nodes (b_g b)) as [|[k n] l IH]. { simpl. destruct (dget cpts i); auto. }
    cbn [map fst snd]. destruct (dget cpts k) as [c|] eqn:Ek; cbn [dget]; change (eqb i k) with (Z.eqb i k); destruct (Z.eqb_spec i k) as [->|Hne]; rewrite ?Ek; auto.
  Qed.
  Lemma assign_pface b cpts i : option_map pface (dget (g_nodes (b_g (assign b cpts))) i) = option_map pface (dget (g_nodes (b_g b)) i).
  Proof using. rewrite assign_get. destruct (dget cpts i); auto. destruct (dget (g_nodes (b_g b)) i); auto. Qed.
  Lemma pface_face h h' : (forall i, option_map pface (dget h' i) = option_map pface (dget h i)) -> faces h h'.
  Proof using.
    intros F i. specialize (F i). destruct (dget h i), (dget h' i); simpl in *; try discriminate; auto. injection F. unfold pface, face. intros. congruence.
  Qed.
  Lemma faces_trans h1 h2 h3 : faces h1 h2 -> faces h2 h3 -> faces h1 h3.
  Proof using. intros A B i. rewrite A. apply B. Qed.
  Lemma placed_faces N j h h' : faces h h' -> placed N (set_jheap j h) -> placed N (set_jheap j h').
  Proof using.
    intros F H i Hi. destruct (H i Hi) as [c [H1 H2]]. exists c. split; auto. apply homed_id. apply homed_id in H2. simpl in *. specialize (F i).
    destruct (dget h i), (dget h' i); simpl in *; try discriminate. injection F as _ _ _ F. congruence.
  Qed.
  Lemma both_heap U U' h h' s j : both U h s j -> faces h h' -> alike U -> alike U' -> jnet U' nm (set_jheap j h') -> both U' h' s j.
  Proof using.
    intros [B0 B1 B2 B3 B4 B5 B6 B7] F A A' HJ. constructor; auto.
    - apply stored_net with (N := U) (h := h); auto; [rewrite (al_vars _ A), (al_vars _ A'); auto|rewrite (al_dom _ A), (al_dom _ A'); auto].
    - destruct B3 as [ev [h0 [H1 H2]]]. exists ev, h0. split; auto. eapply faces_trans; eauto.
    - eapply placed_faces; eauto.
  Qed.
  Lemma trees_heap U U' h h' qs ps : Forall2 (tree_ok U h) qs ps -> (forall s j, both U h s j -> both U' h' s j) -> Forall2 (tree_ok U' h') qs ps.
  Proof using.
    intros H F. induction H as [|q p qs ps [H1 H2] H IH]; constructor; auto. split; auto. destruct (fst p); auto.
  Qed.

  (** ** apply once more *)
  Lemma apply_fine s w o : fine s w -> ord_ok o -> exists b j, apply o (w_bbn w) = Ok (b, j) /\ bgood (sc_now s) nm b /\
    (forall i n k, In (i, n) (g_nodes (b_g b)) -> n_mclq n = Some k -> exists c, first_holding N0 (jt_cliques jr) i c /\ k = cl_id c) /\
    both (sc_now s) (g_nodes (b_g b)) (sc_now s, (no_evidence, no_evidence)) j /\
    (forall t j0, both (sc_used s) (g_nodes (b_g (w_bbn w))) t j0 -> both (sc_now s) (g_nodes (b_g b)) t j0).
  Proof using HW Hr.
    intros [F1 F2 F3 F4 F5] Ho. set (N := sc_now s) in *. set (h := g_nodes (b_g (w_bbn w))) in *.
    assert (HF : forall i n k, In (i, n) (g_nodes (b_g (w_bbn w))) -> n_mclq n = Some k -> exists c, first_holding N (jt_cliques jr) i c /\ k = cl_id c).
    { intros i n k Hn Hk. destruct (F4 i n k Hn Hk) as [c [C1 C2]]. exists c. split; auto. unfold first_holding in *. rewrite (al_par _ F1). exact C1. }
    destruct (apply_together ops HW jr Hr N (w_bbn w) o (al_vars _ F1) (al_dom _ F1) (al_par _ F1) (al_shape _ F1) F3 Ho) as [b [j [A1 A2]]].
    { intros i n k Hn Hk. destruct (HF i n k Hn Hk) as [c [[C1 [C2 _]] C3]]. exists c. auto. }
    destruct (apply_places ops HW jr Hr N (w_bbn w) o (al_vars _ F1) (al_dom _ F1) (al_par _ F1) (al_shape _ F1) F3 Ho HF b j A1) as [T P].
    destruct (apply_keeps N nm (w_bbn w) o b j (al_shape _ F1) F3 Ho A1) as [KM KP].
    pose proof A2 as [S1 S2 S3 S4 S5 S6 S7 S8 S9]. cbn [fst snd] in *.
    assert (ND : forall b', bgood N nm b' -> NoDup (dkeys (g_nodes (b_g b')))). { intros b' B. pose proof (bg_ids _ _ _ B) as Q. unfold ids in Q. rewrite Q. apply (ns_nd _ (al_shape _ F1)). }
    assert (T0 : tight N0 j). { apply (tight_net N); [rewrite (al_vars _ F1); auto|rewrite (al_par _ F1); auto|auto]. }
    assert (P0 : placed N0 j). { apply (placed_net N); [rewrite (al_vars _ F1); auto|rewrite (al_par _ F1); auto|auto]. }
    exists b, j. split; auto. split; auto. split; [|split].
    - intros i n k Hn Hk. assert (Hi : In i (vars N0)). { rewrite <- (al_vars _ F1), <- (bg_ids _ _ _ S6). unfold ids, dkeys. apply in_map_iff. exists (i, n); auto. }
      destruct (P0 i Hi) as [c [C1 C2]]. apply homed_id in C2. assert (G : dget (jt_heap j) i = Some n). { rewrite <- S7. apply dget_In_NoDup; auto. }
      rewrite G in C2. simpl in C2. assert (Ec : k = cl_id c) by congruence. destruct (sim_find _ _ c (sims_sym _ _ S8) (proj1 C1)) as [d [D1 [D2 D3]]].
      exists d. split; [|congruence]. exact (first_sim N0 _ _ i c d (sims_sym _ _ S8) C1 D1 D2 D3).
    - rewrite S7. assert (Ej : set_jheap j (jt_heap j) = j) by (destruct j; auto). constructor; cbn [fst snd]; auto.
      + rewrite Ej. apply S5.
      + rewrite <- (al_vars _ F1), <- (al_par _ F1). exact KP.
      + destruct (sw_live _ _ _ _ _ S5) as [ev Hl]. exists ev, (jt_heap j). split; [|intros i; auto]. exact Hl.
    - intros t j0 B. rewrite S7.
      assert (FF : faces h (jt_heap j)).
      { intros i. destruct (dget h i) as [n|] eqn:En.
        - assert (Hi : In i (vars N)). { rewrite <- (bg_ids _ _ _ F3). unfold ids. eapply dget_Some_key; eauto. }
          assert (Hi' : In i (dkeys (jt_heap j))). { rewrite <- S7. pose proof (bg_ids _ _ _ S6) as Q. unfold ids in Q. rewrite Q. auto. }
          apply dkeys_dget in Hi'. destruct Hi' as [m Em]. rewrite Em.
          destruct (bg_node _ _ _ F3 i n (dget_In _ _ _ En)) as [X1 [X2 [X3 X4]]].
          destruct (bg_node _ _ _ S6 i m) as [Y1 [Y2 [Y3 Y4]]]. { rewrite S7. apply dget_In. auto. }
          rewrite (al_vars _ F1) in Hi. destruct (bo_placed _ _ _ _ B i Hi) as [c [C1 C2]]. apply homed_id in C2. simpl in C2. pose proof (KM i (cl_id c)) as Q. fold h in Q. rewrite En, Em in *. simpl in *.
          specialize (Q C2). unfold face. congruence.
        - assert (E : dget (jt_heap j) i = None). { apply dget_None. rewrite <- S7. pose proof (bg_ids _ _ _ S6) as Q. unfold ids in Q. rewrite Q. rewrite <- (bg_ids _ _ _ F3). unfold ids. apply dget_None. auto. }
          rewrite E. auto. }
      eapply both_heap; [exact B|exact FF|auto|auto|].
      apply (transplant (sc_used s) N nm (set_jheap j0 h) j).
      + rewrite (al_vars _ F1), (al_vars _ F2); auto.
      + rewrite (al_par _ F1), (al_par _ F2); auto.
      + apply (st_net _ _ _ _ (bo_st _ _ _ _ B)).
      + apply (st_net _ _ _ _ (sw_st _ _ _ _ _ S5)).
      + eapply sims_trans; [apply sims_sym; exact (bo_cl _ _ _ _ B)|exact S8].
  Qed.

  (** ** reapply *)
  Lemma copy_both U N b s j o cpts : both U (g_nodes (b_g b)) s j -> alike U -> alike N -> bgood N nm b -> ord_ok o -> fitting N cpts ->
    exists j', reapply o (set_jheap j (g_nodes (b_g b))) cpts = Ok j' /\ own (replaced N cpts, (no_evidence, no_evidence)) j'.
  Proof using HW.
    intros B A A' G Ho HF. set (h := g_nodes (b_g b)) in *. pose proof (alike_replaced _ _ A' HF) as AR.
    pose proof (st_net _ _ _ _ (bo_st _ _ _ _ B)) as [J1 J2 J3 J4 J5 J6].
    assert (EV : vars U = vars N) by (rewrite (al_vars _ A), (al_vars _ A'); auto). assert (EP : par U = par N) by (rewrite (al_par _ A), (al_par _ A'); auto).
    assert (R : ready N nm (set_jheap j h)).
    { constructor; auto.
      - intros i. rewrite <- EV. apply J4.
      - intros i Hi. rewrite (al_vars _ A') in Hi. rewrite (al_par _ A'). apply (bo_par _ _ _ _ B); auto.
      - intros i Hi. assert (Hd : In i (dkeys h)). { pose proof (bg_ids _ _ _ G) as Q. unfold ids in Q. unfold h. rewrite Q. auto. } apply dkeys_dget in Hd. destruct Hd as [n En].
        destruct (bg_node _ _ _ G i n (dget_In _ _ _ En)) as [X1 [X2 [X3 X4]]]. exists n. split; auto. split; auto. split; auto. split; auto. split; auto.
        intros k Hk. destruct (hg_node _ _ _ _ J2 i) as [m [Em [_ [_ [_ [_ Q]]]]]]. { apply J4. rewrite EV. auto. } simpl in Em. rewrite En in Em. injection Em as <-. rewrite <- EP. apply Q; auto.
      - intros i Hi. rewrite <- EP. apply (hg_fam _ _ _ _ J2). apply J4. rewrite EV. auto. }
    destruct (serde_live (replaced N cpts) nm (al_shape _ AR) (alike_names _ AR) o _ Ho (update_ready _ _ _ _ R HF)) as [j' [C1 [C2 [C3 [C4 C5]]]]].
    exists j'. split; [exact C1|]. assert (En : jt_nodes j' = jt_nodes j) by exact C4. constructor; cbn [fst snd]; auto.
    - constructor; cbn [fst snd]; auto; try apply AR. apply live_shows; auto. apply unit_none.
    - apply tight_ext with j; auto. apply B.
    - eapply placed_stays; [eapply reapply_stays; exact C1|]. apply (bo_placed _ _ _ _ B).
    - intros Hc. apply jconn_ext with j; auto. apply (bo_conn _ _ _ _ B Hc).
  Qed.
  Lemma own_deed s j d : own s j -> deed_ok N0 d -> exists j', do_deed j d = Ok j' /\ own (after s d) j'.
  Proof using HW.
    intros [O1 O2 O3 O4 O5] Hd. assert (Hd' : deed_ok (fst s) d).
    { destruct d as [o c|o cpts]; destruct Hd as [H1 H2]; (split; [exact H1|]); [eapply valid_call_net; [| |exact H2]; apply O1|eapply fitting_net; [| | |exact H2]; apply O1]. }
    destruct (situated_after ops s j d HW O2 Hd') as [j' [E1 [E2 [E3 E4]]]]. exists j'. split; auto. constructor; auto.
    - destruct d as [o c|o cpts]; simpl; auto. apply alike_replaced; auto. apply Hd'.
    - apply tight_ext with j; auto.
    - eapply placed_stays; [eapply deed_stays; exact E1|auto].
    - intros Hc. apply jconn_ext with j; auto.
  Qed.

  (** ** every move *)
  Lemma move_fine s w m : fine s w -> move_ok s m -> exists w', do_move w m = Ok w' /\ fine (ensue s m) w'.
  Proof using HW Hr.
    intros HF Hm. pose proof HF as [F1 F2 F3 F4 F5]. destruct m as [k o c|cpts|o|k o cpts]; simpl in Hm.
    - destruct Hm as [Hk [Ho Hv]]. assert (Hv0 : valid_call N0 c). { eapply valid_call_net; [| |exact Hv]; symmetry; apply F1. }
      destruct (nth_Forall2 _ _ _ F5 k Hk) as [[b s0] [[b' j] [E1 [E2 [E3 E4]]]]]. simpl in E3, E4. subst b'. simpl. rewrite E1, E2. unfold seen. cbn [fst snd]. destruct b.
      + destruct (tell_both _ _ _ _ o c E4 F2 Ho Hv0) as [j' [D1 [D2 D3]]]. rewrite D1. eexists. split; [reflexivity|]. rewrite (shared_same _ _ D2). constructor; simpl; auto.
        apply put_Forall2; auto. split; auto.
      + destruct (own_deed s0 j (Evidence o c) E4 (conj Ho Hv0)) as [j' [D1 D2]]. simpl in D1. destruct (do_call o j c) as [j1 [x|]]; [discriminate|]. injection D1 as ->. eexists. split; [reflexivity|]. constructor; simpl; auto.
        apply put_Forall2; auto. split; auto.
    - exists (mkWorld (assign (w_bbn w) cpts) (w_trees w)). split; [reflexivity|]. constructor; simpl; auto.
      + apply alike_replaced; auto.
      + apply good_assign; auto.
      + intros i n k Hn Hk. destruct (assign_mclq _ _ _ _ Hn) as [m [M1 M2]]. apply (F4 i m); auto. congruence.
      + apply (trees_heap (sc_used s) (sc_used s) (g_nodes (b_g (w_bbn w)))); auto. intros t j B. eapply both_heap; [exact B| |auto|auto|].
        * apply pface_face. intros i. apply assign_pface.
        * apply (jnet_heap _ _ (set_jheap j (g_nodes (b_g (w_bbn w))))). apply (st_net _ _ _ _ (bo_st _ _ _ _ B)). intros i. apply assign_pface.
    - destruct (apply_fine s w o HF Hm) as [b [j [A1 [A2 [A3 [A4 A5]]]]]]. simpl. rewrite A1. cbn [rbind fst snd]. eexists. split; [reflexivity|]. constructor; simpl; auto.
      apply Forall2_app; [|constructor; [split; auto|constructor]]. eapply trees_heap; eauto.
    - destruct Hm as [Hk [Ho Hv]]. destruct (nth_Forall2 _ _ _ F5 k Hk) as [[b s0] [[b' j] [E1 [E2 [E3 E4]]]]]. simpl in E3, E4. subst b'. simpl. rewrite E1, E2. unfold seen. cbn [fst snd]. destruct b.
      + destruct (copy_both _ _ _ _ _ o cpts E4 F2 F1 F3 Ho Hv) as [j' [D1 D2]]. rewrite D1. cbn [rbind]. eexists. split; [reflexivity|]. constructor; simpl; auto.
        apply Forall2_app; auto. constructor; [split; auto|constructor].
      + destruct (own_deed s0 j (Reapply o cpts) E4) as [j' [D1 D2]]. { split; auto. eapply fitting_net; [| | |exact Hv]; symmetry; apply F1. }
        simpl in D1. rewrite D1. cbn [rbind]. eexists. split; [reflexivity|]. constructor; simpl; auto.
        apply Forall2_app; auto. constructor; [split; auto|constructor].
  Qed.
  Lemma moves_fine ms : forall s w, fine s w -> moves_ok s ms -> exists w', foldM do_move ms w = Ok w' /\ fine (fold_left ensue ms s) w'.
  Proof using HW Hr.
    induction ms as [|m ms IH]; intros s w HF Hm; simpl in *. { exists w; auto. }
    destruct Hm as [H1 H2]. destruct (move_fine s w m HF H1) as [w1 [E1 G1]]. rewrite E1. cbn [rbind]. apply IH; auto.
  Qed.
  Lemma opening_fine : fine (opening ops) (mkWorld (build ops) []).
  Proof using HW.
    assert (A : alike N0) by (constructor; auto; apply net_shape; auto). constructor; simpl; auto. apply build_good.
    intros i n k Hn Hk. rewrite (build_fresh ops HW i n Hn) in Hk. discriminate.
  Qed.

  (** ** what the trees answer *)
  Lemma tree_answers s w q p : fine s w -> tree_ok (sc_used s) (g_nodes (b_g (w_bbn w))) q p ->
    exists t, get_posteriors (seen w p) = Ok t /\ described (fst (snd q)) nm (snd (snd (snd q))) (jt_cliques (snd p)) t /\
      (connected ops -> exact_table (fst (snd q)) nm (snd (snd (snd q))) t).
  Proof using HW.
    intros HF [E H]. destruct q as [b [N [L S]]], p as [b' j]. simpl in *. subst b'. unfold seen. cbn [fst snd].
    assert (Q : exists j', situ N nm S j' /\ jt_nodes j' = jt_nodes j /\ get_posteriors (if b then set_jheap j (g_nodes (b_g (w_bbn w))) else j) = get_posteriors j' /\ alike N /\ (connected ops -> jconn j)).
    { destruct b.
      - destruct H as [B0 B1 B2 B3 B4 B5 B6 B7]. simpl in *. destruct B3 as [ev [h0 [H1 H2]]]. exists (set_jheap (set_jevid j ev) h0). split; [|split; [|split; [|split]]]; auto.
        + constructor.
          * exists ev. exact H1.
          * apply tight_ext with j; auto. apply (tight_net N0); [apply (al_vars _ B0)|apply (al_par _ B0)|auto].
          * apply (placed_net N0); [apply (al_vars _ B0)|apply (al_par _ B0)|].
            apply (placed_faces N0 (set_jevid j ev) (g_nodes (b_g (w_bbn w)))); auto. intros i. symmetry. apply H2.
        + change (set_jheap j (g_nodes (b_g (w_bbn w)))) with (set_jheap (set_jheap j h0) (g_nodes (b_g (w_bbn w)))). rewrite posteriors_face by exact H2. reflexivity.
      - destruct H as [B0 B1 B2 B3 B4]. exists j. split; [|auto]. constructor.
        + apply (sw_live _ _ _ _ _ (L_Reapply.si_shows _ _ _ B1)).
        + apply (tight_net N0); [apply (al_vars _ B0)|apply (al_par _ B0)|auto].
        + apply (placed_net N0); [apply (al_vars _ B0)|apply (al_par _ B0)|auto]. }
    destruct Q as [j' [Q1 [Q2 [Q3 [Q4 Q5]]]]]. destruct (situ_described N nm S j' (al_shape _ Q4) (alike_names _ Q4) Q1) as [t [T1 T2]].
    exists t. split. { rewrite Q3. exact T1. } split. { rewrite <- (nodes_cl j j' Q2). exact T2. }
    intros Hc. destruct (L_Part2.si_live _ _ _ _ Q1) as [ev Hl]. destruct (live_exact_table N nm _ _ (ns_nd _ (al_shape _ Q4)) (alike_names _ Q4) Hl) as [t' [B1 B2]]. { apply jconn_ext with j; auto. }
    assert (Et : t' = t). { assert (E : Ok t' = Ok t) by (rewrite <- T1, <- B1; reflexivity). injection E. auto. } subst. exact B2.
  Qed.
End Many.
