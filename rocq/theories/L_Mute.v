(** Ignored CPTs: a tree whose nodes store cliques without their parents behaves as the tree of the network without these CPTs. *)
From Verif Require Import Py M_Graph M_Node M_Pptc Spec SpecNet SpecEv SpecRe SpecAgain SpecMute L_Base L_PD L_Sums L_Table L_Tree L_Walk L_Forest L_Root L_Good L_Prop L_Init L_Post L_Read
  L_Ids L_Trans L_Elim L_UG L_Tri L_Moral L_Build L_Exact L_Apply L_Net L_Evid L_Hist L_Claims L_Shape L_Shown L_P1 L_Reapply L_Det L_Again.
Open Scope nat_scope.

Definition rmap {A B} (f : A -> B) (r : res A) : res B := match r with Ok a => Ok (f a) | Err x => Err x end.

Lemma multiply_one p q : (forall e, In e q -> pe_val e = 1%Qc) -> multiply p q = p.
Proof.
  unfold multiply. revert p. induction q as [|e q IH]; intros p H; simpl; auto. rewrite IH by (intros; apply H; right; auto).
  rewrite <- (map_id p) at 2. apply map_ext. intros x. rewrite (H e) by (left; auto). destruct (pe_matches x e); auto. rewrite Qcmult_1_r. destruct x; auto.
Qed.
Definition within (p : potential) (A : list Z) : Prop := forall e, In e p -> incl (dkeys (pe_map e)) A.
Definition misses (q : potential) (A : list Z) : Prop := forall e, In e q -> exists b, In b (dkeys (pe_map e)) /\ ~ In b A.
Lemma multiply_miss p q A : within p A -> misses q A -> multiply p q = p.
Proof.
  unfold multiply. revert p. induction q as [|e q IH]; intros p Hp Hq; simpl; auto.
  assert (E : map (fun x => if pe_matches x e then mkPE (pe_map x) (pe_val x * pe_val e)%Qc else x) p = p).
  { rewrite <- (map_id p) at 2. apply map_ext_in. intros x Hx. destruct (pe_matches x e) eqn:M; auto. exfalso. destruct (Hq e (or_introl eq_refl)) as [b [B1 B2]].
    unfold pe_matches in M. rewrite forallb_forall in M. unfold dkeys in B1. apply in_map_iff in B1. destruct B1 as [[b' v] [Eb B1]]. simpl in Eb. subst b'.
    specialize (M _ B1). simpl in M. destruct (dget (pe_map x) b) as [w|] eqn:Ew; [|discriminate]. apply B2. apply (Hp x Hx). eapply dget_Some_key; eauto. }
  rewrite E. apply IH; auto. intros d Hd; apply Hq; right; auto.
Qed.
Lemma within_multiply p q A : within p A -> within (multiply p q) A.
Proof.
  unfold multiply. revert p. induction q as [|e q IH]; intros p Hp; simpl; auto. apply IH. intros x Hx. apply in_map_iff in Hx. destruct Hx as [y [<- Hy]].
  destruct (pe_matches y e); simpl; apply Hp; auto.
Qed.

Section Mute.
  Context (dm : Z -> list string) (D : Z -> bool).

  Definition mute (i : Z) (n : bnode) : bnode :=
    if D i then mkBnode (n_id n) (n_name n) (n_values n) (n_probs n) (Some (tab dm [i] (fun _ => 1%Qc))) (Some []) (n_mclq n) else n.
  Definition hmute (h : heap) : heap := map (fun p => (fst p, mute (fst p) (snd p))) h.
  Definition muted (j : jtree) : jtree := set_jheap j (hmute (jt_heap j)).

  Lemma mute_id i n : n_id (mute i n) = n_id n. Proof. unfold mute; destruct (D i); auto. Qed.
  Lemma mute_name i n : n_name (mute i n) = n_name n. Proof. unfold mute; destruct (D i); auto. Qed.
  Lemma mute_values i n : n_values (mute i n) = n_values n. Proof. unfold mute; destruct (D i); auto. Qed.
  Lemma mute_mclq i n : n_mclq (mute i n) = n_mclq n. Proof. unfold mute; destruct (D i); auto. Qed.
  Lemma mute_set i n c : mute i (set_mclq n c) = set_mclq (mute i n) c. Proof. unfold mute; destruct (D i); auto. Qed.

  Lemma hmute_dget h i : dget (hmute h) i = option_map (mute i) (dget h i).
  Proof. unfold hmute. induction h as [|[k n] h IH]; simpl; auto. destruct (Z.eqb_spec i k) as [->|]; auto. Qed.
  Lemma hmute_hupd h i c : hmute (hupd h i (fun n => set_mclq n c)) = hupd (hmute h) i (fun n => set_mclq n c).
  Proof. unfold hmute, hupd. rewrite !map_map. apply map_ext. intros [k n]. simpl. destruct (Z.eqb _ _); simpl; rewrite ?mute_set; auto. Qed.
  Lemma hmute_values h i : h_values (hmute h) i = h_values h i.
  Proof. unfold h_values. rewrite hmute_dget. destruct (dget h i); simpl; auto. apply mute_values. Qed.
  Lemma hmute_name h i : h_name (hmute h) i = h_name h i.
  Proof. unfold h_name. rewrite hmute_dget. destruct (dget h i); simpl; auto. apply mute_name. Qed.
  Lemma hmute_nv h l : h_nv (hmute h) l = h_nv h l.
  Proof. unfold h_nv. apply map_ext. intros i. rewrite hmute_values. auto. Qed.

  Lemma muted_add j k p : add_potential (muted j) k p = muted (add_potential j k p). Proof. reflexivity. Qed.
  Lemma muted_init_pots j : init_pots (muted j) = muted (init_pots j).
  Proof.
    unfold init_pots.
    assert (F : forall {X} (key : X -> string) (sc : X -> list Z) l j, fold_left (fun j x => add_potential j (key x) (potential_from_nodes (h_nv (jt_heap j) (sc x)))) l (muted j) =
      muted (fold_left (fun j x => add_potential j (key x) (potential_from_nodes (h_nv (jt_heap j) (sc x)))) l j)).
    { intros X key sc l. induction l as [|x l IH]; intros j0; simpl; auto. rewrite <- IH. f_equal. rewrite hmute_nv. reflexivity. }
    rewrite (F _ cl_id cl_nodes). change (jt_cliques (muted j)) with (jt_cliques j). rewrite (F _ ss_id ss_nodes). reflexivity.
  Qed.

  (** the displaced nodes *)
  Definition away (j : jtree) : Prop :=
    forall i n, dget (jt_heap j) i = Some n -> D i = true -> exists c q, In c (jt_cliques j) /\ n_mclq n = Some (cl_id c) /\ n_pot n = Some q /\ misses q (cl_nodes c).
  Definition keyed (j : jtree) : Prop :=
    forall c p, In c (jt_cliques j) -> dget (jt_pots j) (cl_id c) = Some p -> within p (cl_nodes c).

  Lemma muted_get_clique j i : away j -> get_clique (muted j) i = rmap (fun cj => (fst cj, muted (snd cj))) (get_clique j i).
  Proof.
    intros HA. unfold get_clique, dgetE. change (jt_heap (muted j)) with (hmute (jt_heap j)). rewrite hmute_dget. destruct (dget (jt_heap j) i) as [n|] eqn:En; cbn [rbind option_map rmap]; auto.
    rewrite mute_mclq. destruct (n_mclq n) as [k|] eqn:Ek; cbn [rmap fst snd]; auto.
    assert (Di : D i = false). { destruct (D i) eqn:Ed; auto. destruct (HA i n En Ed) as [c [q [_ [E _]]]]. congruence. }
    assert (Ef : find_cliques (muted j) i = find_cliques j i). { unfold find_cliques, jt_parent_ids. change (jt_heap (muted j)) with (hmute (jt_heap j)). rewrite hmute_dget, En. simpl. unfold mute. rewrite Di. reflexivity. }
    rewrite Ef. destruct (isort cl_leb (find_cliques j i)) as [|c cs]; auto. cbn [rmap fst snd]. f_equal. f_equal. unfold muted. cbn [jt_heap set_jheap]. rewrite hmute_hupd. reflexivity.
  Qed.
  Lemma get_clique_away j i c j' : away j -> get_clique j i = Ok (c, j') -> away j' /\ jt_pots j' = jt_pots j /\ jt_nodes j' = jt_nodes j /\
    (forall n, dget (jt_heap j') i = Some n -> n_mclq n = Some c).
  Proof.
    intros HA. unfold get_clique, dgetE. destruct (dget (jt_heap j) i) as [n|] eqn:En; cbn [rbind]; [|discriminate]. destruct (n_mclq n) as [k|] eqn:Ek.
    { intros Q. inversion Q; subst. split; auto. split; auto. split; auto. intros m Hm. congruence. }
    destruct (isort cl_leb (find_cliques j i)) as [|d ds]; [discriminate|]. intros Q. inversion Q; subst. split; [|split; [|split]]; auto.
    - intros x m. cbn [jt_heap set_jheap]. rewrite hupd_dget. destruct (Z.eqb_spec i x) as [<-|Hne].
      + rewrite En. simpl. intros E Hd. destruct (HA i n En Hd) as [c' [q [_ [E' _]]]]. congruence.
      + intros E Hd. apply (HA x m); auto.
    - intros m. cbn [jt_heap set_jheap]. rewrite hupd_dget, Z.eqb_refl, En. simpl. intros Q'. inversion Q'; subst. reflexivity.
  Qed.

  Lemma muted_init_node j i : away j -> keyed j -> init_node (muted j) i = rmap muted (init_node j i).
  Proof.
    intros HA HK. unfold init_node. rewrite muted_get_clique by auto. destruct (get_clique j i) as [[c j1]|x] eqn:G; cbn [rbind rmap fst snd]; auto.
    destruct (get_clique_away j i c j1 HA G) as [A1 [A2 [A3 A4]]]. change (jt_pots (muted j1)) with (jt_pots j1). change (jt_heap (muted j1)) with (hmute (jt_heap j1)).
    unfold dgetE. destruct (dget (jt_pots j1) c) as [p|] eqn:Ep; cbn [rbind rmap]; auto. rewrite hmute_dget. destruct (dget (jt_heap j1) i) as [n|] eqn:En; cbn [rbind rmap option_map]; auto.
    specialize (A4 n eq_refl). unfold mute at 1. destruct (D i) eqn:Ed; [|destruct (n_pot n); reflexivity]. cbn [n_pot].
    destruct (A1 i n En Ed) as [d [q [D1 [D2 [D3 D4]]]]]. rewrite D3. cbn [rmap]. rewrite <- muted_add. f_equal. f_equal. rewrite multiply_one.
    - symmetry. apply multiply_miss with (cl_nodes d); auto. apply HK; [unfold jt_cliques in *; rewrite A3 in D1; auto|]. rewrite <- A2. congruence.
    - intros e He. unfold tab in He. apply in_map_iff in He. destruct He as [vs [<- _]]. reflexivity.
  Qed.
  Lemma init_node_kept j i j' : away j -> keyed j -> init_node j i = Ok j' -> away j' /\ keyed j' /\ jt_nodes j' = jt_nodes j.
  Proof.
    intros HA HK. unfold init_node. destruct (get_clique j i) as [[c j1]|x] eqn:G; cbn [rbind]; [|discriminate]. destruct (get_clique_away j i c j1 HA G) as [A1 [A2 [A3 A4]]].
    unfold dgetE. destruct (dget (jt_pots j1) c) as [p|] eqn:Ep; cbn [rbind]; [|discriminate]. destruct (dget (jt_heap j1) i) as [n|] eqn:En; cbn [rbind]; [|discriminate].
    destruct (n_pot n) as [q|]; [|discriminate]. intros Q. inversion Q; subst. split; [exact A1|]. split; [|exact A3].
    intros d r Hd. change (In d (jt_cliques j1)) in Hd. assert (Hd' : In d (jt_cliques j)) by (unfold jt_cliques in *; rewrite <- A3; auto).
    cbn [add_potential set_jpots jt_pots]. destruct (string_dec (cl_id d) c) as [E|E].
    - subst c. rewrite dget_dset_eq. intros Q'. inversion Q'; subst. apply within_multiply. apply (HK d); auto. congruence.
    - rewrite dget_dset_neq by auto. rewrite A2. apply HK; auto.
  Qed.
  Lemma muted_init_nodes l : forall j, away j -> keyed j -> foldM init_node l (muted j) = rmap muted (foldM init_node l j) /\
    (forall j', foldM init_node l j = Ok j' -> away j' /\ jt_nodes j' = jt_nodes j).
  Proof.
    induction l as [|i l IH]; intros j HA HK; cbn [foldM]. { split; auto. intros j' E. inversion E; subst; auto. }
    rewrite muted_init_node by auto. destruct (init_node j i) as [j1|x] eqn:E; cbn [rbind rmap]; [|split; [auto|discriminate]].
    destruct (init_node_kept j i j1 HA HK E) as [A1 [A2 A3]]. destruct (IH j1 A1 A2) as [B1 B2]. split; auto. intros j' Ej. destruct (B2 j' Ej) as [C1 C2]. split; auto. congruence.
  Qed.

  Lemma muted_init_evid j i : init_evid (muted j) i = rmap muted (init_evid j i) /\ (forall j', init_evid j i = Ok j' -> jt_heap j' = jt_heap j /\ jt_nodes j' = jt_nodes j).
  Proof.
    unfold init_evid, dgetE. change (jt_heap (muted j)) with (hmute (jt_heap j)). rewrite hmute_dget. destruct (dget (jt_heap j) i) as [n|] eqn:En; cbn [rbind rmap option_map]; [|split; [auto|discriminate]].
    rewrite mute_values, mute_mclq. generalize (n_values n) as vs. intros vs. clear En. revert j. induction vs as [|v vs IH]; intros j; cbn [foldM]. { split; auto. intros j' E. inversion E; subst; auto. }
    destruct (n_mclq n) as [k|] eqn:Ek; cbn [rbind rmap]; [|split; [auto|discriminate]]. change (jt_pots (muted j)) with (jt_pots j).
    destruct (dget (jt_pots j) k) as [p|]; cbn [rbind rmap]; [|split; [auto|discriminate]].
    unfold get_evidence. change (jt_evid (muted j)) with (jt_evid j). destruct (dget (dgets (jt_evid j) i) v) as [r|]; cbn [rbind].
    - destruct (IH (add_potential (set_jevid j (dset (jt_evid j) i (dgets (jt_evid j) i))) k (multiply p r))) as [B1 B2]. split; [exact B1|]. intros j' E. destruct (B2 j' E). auto.
    - destruct (IH (add_potential (set_jevid j (dset (jt_evid j) i (dset (dgets (jt_evid j) i) v [mkPE [(i, v)] 1%Qc]))) k (multiply p [mkPE [(i, v)] 1%Qc]))) as [B1 B2]. split; [exact B1|]. intros j' E. destruct (B2 j' E). auto.
  Qed.
  Lemma muted_init_evids l : forall j, foldM init_evid l (muted j) = rmap muted (foldM init_evid l j) /\
    (forall j', foldM init_evid l j = Ok j' -> jt_heap j' = jt_heap j /\ jt_nodes j' = jt_nodes j).
  Proof.
    induction l as [|i l IH]; intros j; cbn [foldM]. { split; auto. intros j' E. inversion E; subst; auto. }
    destruct (muted_init_evid j i) as [A1 A2]. rewrite A1. destruct (init_evid j i) as [j1|x]; cbn [rbind rmap]; [|split; [auto|discriminate]].
    destruct (IH j1) as [B1 B2]. split; auto. intros j' E. destruct (B2 j' E). destruct (A2 j1 eq_refl). split; congruence.
  Qed.

  Lemma away_ext j j' : jt_nodes j' = jt_nodes j -> jt_heap j' = jt_heap j -> away j -> away j'.
  Proof. intros E1 E2 H i n. rewrite E2. unfold jt_cliques. rewrite E1. apply H. Qed.

  Lemma init_pots_nodes j : jt_nodes (init_pots j) = jt_nodes j /\ jt_heap (init_pots j) = jt_heap j.
  Proof.
    unfold init_pots. set (j1 := fold_left _ (jt_cliques j) j).
    assert (F : forall {X} (f : jtree -> X -> jtree) l j, (forall j x, jt_nodes (f j x) = jt_nodes j /\ jt_heap (f j x) = jt_heap j) -> jt_nodes (fold_left f l j) = jt_nodes j /\ jt_heap (fold_left f l j) = jt_heap j).
    { intros X f l. induction l as [|x l IH]; intros j0 H; simpl; auto. destruct (IH (f j0 x) H) as [E1 E2]. destruct (H j0 x). split; congruence. }
    destruct (F _ (fun j c => add_potential j (cl_id c) (potential_from_nodes (h_nv (jt_heap j) (cl_nodes c)))) (jt_cliques j) j) as [E1 E2]; auto. fold j1 in E1, E2.
    destruct (F _ (fun j s => add_potential j (ss_id s) (potential_from_nodes (h_nv (jt_heap j) (ss_nodes s)))) (jt_sepsets j1) j1) as [E3 E4]; auto. split; congruence.
  Qed.

  Lemma muted_initialize j : away j -> keyed (init_pots j) -> initialize (muted j) = rmap muted (initialize j) /\
    (forall j', initialize j = Ok j' -> away j' /\ jt_nodes j' = jt_nodes j).
  Proof.
    intros HA HK. unfold initialize. rewrite muted_init_pots. change (jt_bbn_ids (muted (init_pots j))) with (jt_bbn_ids (init_pots j)). destruct (init_pots_nodes j) as [N1 N2].
    destruct (muted_init_nodes (jt_bbn_ids (init_pots j)) (init_pots j)) as [B1 B2]; auto. { eapply away_ext; eauto. }
    rewrite B1. destruct (foldM init_node (jt_bbn_ids (init_pots j)) (init_pots j)) as [j1|x]; cbn [rbind rmap]; [|split; [auto|discriminate]].
    destruct (B2 j1 eq_refl) as [C1 C2]. destruct (muted_init_evids (jt_bbn_ids (init_pots j)) j1) as [E1 E2]. split; auto. intros j' E. destruct (E2 j' E) as [F1 F2].
    split; [eapply away_ext; eauto|congruence].
  Qed.

  (** ** message passing *)
  Lemma muted_pass h ps x s y : pass_message (hmute h) ps x s y = pass_message h ps x s y.
  Proof. unfold pass_message. rewrite hmute_nv. reflexivity. Qed.
  Lemma muted_neighboring o j c : neighboring o (muted j) c = neighboring o j c. Proof. reflexivity. Qed.
  Lemma foldM_ext {A S} (f g : S -> A -> res S) l : (forall s a, f s a = g s a) -> forall s, foldM f l s = foldM g l s.
  Proof. intros H. induction l as [|a l IH]; intros s; cbn [foldM]; auto. rewrite H. destruct (g s a); cbn [rbind]; auto. Qed.
  Lemma muted_collect_walk o j f : forall st x s y, collect_walk o (muted j) f st x s y = collect_walk o j f st x s y.
  Proof.
    induction f as [|f IH]; intros st x s y; cbn [collect_walk]; auto. rewrite muted_neighboring. destruct (neighboring o j y) as [nb|]; cbn [rbind]; auto.
    destruct (mark_new (snd st) nb) as [m todo]. rewrite (foldM_ext _ (fun st p => collect_walk o j f st y (fst p) (snd p))) by auto.
    destruct (foldM _ todo _) as [st'|]; cbn [rbind]; auto. change (jt_heap (muted j)) with (hmute (jt_heap j)). rewrite muted_pass. reflexivity.
  Qed.
  Lemma muted_distribute_walk o j f : forall st y, distribute_walk o (muted j) f st y = distribute_walk o j f st y.
  Proof.
    induction f as [|f IH]; intros st y; cbn [distribute_walk]; auto. rewrite muted_neighboring. destruct (neighboring o j y) as [nb|]; cbn [rbind]; auto.
    destruct (mark_new (snd st) nb) as [m todo]. apply foldM_ext. intros s a. change (jt_heap (muted j)) with (hmute (jt_heap j)). rewrite muted_pass. destruct (pass_message _ _ _ _ _); cbn [rbind]; auto.
  Qed.
  Lemma muted_propagate o j : propagate o (muted j) = rmap muted (propagate o j) /\ (forall j', propagate o j = Ok j' -> jt_heap j' = jt_heap j /\ jt_nodes j' = jt_nodes j).
  Proof.
    unfold propagate. change (jt_cliques (muted j)) with (jt_cliques j). destruct (isort cl_leb (jt_cliques j)) as [|x xs]; [split; [auto|discriminate]|].
    assert (E1 : forall st, collect o (muted j) st x = collect o j st x).
    { intros st. unfold collect. rewrite muted_neighboring. destruct (neighboring o j x) as [nb|]; cbn [rbind]; auto. apply foldM_ext. intros s a. change (walk_fuel (muted j)) with (walk_fuel j). apply muted_collect_walk. }
    assert (E2 : forall st, distribute o (muted j) st x = distribute o j st x).
    { intros st. unfold distribute. rewrite muted_neighboring. destruct (neighboring o j x) as [nb|]; cbn [rbind]; auto. apply foldM_ext. intros s a. change (walk_fuel (muted j)) with (walk_fuel j).
      change (jt_heap (muted j)) with (hmute (jt_heap j)). rewrite muted_pass. destruct (pass_message _ _ _ _ _); cbn [rbind]; auto. apply muted_distribute_walk. }
    rewrite E1. change (jt_pots (muted j)) with (jt_pots j). destruct (collect o j (jt_pots j, []) x) as [st|]; cbn [rbind]; [|split; [auto|discriminate]].
    rewrite E2. destruct (distribute o j (fst st, []) x) as [st'|]; cbn [rbind]; split; auto; try discriminate. intros j' E. inversion E; subst. auto.
  Qed.

  Lemma muted_infer o j : away j -> keyed (init_pots j) -> infer o (muted j) = rmap muted (infer o j) /\ (forall j', infer o j = Ok j' -> away j' /\ jt_nodes j' = jt_nodes j).
  Proof.
    intros HA HK. unfold infer. destruct (muted_initialize j HA HK) as [A1 A2]. rewrite A1. destruct (initialize j) as [j1|x]; cbn [rbind rmap]; [|split; [auto|discriminate]].
    destruct (A2 j1 eq_refl) as [B1 B2]. destruct (muted_propagate o j1) as [C1 C2]. split; auto. intros j' E. destruct (C2 j' E) as [D1 D2]. split; [eapply away_ext; eauto|congruence].
  Qed.

  (** ** posteriors *)
  Lemma muted_posteriors j : get_posteriors (muted j) = get_posteriors j.
  Proof.
    unfold get_posteriors. change (jt_bbn_ids (muted j)) with (jt_bbn_ids j). apply foldM_ext. intros d i. change (jt_heap (muted j)) with (hmute (jt_heap j)). rewrite hmute_name.
    f_equal. unfold get_bbn_potential, dgetE. change (jt_heap (muted j)) with (hmute (jt_heap j)). rewrite hmute_dget. destruct (dget (jt_heap j) i) as [n|]; cbn [rbind option_map]; auto.
    rewrite mute_mclq. unfold nv. rewrite mute_id, mute_values. reflexivity.
  Qed.

  (** ** evidence *)
  Definition rpair (r : jtree * option exn) : jtree * option exn := (muted (fst r), snd r).
  Lemma muted_store es : forall j, store_evidences (muted j) es = rpair (store_evidences j es) /\ jt_heap (fst (store_evidences j es)) = jt_heap j /\ jt_nodes (fst (store_evidences j es)) = jt_nodes j.
  Proof.
    induction es as [|e es IH]; intros j; cbn [store_evidences]; auto. change (jt_evid (muted j)) with (jt_evid j). destruct (dget (jt_evid j) (ev_node e)) as [m|]; auto.
    destruct (store_values m (ev_values e)) as [m' [x|]]; auto. destruct (IH (set_jevid j (dset (jt_evid j) (ev_node e) m'))) as [A1 [A2 A3]]. split; [exact A1|]. split; auto.
  Qed.
  (** the tree can be initialised again at any time *)
  Definition sound (j : jtree) : Prop := away j /\ keyed (init_pots j).
  Lemma init_pots_evid j ev : jt_pots (init_pots (set_jevid j ev)) = jt_pots (init_pots j).
  Proof.
    unfold init_pots.
    assert (F : forall {X} (key : X -> string) (sc : X -> list Z) l j, fold_left (fun j x => add_potential j (key x) (potential_from_nodes (h_nv (jt_heap j) (sc x)))) l (set_jevid j ev) =
      set_jevid (fold_left (fun j x => add_potential j (key x) (potential_from_nodes (h_nv (jt_heap j) (sc x)))) l j) ev).
    { intros X key sc l. induction l as [|x l IH]; intros j0; simpl; auto. rewrite <- IH. reflexivity. }
    rewrite (F _ cl_id cl_nodes). change (jt_cliques (set_jevid j ev)) with (jt_cliques j). rewrite (F _ ss_id ss_nodes). reflexivity.
  Qed.
End Mute.
