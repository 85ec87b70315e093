(** Rounded sessions: evidence calls, posteriors. *)
From Verif Require Import Py M_Graph M_Node M_Pptc M_Round Spec SpecNet SpecEv SpecRound L_Base L_Init L_Table L_Post L_Apply L_Net L_Evid L_Hist L_P1 L_Door L_Root L_Good L_Exact L_Forest L_Elim L_Round L_Round2 L_Round3.
Open Scope nat_scope.
Open Scope Qc_scope.

Definition res_of (p : jtree * option exn) : res jtree := match p with (j, None) => Ok j | (_, Some x) => Err x end.
Lemma follows_id {A} g (R : Qc -> nat -> A -> A -> Prop) s : climbs R -> rises g -> follows g R R (fun s => Ok s) (fun _ s => Ok s) s.
Proof. intros HC Hg s1 E k. inversion E; subst. apply near_of. intros r a Ha s' Hs. exists s'. split; auto. apply (HC r k); auto. apply Hg. Qed.
Lemma follows_err {A B} g (R : Qc -> nat -> A -> A -> Prop) (S : Qc -> nat -> B -> B -> Prop) f fr x s : f s = Err x -> follows g R S f fr s.
Proof. intros H s1 E. congruence. Qed.

Definition infer_r (a : arith) (o : Ord) (j : jtree) : res jtree := j <- initialize_r a j ;; propagate_r a o j.
(** the exponent after inference, whatever it was before *)
Definition ginfer (B : nat) : nat := gprop B (B * B) B (ginit B).
(** the exponent after any call *)
Definition gcall (B k : nat) : nat := Nat.max k (ginfer B).
Lemma gcall_rises B : rises (gcall B). Proof. unfold gcall. constructor; intros; lia. Qed.
Lemma gcall_twice B k : gcall B (gcall B k) = gcall B k. Proof. unfold gcall. lia. Qed.

Lemma infer_follows B o j : ord_ok o -> tpos B j -> follows (fun _ => ginfer B) jsim jsim (infer o) (fun a => infer_r a o) j /\ (forall j1, infer o j = Ok j1 -> tpos B j1).
Proof.
  intros Ho H. destruct (initialize_follows B j H) as [F1 F2].
  assert (G : forall s, tpos B s -> follows (gprop B (B * B) B) jsim jsim (propagate o) (fun a => propagate_r a o) s /\ (forall j1, propagate o s = Ok j1 -> tpos B j1)).
  { intros s Hs. pose proof (tp_one _ _ Hs) as H1. destruct (propagate_follows B (jkeys s) (B * B) B o s) as [P1 P2]; auto using tpos_few. { nia. } { apply Hs. } { apply Hs. }
    split; auto. intros j1 E. destruct (P2 j1 E) as [ps [-> Hp]]. apply tpos_pots; auto. }
  split.
  - unfold infer, infer_r. apply (follows_bind (fun _ => ginit B) (gprop B (B * B) B) jsim jsim jsim initialize initialize_r (propagate o) (fun a => propagate_r a o)); auto. intros s1 E1. apply G; auto.
  - intros j1 E. unfold infer in E. destruct (initialize j) as [j2|] eqn:E2; cbn [rbind] in E; [|discriminate]. apply (G j2); auto.
Qed.
Lemma jsim_fields r k j j' : jsim r k j j' -> jt_listener j' = jt_listener j /\ jt_evid j' = jt_evid j /\ jt_heap j' = jt_heap j /\ jt_nodes j' = jt_nodes j.
Proof. intros [H _]. rewrite H. auto. Qed.

Lemma notify_follows B o c j : ord_ok o -> c <> CUpdate -> tpos B j -> follows (gcall B) jsim jsim (fun j => res_of (notify o j c)) (fun a j => res_of (notify_r a o j c)) j /\ (forall j1, res_of (notify o j c) = Ok j1 -> tpos B j1).
Proof.
  intros Ho Hc H. assert (Id : forall r k s s', 1 <= r -> jsim r k s s' -> jsim r (gcall B k) s s'). { intros r k s s' Hr. apply jsim_climbs; auto. apply gcall_rises. }
  destruct (jt_listener j) eqn:El.
  - destruct c.
    + unfold notify. rewrite El. split.
      * intros j1 E k. rewrite El in E. cbn [res_of] in E. inversion E; subst j1. apply near_of. intros r a Ha j' S. unfold notify_r. rewrite (proj1 (jsim_fields _ _ _ _ S)), El. cbn [res_of]. eauto.
      * cbn [res_of]. intros j1 E. inversion E; subst; auto.
    + congruence.
    + destruct (infer_follows B o j Ho H) as [F1 F2]. unfold notify. rewrite El. fold (infer o j). split.
      * intros j1 E k. rewrite El in E. fold (infer o j) in E. destruct (infer o j) as [j2|] eqn:E2; cbn [res_of] in E; [|discriminate]. inversion E; subst j2.
        eapply near_1; [exact (F1 j1 E2 k)|]. intros r a Ha N1 j' S. unfold notify_r. rewrite (proj1 (jsim_fields _ _ _ _ S)), El. fold (infer_r a o j'). destruct (N1 j' S) as [j2 [A1 A2]]. cbv beta in A1. rewrite A1. cbn [res_of].
        exists j2. split; auto. eapply jsim_climbs; [exact Ha| |exact A2]. unfold gcall. lia.
      * intros j1 E. destruct (infer o j) as [j2|] eqn:E2; cbn [res_of] in E; [|discriminate]. inversion E; subst; auto.
  - unfold notify. rewrite El. split.
    + intros j1 E k. rewrite El in E. cbn [res_of] in E. inversion E; subst j1. apply near_of. intros r a Ha j' S. unfold notify_r. rewrite (proj1 (jsim_fields _ _ _ _ S)), El. cbn [res_of]. eauto.
    + cbn [res_of]. intros j1 E. inversion E; subst; auto.
Qed.
(** the code never finds that evidence has been added only *)
Lemma compare_never e pot c : compare_ev e pot = Ok c -> c <> CUpdate.
Proof.
  unfold compare_ev. destruct (convert pot) as [m|]; cbn [rbind]; [|discriminate]. destruct (_ && _). { intros E; inversion E; discriminate. }
  destruct (_ && _); [|intros E; inversion E; discriminate]. destruct (observed_value m); cbn [rbind]; [|discriminate]. destruct (observed_value _); cbn [rbind]; [|discriminate]. destruct (eqb _ _); intros E; inversion E; discriminate.
Qed.
Lemma never_update j es c : get_change_type j es = Ok c -> c <> CUpdate.
Proof.
  unfold get_change_type. match goal with |- rbind ?m _ = _ -> _ => destruct m as [cs|] eqn:E end; cbn [rbind]; [|discriminate].
  assert (F : Forall (fun c => c <> CUpdate) cs). { apply (mapM_each _ _ _) with (2 := E). intros e c' _ Ec. destruct (dgetE (jt_evid j) (ev_node e)); cbn [rbind] in Ec; [|discriminate]. eapply compare_never; eauto. }
  destruct (existsb _ cs). { intros Q; inversion Q; discriminate. } destruct (existsb (fun c => match c with CUpdate => true | _ => false end) cs) eqn:X; [|intros Q; inversion Q; discriminate].
  apply existsb_exists in X. destruct X as [d [Hd Ed]]. rewrite Forall_forall in F. specialize (F d Hd). destruct d; try discriminate. congruence.
Qed.

(** stored evidence stays at least 0 *)
Lemma store_values_pos vs : Forall (fun p => 0 <= snd p) vs -> forall m m' B, (forall v p, dget m v = Some p -> ppos p /\ (List.length p <= B)%nat) -> store_values m vs = (m', None) -> forall v p, dget m' v = Some p -> ppos p /\ (List.length p <= B)%nat.
Proof.
  induction 1 as [|[k q] vs Hq Hvs IH]; intros m m' B Hm E; cbn [store_values] in E. { inversion E; subst; auto. }
  destruct (dget m k) as [[|e es]|] eqn:Ek; try discriminate. apply (IH _ _ B) with (2 := E). intros v p. rewrite dget_dset. destruct (eqb_spec v k); eauto.
  intros Ep. inversion Ep; subst. destruct (Hm k _ Ek) as [Hm1 Hm2]. inversion Hm1; subst. split; [|exact Hm2]. constructor; auto.
Qed.
Lemma store_pots es : forall j ps, store_evidences (set_jpots j ps) es = (set_jpots (fst (store_evidences j es)) ps, snd (store_evidences j es)).
Proof.
  induction es as [|e es IH]; intros j ps; cbn [store_evidences]; auto. change (jt_evid (set_jpots j ps)) with (jt_evid j). destruct (dget (jt_evid j) (ev_node e)) as [m|]; auto.
  destruct (store_values m (ev_values e)) as [m' [x|]]; auto. change (set_jevid (set_jpots j ps) (dset (jt_evid j) (ev_node e) m')) with (set_jpots (set_jevid j (dset (jt_evid j) (ev_node e) m')) ps). apply IH.
Qed.
Lemma store_tpos es : Forall (fun e => Forall (fun p => 0 <= snd p) (ev_values e)) es -> forall B j j', tpos B j -> store_evidences j es = (j', None) -> tpos B j' /\ jt_pots j' = jt_pots j.
Proof.
  induction 1 as [|e es He Hes IH]; intros B j j' Hj E; cbn [store_evidences] in E. { inversion E; subst; auto. }
  destruct (dget (jt_evid j) (ev_node e)) as [m|] eqn:Em; [|discriminate]. destruct (store_values m (ev_values e)) as [m' [x|]] eqn:Es; [discriminate|].
  destruct (IH B (set_jevid j (dset (jt_evid j) (ev_node e) m')) j') as [A1 A2]; auto. apply tpos_evid; auto. pose proof (tp_evid _ _ Hj) as H2.
  intros i m0 v p. rewrite dget_dset. destruct (eqb_spec i (ev_node e)); eauto. intros E0. inversion E0; subst. eapply store_values_pos; eauto.
Qed.

Definition vpos (m : list (string * Qc)) : Prop := Forall (fun p => 0 <= snd p) m.
Definition posev (e : evidence) : Prop := forall e', validate e = Ok e' -> vpos (ev_values e').
Lemma vpos_dset m k q : vpos m -> 0 <= q -> vpos (dset m k q).
Proof.
  intros H Hq. induction H as [|[k' q'] m H1 H2 IH]; simpl. { constructor; auto. } destruct (String.eqb k k'); constructor; auto.
Qed.
Lemma vpos_upd (f : list (string * Qc) -> string -> Qc) l : (forall m v, 0 <= f m v) -> forall m, vpos m -> vpos (fold_left (fun m v => dset m v (f m v)) l m).
Proof. intros Hf. induction l as [|v l IH]; intros m H; cbn [fold_left]; auto. apply IH, vpos_dset; auto. Qed.
Lemma posev_unobs i d : posev (mkEv i d UNOBSERVE (fold_left (fun m v => dset m v 1) d [])).
Proof.
  intros e' E. unfold validate in E. cbn [ev_type ev_dom ev_values ev_node] in E. inversion E; subst. cbn [ev_values]. apply (vpos_upd (fun _ _ => 1)). { discriminate. }
  unfold fill_missing. assert (H : vpos (fold_left (fun m v => dset m v 1) d [])). { apply (vpos_upd (fun _ _ => 1)); [discriminate|constructor]. }
  revert H. generalize (fold_left (fun m v => dset m v 1) d []). induction d as [|v l IH]; intros m H; cbn [fold_left]; auto.
  assert (G : forall l m, vpos m -> vpos (fold_left (fun (m : list (string * Qc)) v => if dmem m v then m else dset m v 0) l m)).
  { intros k. induction k as [|w k IHk]; intros u Hu; cbn [fold_left]; auto. apply IHk. destruct (dmem u w); auto. apply vpos_dset; auto. discriminate. }
  apply G. destruct (dmem m v); auto. apply vpos_dset; auto. discriminate.
Qed.
Lemma posev_known N e : (forall i, In i (vars N) -> NoDup (dom N i) /\ dom N i <> []) -> known N e -> posev e.
Proof.
  intros HD He e' E. destruct (validate_known N e HD He) as [m [E1 [E2 [E3 E4]]]]. rewrite E1 in E. inversion E; subst. cbn [ev_values]. apply Forall_forall. intros [v q] Hq. cbn [snd].
  assert (Hv : In v (dkeys m)) by (apply in_map_iff; exists (v, q); auto). apply (dget_In_NoDup m v q E2) in Hq. rewrite E4 in Hq by (apply E3; auto). inversion Hq; subst. apply like_range.
Qed.
Lemma validate_pos es es' : Forall posev es -> mapM validate es = Ok es' -> Forall (fun e => vpos (ev_values e)) es'.
Proof.
  intros HK. revert es'. induction HK as [|e es He Hes IH]; intros es' E; simpl in E. { inversion E; subst; constructor. }
  destruct (validate e) as [e1|] eqn:E1; cbn [rbind] in E; [|discriminate]. destruct (mapM validate es) as [es1|]; cbn [rbind] in E; [|discriminate]. inversion E; subst. constructor; auto.
Qed.

Definition trails (B : nat) (f : jtree -> jtree * option exn) (fr : arith -> jtree -> jtree * option exn) (j : jtree) : Prop :=
  follows (gcall B) jsim jsim (fun j => res_of (f j)) (fun a j => res_of (fr a j)) j /\ (forall j1, res_of (f j) = Ok j1 -> tpos B j1).
Lemma trails_err B f fr j x : res_of (f j) = Err x -> trails B f fr j.
Proof. intros H. split. { eapply follows_err; eauto. } intros j1 E; congruence. Qed.
(** a choice made from what the rounded tree shares with the exact one *)
Lemma trails_as B f fr g gr j : f j = g j -> (forall a r k j', jsim r k j j' -> fr a j' = gr a j') -> trails B g gr j -> trails B f fr j.
Proof.
  intros E1 E2 [H1 H2]. split; [|rewrite E1; auto]. intros j1 E k. rewrite E1 in E. eapply near_1; [exact (H1 j1 E k)|]. intros r a _ N1 j' S. rewrite (E2 a r k j' S). auto.
Qed.

Lemma update_trails B o es j : ord_ok o -> Forall posev es -> tpos B j -> trails B (fun j => update_evidences o j es) (fun a j => update_evidences_r a o j es) j.
Proof.
  intros Ho HK HP. destruct (mapM validate es) as [es'|x] eqn:Ev; [|apply trails_err with x; unfold update_evidences; rewrite Ev; reflexivity].
  destruct (get_change_type j es') as [c|x] eqn:Ec; [|apply trails_err with x; unfold update_evidences; rewrite Ev, Ec; reflexivity].
  destruct (store_evidences j es') as [j2 [x|]] eqn:Es; [apply trails_err with x; unfold update_evidences; rewrite Ev, Ec, Es; reflexivity|].
  destruct (store_tpos es' (validate_pos es es' HK Ev) B j j2 HP Es) as [P1 P2]. destruct (notify_follows B o c j2 Ho (never_update _ _ _ Ec) P1) as [F1 F2]. unfold update_evidences, trails. rewrite Ev, Ec, Es. split; auto.
  intros j1 E k. rewrite Ec, Es in E. eapply near_1; [exact (F1 j1 E k)|]. intros r a _ N1 j' [S1 S2]. unfold update_evidences_r. rewrite Ev.
  set (ps' := jt_pots j') in *. rewrite S1. change (get_change_type (set_jpots j ps') es') with (get_change_type j es'). rewrite Ec, store_pots, Es. cbn [fst snd]. apply N1; auto.
  split; auto. change (jt_pots (set_jpots j2 ps')) with ps'. rewrite P2. auto.
Qed.

Section Calls.
  Context (B : nat) (N : net) (HD : forall i, In i (vars N) -> NoDup (dom N i) /\ dom N i <> []).

  Lemma call_trails o c j : ord_ok o -> valid_call N c -> tpos B j -> trails B (fun j => do_call o j c) (fun a j => do_call_r a o j c) j.
  Proof using HD.
    intros Ho HV HP.
    assert (Hun : forall ns, Forall posev (map unobserved_evidence ns)). { intros ns. apply Forall_forall. intros e He. apply in_map_iff in He. destruct He as [n [<- _]]. apply posev_unobs. }
    destruct c as [es|ns| |e]; cbn [do_call do_call_r valid_call] in *.
    - apply update_trails; auto. eapply Forall_impl; [|exact HV]. intros e. apply posev_known; auto.
    - apply update_trails; auto.
    - destruct (mapM (dgetE (jt_heap j)) (jt_bbn_ids j)) as [ns|x] eqn:E; [|apply trails_err with x; unfold unobserve_all; rewrite E; reflexivity].
      apply trails_as with (fun j => unobserve o j ns) (fun a j => unobserve_r a o j ns).
      + unfold unobserve_all. rewrite E. auto.
      + intros a r k j' [S _]. rewrite S. unfold unobserve_all_r. change (jt_heap (set_jpots j (jt_pots j'))) with (jt_heap j). change (jt_bbn_ids (set_jpots j (jt_pots j'))) with (jt_bbn_ids j). rewrite E. auto.
      + apply update_trails; auto.
    - destruct HV as [HV _]. pose proof (posev_known N e HD HV) as He.
      destruct (dget (jt_evid j) (ev_node e)) as [m|] eqn:Em; [|apply trails_err with KeyError; unfold set_observation; rewrite Em; reflexivity].
      destruct (convert m) as [pv|x] eqn:Ec; [|apply trails_err with x; unfold set_observation; rewrite Em, Ec; reflexivity].
      assert (Up : forall f fr, f j = update_evidences o j [e] -> (forall a r k j', jsim r k j j' -> fr a j' = update_evidences_r a o j' [e]) -> trails B f fr j).
      { intros f fr H1 H2. apply trails_as with (fun j => update_evidences o j [e]) (fun a j => update_evidences_r a o j [e]); auto. apply update_trails; auto. }
      assert (Ee : forall r k j', jsim r k j j' -> dget (jt_evid j') (ev_node e) = Some m). { intros r k j' S. destruct (jsim_fields _ _ _ _ S) as [_ [-> _]]. auto. }
      destruct (map fst (filter (fun p => qeqb 1 (snd p)) pv)) as [|y [|z l]] eqn:E1.
      + apply Up. { unfold set_observation. rewrite Em, Ec. cbv zeta. rewrite E1. auto. } intros a r k j' S. unfold set_observation_r. rewrite (Ee _ _ _ S), Ec. cbv zeta. rewrite E1. auto.
      + destruct (map fst (filter (fun p => qeqb 1 (snd p)) (ev_values e))) as [|w l] eqn:E2. { apply trails_err with IndexError. unfold set_observation. rewrite Em, Ec. cbv zeta. rewrite E1, E2. auto. }
        destruct (eqb y w) eqn:E3.
        * apply trails_as with (fun j => update_evidences o j [mkEv (ev_node e) (ev_dom e) UNOBSERVE (fold_left (fun m v => dset m v 1) (ev_dom e) [])])
            (fun a j => update_evidences_r a o j [mkEv (ev_node e) (ev_dom e) UNOBSERVE (fold_left (fun m v => dset m v 1) (ev_dom e) [])]).
          -- unfold set_observation. rewrite Em, Ec. cbv zeta. rewrite E1, E2, E3. auto.
          -- intros a r k j' S. unfold set_observation_r. rewrite (Ee _ _ _ S), Ec. cbv zeta. rewrite E1, E2, E3. auto.
          -- apply update_trails; auto. constructor; auto. apply posev_unobs.
        * apply Up. { unfold set_observation. rewrite Em, Ec. cbv zeta. rewrite E1, E2, E3. auto. } intros a r k j' S. unfold set_observation_r. rewrite (Ee _ _ _ S), Ec. cbv zeta. rewrite E1, E2, E3. auto.
      + apply Up. { unfold set_observation. rewrite Em, Ec. cbv zeta. rewrite E1. auto. } intros a r k j' S. unfold set_observation_r. rewrite (Ee _ _ _ S), Ec. cbv zeta. rewrite E1. auto.
  Qed.
  Lemma calls_trail h : valid_history N h -> forall j, tpos B j -> trails B (fun j => do_calls j h) (fun a j => do_calls_r a j h) j.
  Proof using HD.
    unfold valid_history, calls. induction h as [|[o c] h IH]; intros [HO HV] j HP; cbn [do_calls do_calls_r].
    - split. { intros j1 E k. cbn [res_of] in E. inversion E; subst. apply near_of. intros r a Ha j' S. cbn [res_of]. exists j'. split; auto. eapply jsim_climbs; [exact Ha| |exact S]. apply gcall_rises. } cbn [res_of]. intros j1 E; inversion E; subst; auto.
    - cbn [map snd] in HV. inversion HV as [|? ? V1 V2]; subst. inversion HO as [|? ? O1 O2]; subst. cbn [fst] in O1. destruct (call_trails o c j O1 V1 HP) as [F1 F2]. destruct (do_call o j c) as [j2 [x|]] eqn:E.
      { apply trails_err with x. cbn [do_calls]. rewrite E. reflexivity. }
      destruct (IH (conj O2 V2) j2 (F2 j2 eq_refl)) as [G1 G2]. split; [|rewrite E; auto]. intros j1 E1 k. rewrite E in E1. assert (E2 : res_of (do_call o j c) = Ok j2) by (rewrite E; auto).
      eapply near_2; [exact (F1 j2 E2 k)|exact (G1 j1 E1 (gcall B k))|]. intros r a _ N1 N2 j' S. destruct (N1 j' S) as [j2' [A1 A2]]. destruct (do_call_r a o j' c) as [j3 [x|]]; cbn [res_of] in A1; [discriminate|]. inversion A1; subst j3. rewrite <- (gcall_twice B k). apply N2; auto.
  Qed.
End Calls.

(** ** posteriors *)
Definition msim (r : Qc) (k : nat) (m m' : list (string * Qc)) : Prop := Forall2 (fun q q' => fst q = fst q' /\ within r k (snd q) (snd q')) m m'.
Lemma msim_set r k m m' x q q' : msim r k m m' -> within r k q q' -> msim r k (dset m x q) (dset m' x q').
Proof.
  intros F Hp. induction F as [|[y p] [y' p'] m m' [E H] F IH]; simpl. { constructor; [split; auto|constructor]. }
  cbn [fst snd] in E, H. subst y'. destruct (String.eqb x y); constructor; auto; split; auto.
Qed.
Lemma msim_le r k l m m' : 1 <= r -> (k <= l)%nat -> msim r k m m' -> msim r l m m'.
Proof. intros Ha H. apply F2_impl. intros p p' [H1 H2]. split; auto. eapply within_le; eauto. Qed.
Lemma pot_to_map_sim r k p p' : pwithin r k p p' -> msim r k (pot_to_map p) (pot_to_map p').
Proof.
  intros H. unfold pot_to_map. assert (G : forall m m', msim r k m m' -> msim r k (fold_left (fun m e => dset m (join EmptyString (map snd (pe_map e))) (pe_val e)) p m) (fold_left (fun m e => dset m (join EmptyString (map snd (pe_map e))) (pe_val e)) p' m')).
  { induction H as [|e e' p p' [E1 E2] F IH]; intros m m' Hm; cbn [fold_left]; auto. apply IH. rewrite E1. apply msim_set; auto. }
  apply G. constructor.
Qed.
Lemma table_set r k t t' x m m' : table_within r k t t' -> msim r k m m' -> table_within r k (dset t x m) (dset t' x m').
Proof.
  intros F Hp. induction F as [|[y q] [y' q'] t t' [E H] F IH]; simpl. { constructor; [split; auto|constructor]. }
  cbn [fst snd] in E, H. subst y'. destruct (String.eqb x y); constructor; auto; split; auto.
Qed.
Lemma table_le r k l t t' : 1 <= r -> (k <= l)%nat -> table_within r k t t' -> table_within r l t t'.
Proof. intros Ha H. apply F2_impl. intros p p' [H1 H2]. split; auto. eapply msim_le; eauto. Qed.

(** the exponent of the posteriors read from a tree *)
Definition gread (B k : nat) : nat := S (k + B + (k + B + B)).
Lemma bbn_potential_follows B j i p : tpos B j -> In i (jt_bbn_ids j) -> get_bbn_potential j i = Ok p -> forall k, near (fun r a => forall j', jsim r k j j' -> exists p', get_bbn_potential_r a j' i = Ok p' /\ pwithin r (gread B k) p p').
Proof.
  intros HP Hi E k. unfold get_bbn_potential in E. destruct (dgetE (jt_heap j) i) as [n|] eqn:En; cbn [rbind] in E; [|discriminate]. destruct (n_mclq n) as [c|] eqn:Ec; [|discriminate].
  destruct (dget (jt_pots j) c) as [cp|] eqn:Ep; [|discriminate]. pose proof (sm_len _ _ _ (tp_pots _ _ HP) _ _ Ep) as L1.
  set (m := marginalize cp [nv n]) in *. set (k1 := (k + List.length cp)%nat).
  assert (L2 : (List.length m <= B)%nat). { unfold m, marginalize, potential_from_nodes. rewrite !map_length, cartesian_len. replace (vsize (map snd [nv n])) with (List.length (n_values n)) by (unfold nv; simpl; lia). unfold dgetE in En. destruct (dget (jt_heap j) i) as [n0|] eqn:D; [|discriminate]. inversion En; subst. eapply (tp_vals _ _ HP); eauto. }
  eapply near_2; [exact (marginalize_within k cp [nv n])|exact (normalize_within k1 m)|]. intros r a Ha N1 N2 j' S. destruct (jsim_fields _ _ _ _ S) as [_ [_ [Eh _]]]. unfold get_bbn_potential_r. rewrite Eh, En. cbn [rbind]. rewrite Ec. destruct S as [_ S2].
  destruct (psim_get _ _ _ _ _ _ S2 Ep) as [cp' [A1 A2]]. rewrite A1. eexists. split; [reflexivity|]. inversion E; subst p.
  eapply pwithin_le; [exact Ha| |apply N2, N1, A2]. unfold gread, k1. lia.
Qed.
Lemma posteriors_follow B j t : tpos B j -> get_posteriors j = Ok t -> forall k, near (fun r a => forall j', jsim r k j j' -> exists t', get_posteriors_r a j' = Ok t' /\ table_within r (gread B k) t t').
Proof.
  intros HP E k. unfold get_posteriors in E.
  assert (G : forall l, incl l (jt_bbn_ids j) -> forall d t, foldM (fun d i => p <- get_bbn_potential j i ;; Ok (dset d (h_name (jt_heap j) i) (pot_to_map p))) l d = Ok t -> near (fun r a => forall j', jsim r k j j' ->
     forall d', table_within r (gread B k) d d' -> exists t', foldM (fun d i => p <- get_bbn_potential_r a j' i ;; Ok (dset d (h_name (jt_heap j) i) (pot_to_map p))) l d' = Ok t' /\ table_within r (gread B k) t t')).
  { induction l as [|i l IH]; intros Hl d t0 E0; cbn [foldM] in *. { inversion E0; subst. apply near_of. intros. eauto. }
    destruct (get_bbn_potential j i) as [p|] eqn:Ep; cbn [rbind] in E0; [|discriminate]. assert (Hi : In i (jt_bbn_ids j)) by (apply Hl; left; auto).
    eapply near_2; [exact (bbn_potential_follows B j i p HP Hi Ep k)|exact (IH (fun y Hy => Hl y (or_intror Hy)) _ _ E0)|]. intros r a Ha N1 N2 j' S d' Hd. destruct (N1 j' S) as [p' [A1 A2]]. rewrite A1. cbn [rbind]. apply (N2 j' S). apply table_set; auto.
    apply pot_to_map_sim; exact A2. }
  eapply near_1; [exact (G (jt_bbn_ids j) (incl_refl _) [] t E)|]. intros r a _ N1 j' S. unfold get_posteriors_r. destruct (jsim_fields _ _ _ _ S) as [_ [_ [Eh Enn]]].
  replace (jt_bbn_ids j') with (jt_bbn_ids j) by (unfold jt_bbn_ids, jt_cliques; rewrite Enn; auto). rewrite Eh. apply (N1 j' S). constructor.
Qed.

(** ** sessions *)
Lemma apply_compile_r a o b : apply_r a o b = (j <- compile o b ;; j <- infer_r a o j ;; Ok (mkBbn (set_graph_nodes (b_g b) (jt_heap j)) (b_parents b), set_jlistener j true)).
Proof.
  unfold apply_r, compile, infer_r. destruct (pot_init b) as [h|e]; cbn [rbind]; auto. destruct (moralize _) as [u|e]; cbn [rbind]; auto.
  destruct (triangulate o u) as [mc|e]; cbn [rbind]; auto. destruct (transform _ _ _) as [j|e]; cbn [rbind]; auto.
  fold (pinfo_of b (get_nodes (set_graph_nodes (b_g b) h))). destruct (initialize_r _ _) as [j1|e]; cbn [rbind]; auto.
Qed.
Lemma near_accurate P r a : near P -> accurate r a -> P r a.
Proof.
  intros H [H1 H2 H3]. destruct (H r) as (lo & hi & Hl & K). apply K. { apply Qcle_refl. } assert (G : forall x, x = 0 \/ lo <= x -> 0 <= x). { intros x [->|Hx]; [discriminate|]. apply Qcle_trans with lo; auto. apply Qclt_le_weak; auto. }
  constructor; auto. intros l Hl' _. apply H3. eapply Forall_impl; [|exact Hl']. exact G.
Qed.
