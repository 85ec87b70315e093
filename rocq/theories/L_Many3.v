(** Several join trees of one network object: the theorems and a witness. *)
From Verif Require Import Py M_Graph M_Node M_Pptc Spec SpecNet SpecEv SpecRe SpecAgain SpecPart SpecMany L_Base L_Evid L_Check L_Apply L_Net L_Again L_Part L_Many L_Many2 Ex L_R1 L_R7.
Open Scope nat_scope.

Lemma Forall2_impl {A B} (R S : A -> B -> Prop) l l' : (forall a b, R a b -> S a b) -> Forall2 R l l' -> Forall2 S l l'.
Proof. intros H. induction 1; constructor; auto. Qed.

Theorem c59_all ops ms : well_shaped ops -> moves_ok (opening ops) ms ->
  exists w, moves ops ms = Ok w /\
    Forall2 (fun q p => fst q = fst p /\ exists t, get_posteriors (seen w p) = Ok t /\
        described (fst (snd q)) (net_name ops) (snd (snd (snd q))) (jt_cliques (snd p)) t /\
        (connected ops -> exact_table (fst (snd q)) (net_name ops) (snd (snd (snd q))) t))
      (sc_trees (fold_left ensue ms (opening ops))) (w_trees w).
Proof.
  intros HW Hm. destruct (compile_ref ops HW) as [jr Hr]. destruct (moves_fine ops HW jr Hr ms _ _ (opening_fine ops HW jr) Hm) as [w [E F]].
  exists w. split; [exact E|]. pose proof (fi_trees _ _ _ _ F) as H. eapply Forall2_impl; [|exact H]. intros q p T. split; [apply T|]. exact (tree_answers ops HW jr _ w q p F T).
Qed.

Lemma told_to_app k ms ms' : told_to k (ms ++ ms') = told_to k ms ++ told_to k ms'.
Proof. induction ms as [|m ms IH]; simpl; auto. destruct m; auto. destruct (Nat.eqb k0 k); simpl; rewrite IH; auto. Qed.
Lemma moves_ok_app ms ms' : forall s, moves_ok s (ms ++ ms') -> moves_ok s ms /\ moves_ok (fold_left ensue ms s) ms'.
Proof. induction ms as [|m ms IH]; intros s H; simpl in *; auto. destruct H as [H1 H2]. apply IH in H2. tauto. Qed.
Lemma put_length {A} (l : list A) : forall k a, List.length (put l k a) = List.length l.
Proof. induction l as [|x l IH]; intros [|k] a; simpl; auto. Qed.

(** without assignments to the nodes every tree apply made answers for the network and the calls made on it *)
Lemma scene_alone ops ms : moves_ok (opening ops) ms -> untouched ms -> let s := fold_left ensue ms (opening ops) in
  sc_now s = net_of ops /\ sc_used s = net_of ops /\
  (forall k s0, nth_error (sc_trees s) k = Some (true, s0) -> s0 = (net_of ops, fold_left (step (net_of ops)) (told_to k ms) (no_evidence, no_evidence))) /\
  (forall k, List.length (sc_trees s) <= k -> told_to k ms = []).
Proof.
  induction ms as [|m ms IH] using rev_ind; intros Hok Hun; cbv zeta.
  { simpl. split; auto. split; auto. split; [intros [|k] s0 E; discriminate|auto]. }
  apply moves_ok_app in Hok. destruct Hok as [H1 [H2 _]]. destruct IH as [I1 [I2 [I3 I4]]]; auto. { intros c Hc. apply (Hun c). apply in_or_app; auto. }
  rewrite fold_left_app. cbn [fold_left]. set (s := fold_left ensue ms (opening ops)) in *.
  destruct m as [k o c|cpts|o|k o cpts]; cbn [ensue move_ok] in *.
  - destruct H2 as [Hk [_ Hv]]. destruct (nth_error (sc_trees s) k) as [p|] eqn:Ep; [|apply nth_error_None in Ep; lia]. cbn [sc_now sc_used sc_trees]. split; auto. split; auto. split.
    + intros m s0 E. rewrite (put_nth _ _ _ Ep) in E. rewrite told_to_app, fold_left_app. cbn [told_to]. destruct (Nat.eqb_spec m k) as [->|Hne].
      * rewrite Nat.eqb_refl. destruct p as [b sp]. unfold told in E. cbn [fst snd] in E. injection E as -> E. rewrite (I3 k sp Ep) in E. cbn [fst snd] in E. cbn [fold_left].
        rewrite I2 in E. rewrite <- E. destruct (true && _); auto.
      * destruct (Nat.eqb_spec k m); [congruence|]. simpl. apply I3; auto.
    + intros m Hm. rewrite put_length in Hm. rewrite told_to_app. cbn [told_to]. destruct (Nat.eqb_spec k m); [lia|]. rewrite I4 by lia. auto.
  - exfalso. apply (Hun cpts). apply in_or_app. right. left. auto.
  - cbn [sc_now sc_used sc_trees]. split; auto. split; auto. split.
    + intros k s0 E. rewrite told_to_app. cbn [told_to]. rewrite app_nil_r. destruct (Nat.lt_ge_cases k (List.length (sc_trees s))) as [Hl|Hl].
      * rewrite nth_error_app1 in E by auto. auto.
      * rewrite (I4 k Hl). rewrite nth_error_app2 in E by auto. destruct (k - List.length (sc_trees s)) as [|[|]]; cbn in E; try discriminate. injection E as <-. rewrite I1. auto.
    + intros k Hk. rewrite app_length in Hk. rewrite told_to_app. cbn [told_to]. rewrite I4; auto. simpl in Hk. lia.
  - destruct H2 as [Hk [_ Hv]]. destruct (nth_error (sc_trees s) k) as [p|] eqn:Ep; [|apply nth_error_None in Ep; lia]. cbn [sc_now sc_used sc_trees]. split; auto. split; auto. split.
    + intros m s0 E. rewrite told_to_app. cbn [told_to]. rewrite app_nil_r. destruct (Nat.lt_ge_cases m (List.length (sc_trees s))) as [Hl|Hl].
      * rewrite nth_error_app1 in E by auto. auto.
      * rewrite nth_error_app2 in E by auto. destruct (m - List.length (sc_trees s)) as [|[|]]; cbn in E; discriminate.
    + intros m Hm. rewrite app_length in Hm. rewrite told_to_app. cbn [told_to]. rewrite I4; auto. simpl in Hm. lia.
Qed.

Lemma Forall2_nth {A B} (R : A -> B -> Prop) l l' : Forall2 R l l' -> forall k b, nth_error l' k = Some b -> exists a, nth_error l k = Some a /\ R a b.
Proof. induction 1 as [|x y l l' H1 H2 IH]; intros [|k] b E; simpl in *; try discriminate; [injection E as <-; eauto|auto]. Qed.

Theorem c59_alone ops ms : well_shaped ops -> connected ops -> moves_ok (opening ops) ms -> untouched ms ->
  exists w, moves ops ms = Ok w /\
    forall k j, nth_error (w_trees w) k = Some (true, j) ->
      exists t, get_posteriors (seen w (true, j)) = Ok t /\ exact_table (net_of ops) (net_name ops) (shown (net_of ops) (told_to k ms)) t.
Proof.
  intros HW Hc Hm Hu. destruct (c59_all ops ms HW Hm) as [w [E F]]. exists w. split; auto. intros k j Hk. destruct (Forall2_nth _ _ _ F k _ Hk) as [[b s0] [E1 [E2 [t [T1 [T2 T3]]]]]].
  simpl in E2. subst b. destruct (scene_alone ops ms Hm Hu) as [_ [_ [S3 _]]]. rewrite (S3 k s0 E1) in T3. exists t. split; auto.
Qed.

(** ** an earlier tree switches to CPTs that were assigned after it was made *)
Definition duo : list bop := [AddEdge n_1 n_2].
Definition duo_cpts : list (Z * list Qc) := [(1%Z, [qfrac 1 2; qfrac 1 2])].
Definition v2_on := Update [build_evidence n_2 OBSERVATION [("on"%string, 1%Qc)]].
Definition duo_moves : list move := [Another ord_id; Probs duo_cpts; Another ord_rev; Tell 0 ord_id v2_on].

Fixpoint moves_okb (s : scene) (ms : list move) : bool :=
  match ms with
  | [] => true
  | m :: t => match m with
              | Tell k _ c => Nat.ltb k (List.length (sc_trees s)) && valid_callb (sc_now s) c
              | Probs cpts => fittingb (sc_now s) cpts
              | Another _ => true
              | Copy k _ cpts => Nat.ltb k (List.length (sc_trees s)) && fittingb (sc_now s) cpts
              end && moves_okb (ensue s m) t
  end.
Definition order_of (m : move) : list Ord := match m with Tell _ o _ => [o] | Probs _ => [] | Another o => [o] | Copy _ o _ => [o] end.
Lemma moves_okb_ok ms : Forall ord_ok (flat_map order_of ms) -> forall s, moves_okb s ms = true -> moves_ok s ms.
Proof.
  induction ms as [|m ms IH]; intros Ho s E; simpl in *; auto. apply andb_true_iff in E. destruct E as [E1 E2]. apply Forall_app in Ho. destruct Ho as [Ho1 Ho2]. split; auto.
  destruct m as [k o c|cpts|o|k o cpts]; simpl in *; try (inversion Ho1; subst).
  - apply andb_true_iff in E1. destruct E1 as [E1 E3]. apply Nat.ltb_lt in E1. split; auto. split; auto. apply valid_callb_ok; auto.
  - apply fittingb_ok; auto.
  - auto.
  - apply andb_true_iff in E1. destruct E1 as [E1 E3]. apply Nat.ltb_lt in E1. split; auto. split; auto. apply fittingb_ok; auto.
Qed.
Lemma duo_moves_ok : moves_ok (opening duo) duo_moves.
Proof. apply moves_okb_ok; [orders|]. vm_compute. reflexivity. Qed.

(** the number the k-th tree reports *)
Definition report (w : world) (k : nat) (name value : string) : option Qc :=
  match nth_error (w_trees w) k with
  | Some p => match get_posteriors (seen w p) with Ok t => match dget t name with Some m => dget m value | None => None end | Err _ => None end
  | None => None
  end.
Definition reportb (ops : list bop) (ms : list move) (k : nat) (name value : string) (q : Qc) (same : bool) : bool :=
  match moves ops ms with Ok w => match report w k name value with Some x => Bool.eqb (qeqb x q) same | None => false end | Err _ => false end.
Lemma reportb_ok ops ms k name value q : reportb ops ms k name value q false = true -> exists w x, moves ops ms = Ok w /\ report w k name value = Some x /\ x <> q.
Proof.
  unfold reportb. destruct (moves ops ms) as [w|]; [|discriminate]. destruct (report w k name value) as [x|] eqn:E; [|discriminate]. intros H. exists w, x. split; auto. split; auto.
  apply qneqb. destruct (qeqb x q); [discriminate|auto].
Qed.

Theorem c59_refuted : exists ops o ms w i y q, well_shaped ops /\ connected ops /\ moves_ok (opening ops) (Another o :: ms) /\ moves ops (Another o :: ms) = Ok w /\
  In i (net_vars ops) /\ In y (net_dom ops i) /\ report w 0 (net_name ops i) y = Some q /\
  q <> exact_posterior (net_of ops) (shown (net_of ops) (told_to 0 ms)) i y.
Proof.
  destruct (reportb_ok duo duo_moves 0 "v1" "on" (exact_posterior (net_of duo) (shown (net_of duo) (told_to 0 duo_moves)) 1%Z "on")) as [w [x [E1 [E2 E3]]]]; [vm_compute; reflexivity|].
  exists duo, ord_id, (tl duo_moves), w, 1%Z, "on"%string, x. split; [apply well_shapedb_ok; vm_compute; reflexivity|]. split; [apply connectedb_ok; vm_compute; reflexivity|].
  split; [exact duo_moves_ok|]. split; [exact E1|]. split; [left; reflexivity|]. split; [left; reflexivity|]. split; [exact E2|exact E3].
Qed.
