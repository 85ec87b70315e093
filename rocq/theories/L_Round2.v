(** Rounded inference on join trees. *)
From Verif Require Import Py M_Graph M_Node M_Pptc M_Round SpecRound L_Base L_Round.
Open Scope nat_scope.
Open Scope Qc_scope.

(** ** exponents *)
Definition climbs {A} (R : Qc -> nat -> A -> A -> Prop) : Prop := forall r k l s s', 1 <= r -> (k <= l)%nat -> R r k s s' -> R r l s s'.
Record rises (g : nat -> nat) : Prop := { ri_up : forall k, (k <= g k)%nat; ri_mono : forall k l, (k <= l)%nat -> (g k <= g l)%nat }.
Fixpoint times (n : nat) (g : nat -> nat) (k : nat) : nat := match n with O => k | S n => times n g (g k) end.
Lemma rises_comp f g : rises f -> rises g -> rises (fun k => f (g k)).
Proof. intros [F1 F2] [G1 G2]. constructor; [|auto]. intros k. apply Nat.le_trans with (g k); auto. Qed.
Lemma rises_times n g : rises g -> rises (times n g).
Proof. intros H. induction n as [|n IH]; cbn [times]. { constructor; auto. } exact (rises_comp _ _ IH H). Qed.
Lemma times_le n m g k : rises g -> (n <= m)%nat -> (times n g k <= times m g k)%nat.
Proof.
  intros H L. revert k. induction L as [|m L IH]; intros k; auto. cbn [times]. eapply Nat.le_trans; [apply IH|]. apply (ri_mono _ (rises_times m g H)). apply H.
Qed.
Lemma times_ext n f g : rises g -> (forall k, (f k <= g k)%nat) -> forall k, (times n f k <= times n g k)%nat.
Proof. intros Hg H. induction n as [|n IH]; intros k; cbn [times]; auto. eapply Nat.le_trans; [apply IH|]. apply (ri_mono _ (rises_times n g Hg)). auto. Qed.

(** from related arguments the rounded function gives a related result *)
Definition follows {A B} (g : nat -> nat) (RA : Qc -> nat -> A -> A -> Prop) (RB : Qc -> nat -> B -> B -> Prop) (f : A -> res B) (fr : arith -> A -> res B) (s : A) : Prop :=
  forall s1, f s = Ok s1 -> forall k, near (fun r a => forall s', RA r k s s' -> exists s1', fr a s' = Ok s1' /\ RB r (g k) s1 s1').
Lemma follows_le {A B} g h (RA : Qc -> nat -> A -> A -> Prop) (RB : Qc -> nat -> B -> B -> Prop) f fr s : climbs RB -> (forall k, (g k <= h k)%nat) -> follows g RA RB f fr s -> follows h RA RB f fr s.
Proof. intros HC H F s1 E k. eapply near_1; [exact (F s1 E k)|]. intros r a Hr N1 s' Hs. destruct (N1 s' Hs) as [s1' [A1 A2]]. exists s1'. split; auto. eapply HC; eauto. Qed.
Lemma follows_bind {A B C} g1 g2 (RA : Qc -> nat -> A -> A -> Prop) (RB : Qc -> nat -> B -> B -> Prop) (RC : Qc -> nat -> C -> C -> Prop) f fr g gr s :
  follows g1 RA RB f fr s -> (forall s1, f s = Ok s1 -> follows g2 RB RC g gr s1) -> follows (fun k => g2 (g1 k)) RA RC (fun s => x <- f s ;; g x) (fun a s => x <- fr a s ;; gr a x) s.
Proof.
  intros H1 H2 s2 E k. destruct (f s) as [s1|] eqn:E1; cbn [rbind] in E; [|discriminate].
  eapply near_2; [exact (H1 s1 E1 k)|exact (H2 s1 eq_refl s2 E (g1 k))|]. intros r a _ N1 N2 s' Hs. destruct (N1 s' Hs) as [s1' [A1 A2]]. rewrite A1. cbn [rbind]. apply N2; auto.
Qed.
Lemma follows_fold {A X} g (R : Qc -> nat -> A -> A -> Prop) (P : A -> Prop) (f : A -> X -> res A) (fr : arith -> A -> X -> res A) l :
  (forall s x, P s -> In x l -> follows g R R (fun s => f s x) (fun a s => fr a s x) s /\ (forall s1, f s x = Ok s1 -> P s1)) ->
  forall s, P s -> follows (times (List.length l) g) R R (fun s => foldM f l s) (fun a s => foldM (fr a) l s) s /\ (forall s1, foldM f l s = Ok s1 -> P s1).
Proof.
  induction l as [|x l IH]; intros H s Hs; cbn [foldM List.length times].
  - split. { intros s1 E k. inversion E; subst. apply near_of. intros r a Ha s' Hs'. eauto. } intros s1 E. inversion E; subst; auto.
  - destruct (H s x Hs (or_introl eq_refl)) as [H1 H2]. assert (H' : forall s x, P s -> In x l -> follows g R R (fun s => f s x) (fun a s => fr a s x) s /\ (forall s1, f s x = Ok s1 -> P s1)) by (intros; apply H; auto; right; auto).
    split.
    + apply (follows_bind g (times (List.length l) g) R R R (fun s => f s x) (fun a s => fr a s x)); auto. intros s1 E1. apply (IH H'). auto.
    + intros s1 E. destruct (f s x) as [s2|] eqn:E2; cbn [rbind] in E; [|discriminate]. apply (IH H' s2); auto.
Qed.
(** the same for a number of steps at most [m] *)
Lemma follows_steps {A X} g m (R : Qc -> nat -> A -> A -> Prop) (P : A -> Prop) (f : A -> X -> res A) (fr : arith -> A -> X -> res A) l : climbs R -> rises g -> (List.length l <= m)%nat ->
  (forall s x, P s -> In x l -> follows g R R (fun s => f s x) (fun a s => fr a s x) s /\ (forall s1, f s x = Ok s1 -> P s1)) ->
  forall s, P s -> follows (times m g) R R (fun s => foldM f l s) (fun a s => foldM (fr a) l s) s /\ (forall s1, foldM f l s = Ok s1 -> P s1).
Proof.
  intros HC Hg Hm H s Hs. destruct (follows_fold g R P f fr l H s Hs) as [F1 F2]. split; auto. eapply follows_le; [exact HC| |exact F1]. intros k. apply times_le; auto.
Qed.

(** ** potentials by key *)
Definition psim (r : Qc) (k : nat) : pots -> pots -> Prop := Forall2 (fun p p' => fst p = fst p' /\ pwithin r k (snd p) (snd p')).
Lemma psim_le r k l ps ps' : 1 <= r -> (k <= l)%nat -> psim r k ps ps' -> psim r l ps ps'.
Proof. intros Ha H. apply F2_impl. intros p p' [H1 H2]. split; auto. eapply pwithin_le; eauto. Qed.
Lemma psim_get r k ps ps' x p : psim r k ps ps' -> dget ps x = Some p -> exists p', dget ps' x = Some p' /\ pwithin r k p p'.
Proof.
  induction 1 as [|[y q] [y' q'] ps ps' [E H] F IH]; simpl; [discriminate|]. cbn [fst snd] in E, H. subst y'. destruct (String.eqb x y); auto. intros Q. inversion Q; subst. eauto.
Qed.
Lemma psim_set r k ps ps' x p p' : psim r k ps ps' -> pwithin r k p p' -> psim r k (dset ps x p) (dset ps' x p').
Proof.
  intros F Hp. induction F as [|[y q] [y' q'] ps ps' [E H] F IH]; simpl. { constructor; [split; auto|constructor]. }
  cbn [fst snd] in E, H. subst y'. destruct (String.eqb x y); constructor; auto; split; auto.
Qed.

Lemma psim_climbs : climbs psim. Proof. intros r k l s s' Hr H. apply psim_le; auto. Qed.

(** tables of at most [B] rows *)
Record small (B : nat) (U : list string) (ps : pots) : Prop := { sm_len : forall x p, dget ps x = Some p -> (List.length p <= B)%nat; sm_keys : incl (dkeys ps) U; sm_nd : NoDup (dkeys ps) }.
Lemma small_set B U ps x p : small B U ps -> (List.length p <= B)%nat -> In x U -> small B U (dset ps x p).
Proof.
  intros [H K D] Hp Hx. constructor; [| |apply dset_NoDup; auto]. { intros y q. rewrite dget_dset. destruct (eqb_spec y x); eauto. intros E; inversion E; subst; auto. }
  intros y Hy. apply dkeys_dset_In in Hy. destruct Hy as [Hy| ->]; auto.
Qed.
Lemma small_in B U ps x p : small B U ps -> dget ps x = Some p -> In x U.
Proof. intros [_ K _] E. apply K. apply dget_In in E. apply in_map_iff. exists (x, p). auto. Qed.
Lemma multiply_len b s : List.length (multiply b s) = List.length b.
Proof. unfold multiply. revert b. induction s as [|e s IH]; intros b; cbn [fold_left]; auto. rewrite IH, map_length. auto. Qed.
Lemma divide_len n : forall d q, divide n d = Ok q -> List.length q = List.length n /\ (List.length n <= List.length d)%nat.
Proof.
  induction n as [|e n IH]; intros d q E; cbn [divide] in E. { inversion E; subst. simpl. lia. } destruct d as [|x d]; [discriminate|]. destruct (divide n d) as [t|] eqn:Et; cbn [rbind] in E; [|discriminate].
  inversion E; subst. destruct (IH _ _ Et). simpl. lia.
Qed.

(** the exponent after a message, when all tables have at most [B] rows *)
Definition gpass (B k : nat) : nat := (k + B + B * S (S (k + B + k)))%nat.
Lemma gpass_rises B : rises (gpass B).
Proof. unfold gpass. constructor; intros; nia. Qed.

Lemma pass_follows B U h x s y ps : small B U ps -> follows (gpass B) psim psim (fun ps => pass_message h ps x s y) (fun a ps => pass_message_r a h ps x s y) ps /\
  (forall ps1, pass_message h ps x s y = Ok ps1 -> small B U ps1).
Proof.
  intros HB. split.
  - intros ps1 E k. unfold pass_message in E. destruct (dgetE ps (ss_id s)) as [old|] eqn:E1; cbn [rbind] in E; [|discriminate].
    destruct (dget ps (cl_id x)) as [cp|] eqn:E2; [|discriminate]. cbv zeta in E. set (new := marginalize cp (h_nv h (ss_nodes s))) in *.
    destruct (dgetE (dset ps (ss_id s) new) (cl_id y)) as [yp|] eqn:E3; cbn [rbind] in E; [|discriminate].
    destruct (divide new old) as [ratio|] eqn:E4; cbn [rbind] in E; [|discriminate]. inversion E; subst ps1. clear E.
    unfold dgetE in E1. destruct (dget ps (ss_id s)) as [old0|] eqn:D1; [|discriminate]. inversion E1; subst old0. pose proof (sm_len _ _ _ HB _ _ D1) as L1. pose proof (sm_len _ _ _ HB _ _ E2) as L2. destruct (divide_len _ _ _ E4) as [L3 L4].
    set (k1 := (k + List.length cp)%nat). set (k2 := (k1 + List.length ratio * S (S (k1 + k)))%nat). assert (Hk : (k2 <= gpass B k)%nat). { unfold k2, k1, gpass. apply Nat.add_le_mono; [lia|]. apply Nat.mul_le_mono; lia. }
    eapply near_3; [exact (marginalize_within k cp (h_nv h (ss_nodes s)))|exact (divide_within k1 k _ _ _ E4)|exact (multiply_within (S (k1 + k)) ratio k1 yp)|]. intros r a Ha N1 N2 N3 ps' Hps.
    destruct (psim_get _ _ _ _ _ _ Hps D1) as [old' [O1 O2]].
    destruct (psim_get _ _ _ _ _ _ Hps E2) as [cp' [C1 C2]]. pose proof (N1 cp' C2) as Hn. fold new in Hn. fold k1 in Hn.
    assert (P1 : psim r k1 (dset ps (ss_id s) new) (dset ps' (ss_id s) (marginalize_r a cp' (h_nv h (ss_nodes s))))). { apply psim_set; auto. eapply psim_le; [exact Ha| |exact Hps]. unfold k1; lia. }
    unfold dgetE in E3. destruct (dget (dset ps (ss_id s) new) (cl_id y)) as [yp0|] eqn:D3; [|discriminate]. inversion E3; subst yp0. destruct (psim_get _ _ _ _ _ _ P1 D3) as [yp' [Y1 Y2]].
    destruct (N2 _ _ Hn (pwithin_le r Ha k k _ _ (le_n k) O2)) as [ratio' [R1 R2]].
    unfold pass_message_r, dgetE. rewrite O1. cbn [rbind]. rewrite C1. cbv zeta. rewrite Y1. cbn [rbind]. rewrite R1. cbn [rbind]. eexists. split; [reflexivity|]. apply (psim_le _ k2); auto. apply psim_set.
    + eapply psim_le; [exact Ha| |exact P1]. unfold k2; lia.
    + apply N3; auto.
  - intros ps1 E. unfold pass_message in E. destruct (dgetE ps (ss_id s)) as [old|] eqn:E1; cbn [rbind] in E; [|discriminate].
    destruct (dget ps (cl_id x)) as [cp|] eqn:E2; [|discriminate]. cbv zeta in E. set (new := marginalize cp (h_nv h (ss_nodes s))) in *.
    destruct (dgetE (dset ps (ss_id s) new) (cl_id y)) as [yp|] eqn:E3; cbn [rbind] in E; [|discriminate].
    destruct (divide new old) as [ratio|] eqn:E4; cbn [rbind] in E; [|discriminate]. inversion E; subst ps1. clear E.
    unfold dgetE in E1. destruct (dget ps (ss_id s)) as [old0|] eqn:D1; [|discriminate]. inversion E1; subst old0. destruct (divide_len _ _ _ E4) as [_ L]. pose proof (sm_len _ _ _ HB _ _ D1) as L1.
    assert (S1 : small B U (dset ps (ss_id s) new)) by (apply small_set; auto; [lia|eapply small_in; eauto]). unfold dgetE in E3. destruct (dget (dset ps (ss_id s) new) (cl_id y)) as [yp0|] eqn:D3; [|discriminate]. inversion E3; subst.
    apply small_set; auto. { rewrite multiply_len. apply (sm_len _ _ _ S1 _ _ D3). } eapply small_in; eauto.
Qed.

(** ** walks *)
Definition stsim (r : Qc) (k : nat) (st st' : pstate) : Prop := psim r k (fst st) (fst st') /\ snd st = snd st'.
Lemma stsim_climbs : climbs stsim. Proof. intros r k l s s' Hr H [H1 H2]. split; auto. eapply psim_le; eauto. Qed.
(** the exponent after a walk of depth [f], with at most [M] neighbours of a clique *)
Fixpoint gcol (B M f : nat) (k : nat) : nat := match f with O => k | S f => gpass B (times M (gcol B M f) k) end.
Fixpoint gdis (B M f : nat) (k : nat) : nat := match f with O => k | S f => times M (fun k => gdis B M f (gpass B k)) k end.
Lemma gcol_rises B M f : rises (gcol B M f).
Proof. induction f as [|f IH]; cbn [gcol]. { constructor; auto. } apply (rises_comp (gpass B) (times M (gcol B M f))). apply gpass_rises. apply rises_times; auto. Qed.
Lemma gdis_rises B M f : rises (gdis B M f).
Proof. induction f as [|f IH]; cbn [gdis]. { constructor; auto. } apply (rises_times M (fun k => gdis B M f (gpass B k))). apply rises_comp; auto. apply gpass_rises. Qed.
Lemma gcol_le B M f : forall g k, (f <= g)%nat -> (gcol B M f k <= gcol B M g k)%nat.
Proof.
  induction f as [|f IH]; intros g k H. { apply gcol_rises. } destruct g as [|g]; [lia|]. cbn [gcol]. apply gpass_rises. apply times_ext. apply gcol_rises. intros l. apply IH. lia.
Qed.
Lemma gdis_le B M f : (1 <= M)%nat -> forall g k, (f <= g)%nat -> (gdis B M f k <= gdis B M g k)%nat.
Proof.
  intros HM. induction f as [|f IH]; intros g k H. { apply gdis_rises. } destruct g as [|g]; [lia|]. cbn [gdis]. apply times_ext. { apply rises_comp. apply gdis_rises. apply gpass_rises. } intros l. apply IH. lia.
Qed.
Definition few (M : nat) (o : Ord) (j : jtree) : Prop := forall y nb, In y (jt_cliques j) -> neighboring o j y = Ok nb -> (List.length nb <= M)%nat.
Lemma mapM_len {A C} (f : A -> res C) l : forall l', mapM f l = Ok l' -> List.length l' = List.length l.
Proof.
  induction l as [|x l IH]; intros l' E; cbn [mapM] in E. { inversion E; auto. } destruct (f x); cbn [rbind] in E; [|discriminate]. destruct (mapM f l) as [t|]; cbn [rbind] in E; [|discriminate]. inversion E; subst. simpl. f_equal. auto.
Qed.
Lemma mapM_each {A C} (f : A -> res C) (Q : C -> Prop) l : (forall x y, In x l -> f x = Ok y -> Q y) -> forall l', mapM f l = Ok l' -> Forall Q l'.
Proof.
  induction l as [|x l IH]; intros H l' E; cbn [mapM] in E. { inversion E; constructor. } destruct (f x) eqn:Ex; cbn [rbind] in E; [|discriminate]. destruct (mapM f l) as [t|]; cbn [rbind] in E; [|discriminate]. inversion E; subst.
  constructor; [apply (H x); auto; left; auto|]. apply IH; auto. intros; eapply H; eauto. right; auto.
Qed.
Lemma neighboring_in o j y nb p : neighboring o j y = Ok nb -> In p nb -> In (snd p) (jt_cliques j).
Proof.
  intros E Hp. unfold neighboring in E. match type of E with rbind ?m _ = _ => destruct m as [ls|] eqn:El end; cbn [rbind] in E; [|discriminate]. inversion E; subst nb. apply filter_In in Hp. destruct Hp as [Hp _]. apply in_concat in Hp. destruct Hp as [l [Hl Hp]].
  assert (G : Forall (Forall (fun p : sepset * clique => In (snd p) (jt_cliques j))) ls).
  { apply (mapM_each _ _ _) with (2 := El). intros s ps _ Es. apply (mapM_each _ _ _) with (2 := Es). intros d q _ Ed. destruct (jt_get_sep j s) as [sp|]; cbn [rbind] in Ed; [|discriminate]. unfold jt_get_clq in Ed.
    destruct (dget (jt_nodes j) d) as [[c|s0]|] eqn:D; cbn [rbind] in Ed; try discriminate. inversion Ed; subst q. cbn [snd]. apply dget_In in D. unfold jt_cliques, dvals. apply in_flat_map. exists (JC c). split; [|left; auto]. apply in_map_iff. exists (d, JC c). auto. }
  rewrite Forall_forall in G. specialize (G l Hl). rewrite Forall_forall in G. auto.
Qed.
Lemma mark_new_in l : forall m m' todo, mark_new m l = (m', todo) -> incl todo l.
Proof.
  induction l as [|p l IH]; intros m m' todo E; cbn [mark_new] in E. { inversion E; subst. apply incl_refl. } destruct (mem (cl_id (snd p)) m). { apply IH in E. intros x Hx. right. auto. }
  destruct (mark_new (sadd m (cl_id (snd p))) l) as [m1 t1] eqn:E1. inversion E; subst. apply IH in E1. intros x [->|Hx]; [left|right]; auto.
Qed.
Lemma mark_new_len l : forall m m' todo, mark_new m l = (m', todo) -> (List.length todo <= List.length l)%nat.
Proof.
  induction l as [|p l IH]; intros m m' todo E; cbn [mark_new] in E. { inversion E; subst; auto. } destruct (mem (cl_id (snd p)) m). { apply IH in E. simpl; lia. }
  destruct (mark_new (sadd m (cl_id (snd p))) l) as [m1 t1] eqn:E1. inversion E; subst. apply IH in E1. simpl; lia.
Qed.

Section Walks.
  Context (B : nat) (U : list string) (M : nat) (o : Ord) (j : jtree) (HM : few M o j).
  Definition smallst (st : pstate) : Prop := small B U (fst st).
  Definition inj (l : list (sepset * clique)) : Prop := forall p, In p l -> In (snd p) (jt_cliques j).
  Lemma collect_walk_follows f : forall x s y st, In y (jt_cliques j) -> smallst st -> follows (gcol B M f) stsim stsim (fun st => collect_walk o j f st x s y) (fun a st => collect_walk_r a o j f st x s y) st /\
    (forall st1, collect_walk o j f st x s y = Ok st1 -> smallst st1).
  Proof using HM.
    induction f as [|f IH]; intros x s y st Hy HS. { split. { intros st1 E; discriminate. } cbn [collect_walk]. discriminate. }
    assert (FF : forall todo m, inj todo -> (List.length todo <= M)%nat -> follows (times M (gcol B M f)) stsim stsim (fun st => foldM (fun st (p : sepset * clique) => collect_walk o j f st y (fst p) (snd p)) todo st)
       (fun a st => foldM (fun st p => collect_walk_r a o j f st y (fst p) (snd p)) todo st) (fst st, m) /\ (forall st1, foldM (fun st (p : sepset * clique) => collect_walk o j f st y (fst p) (snd p)) todo (fst st, m) = Ok st1 -> smallst st1)).
    { intros todo m Hi Hl. apply (follows_steps (gcol B M f) M stsim smallst (fun st (p : sepset * clique) => collect_walk o j f st y (fst p) (snd p)) (fun a st p => collect_walk_r a o j f st y (fst p) (snd p))); auto using stsim_climbs, gcol_rises. }
    cbn [collect_walk]. split.
    - intros st1 E k. cbn [collect_walk collect_walk_r gcol] in *.
      destruct (neighboring o j y) as [nb|] eqn:En; cbn [rbind] in E; [|discriminate]. destruct (mark_new (snd st) nb) as [m todo] eqn:Em.
      destruct (foldM (fun st p => collect_walk o j f st y (fst p) (snd p)) todo (fst st, m)) as [st2|] eqn:E2; cbn [rbind] in E; [|discriminate].
      destruct (pass_message (jt_heap j) (fst st2) y s x) as [ps|] eqn:E3; cbn [rbind] in E; [|discriminate]. inversion E; subst st1.
      destruct (FF todo m) as [F1 F2]. { intros p Hp. apply (mark_new_in _ _ _ _ Em) in Hp. eapply neighboring_in; eauto. } { apply mark_new_len in Em. pose proof (HM _ _ Hy En). lia. }
      destruct (pass_follows B U (jt_heap j) y s x (fst st2) (F2 st2 E2)) as [G1 _]. eapply near_2; [exact (F1 st2 E2 k)|exact (G1 ps E3 (times M (gcol B M f) k))|]. intros r a _ N1 N2 st' [S1 S2]. cbn [rbind]. rewrite <- S2, Em.
      destruct (N1 (fst st', m)) as [st2' [A1 [A2 A3]]]. { split; auto. } rewrite A1. cbn [rbind]. destruct (N2 (fst st2') A2) as [ps' [B1 B2]]. rewrite B1. cbn [rbind].
      eexists. split; [reflexivity|]. split; auto.
    - intros st1 E. destruct (neighboring o j y) as [nb|] eqn:En; cbn [rbind] in E; [|discriminate]. destruct (mark_new (snd st) nb) as [m todo] eqn:Em.
      destruct (foldM (fun st p => collect_walk o j f st y (fst p) (snd p)) todo (fst st, m)) as [st2|] eqn:E2; cbn [rbind] in E; [|discriminate].
      destruct (pass_message (jt_heap j) (fst st2) y s x) as [ps|] eqn:E3; cbn [rbind] in E; [|discriminate]. inversion E; subst st1.
      destruct (FF todo m) as [F1 F2]. { intros p Hp. apply (mark_new_in _ _ _ _ Em) in Hp. eapply neighboring_in; eauto. } { apply mark_new_len in Em. pose proof (HM _ _ Hy En). lia. } destruct (pass_follows B U (jt_heap j) y s x (fst st2) (F2 st2 E2)) as [_ G2]. apply (G2 ps E3).
  Qed.
  Lemma spread_follows (d : pstate -> clique -> res pstate) (dr : arith -> pstate -> clique -> res pstate) g y : rises g ->
    (forall z st, In z (jt_cliques j) -> smallst st -> follows g stsim stsim (fun st => d st z) (fun a st => dr a st z) st /\ (forall st1, d st z = Ok st1 -> smallst st1)) ->
    forall todo st m, inj todo -> (List.length todo <= M)%nat -> smallst st -> follows (times M (fun k => g (gpass B k))) stsim stsim (fun st => foldM (fun st (p : sepset * clique) => ps <- pass_message (jt_heap j) (fst st) y (fst p) (snd p) ;; d (ps, snd st) (snd p)) todo st)
      (fun a st => foldM (fun st p => ps <- pass_message_r a (jt_heap j) (fst st) y (fst p) (snd p) ;; dr a (ps, snd st) (snd p)) todo st) (fst st, m) /\
      (forall st1, foldM (fun st (p : sepset * clique) => ps <- pass_message (jt_heap j) (fst st) y (fst p) (snd p) ;; d (ps, snd st) (snd p)) todo (fst st, m) = Ok st1 -> smallst st1).
  Proof using.
    intros Hg HD todo st m Hi Hl HS.
    apply (follows_steps (fun k => g (gpass B k)) M stsim smallst (fun st (p : sepset * clique) => ps <- pass_message (jt_heap j) (fst st) y (fst p) (snd p) ;; d (ps, snd st) (snd p))
      (fun a st p => ps <- pass_message_r a (jt_heap j) (fst st) y (fst p) (snd p) ;; dr a (ps, snd st) (snd p))); auto using stsim_climbs. { apply rises_comp; auto using gpass_rises. }
    intros st0 p H0 Hp. destruct (pass_follows B U (jt_heap j) y (fst p) (snd p) (fst st0) H0) as [G1 G2]. split.
    - intros st2 E2 k0. destruct (pass_message (jt_heap j) (fst st0) y (fst p) (snd p)) as [ps|] eqn:E3; cbn [rbind] in E2; [|discriminate]. destruct (HD (snd p) (ps, snd st0) (Hi p Hp) (G2 ps eq_refl)) as [K1 _].
      eapply near_2; [exact (G1 ps E3 k0)|exact (K1 st2 E2 (gpass B k0))|]. intros r a _ N1 N2 st' [S1 S2]. destruct (N1 (fst st') S1) as [ps' [A1 A2]]. rewrite A1. cbn [rbind]. apply N2; auto. split; auto.
    - intros st2 E2. destruct (pass_message (jt_heap j) (fst st0) y (fst p) (snd p)) as [ps|] eqn:E3; cbn [rbind] in E2; [|discriminate]. destruct (HD (snd p) (ps, snd st0) (Hi p Hp) (G2 ps eq_refl)) as [_ K2]. auto.
  Qed.
  Lemma distribute_walk_follows f : forall y st, In y (jt_cliques j) -> smallst st -> follows (gdis B M f) stsim stsim (fun st => distribute_walk o j f st y) (fun a st => distribute_walk_r a o j f st y) st /\
    (forall st1, distribute_walk o j f st y = Ok st1 -> smallst st1).
  Proof using HM.
    induction f as [|f IH]; intros y st Hy HS. { split. { intros st1 E; discriminate. } cbn [distribute_walk]. discriminate. }
    pose proof (spread_follows (distribute_walk o j f) (fun a => distribute_walk_r a o j f) (gdis B M f) y (gdis_rises B M f) IH) as FF. cbn [distribute_walk]. split.
    - intros st1 E k. cbn [distribute_walk distribute_walk_r gdis] in *.
      destruct (neighboring o j y) as [nb|] eqn:En; cbn [rbind] in E; [|discriminate]. destruct (mark_new (snd st) nb) as [m todo] eqn:Em.
      destruct (FF todo st m) as [F1 _]; auto. { intros p Hp. apply (mark_new_in _ _ _ _ Em) in Hp. eapply neighboring_in; eauto. } { apply mark_new_len in Em. pose proof (HM _ _ Hy En). lia. } eapply near_1; [exact (F1 st1 E k)|]. intros r a _ N1 st' [S1 S2]. cbn [rbind]. rewrite <- S2, Em. apply N1; auto. split; auto.
    - intros st1 E. destruct (neighboring o j y) as [nb|] eqn:En; cbn [rbind] in E; [|discriminate]. destruct (mark_new (snd st) nb) as [m todo] eqn:Em.
      destruct (FF todo st m) as [_ F2]; auto. { intros p Hp. apply (mark_new_in _ _ _ _ Em) in Hp. eapply neighboring_in; eauto. } { apply mark_new_len in Em. pose proof (HM _ _ Hy En). lia. }
  Qed.
  Context (F : nat) (HF : (walk_fuel j <= F)%nat).
  Lemma collect_follows x st : In x (jt_cliques j) -> smallst st -> follows (times M (gcol B M F)) stsim stsim (fun st => collect o j st x) (fun a st => collect_r a o j st x) st /\ (forall st1, collect o j st x = Ok st1 -> smallst st1).
  Proof using HM HF.
    intros Hx HS. assert (FF : forall nb m, inj nb -> (List.length nb <= M)%nat -> follows (times M (gcol B M F)) stsim stsim (fun st => foldM (fun st (p : sepset * clique) => collect_walk o j (walk_fuel j) st x (fst p) (snd p)) nb st)
       (fun a st => foldM (fun st p => collect_walk_r a o j (walk_fuel j) st x (fst p) (snd p)) nb st) (fst st, m) /\ (forall st1, foldM (fun st (p : sepset * clique) => collect_walk o j (walk_fuel j) st x (fst p) (snd p)) nb (fst st, m) = Ok st1 -> smallst st1)).
    { intros nb m Hi Hl. apply (follows_steps (gcol B M F) M stsim smallst (fun st (p : sepset * clique) => collect_walk o j (walk_fuel j) st x (fst p) (snd p)) (fun a st p => collect_walk_r a o j (walk_fuel j) st x (fst p) (snd p))); auto using stsim_climbs, gcol_rises.
      intros s p H0 Hp. destruct (collect_walk_follows (walk_fuel j) x (fst p) (snd p) s (Hi p Hp) H0) as [K1 K2]. split; auto. eapply follows_le; [exact stsim_climbs| |exact K1]. intros k. apply gcol_le; auto. }
    split.
    - intros st1 E k. unfold collect, collect_r in *. cbv zeta in *. destruct (neighboring o j x) as [nb|] eqn:En; cbn [rbind] in E; [|discriminate].
      destruct (FF nb (mark_all (sadd (snd st) (cl_id x)) nb) (fun p => neighboring_in o j x nb p En) (HM _ _ Hx En)) as [F1 _]. eapply near_1; [exact (F1 st1 E k)|]. intros r a _ N1 st' [S1 S2]. cbn [rbind]. rewrite <- S2. apply N1; auto. split; auto.
    - intros st1 E. unfold collect in E. cbv zeta in E. destruct (neighboring o j x) as [nb|] eqn:En; cbn [rbind] in E; [|discriminate]. destruct (FF nb (mark_all (sadd (snd st) (cl_id x)) nb) (fun p => neighboring_in o j x nb p En) (HM _ _ Hx En)) as [_ F2]. auto.
  Qed.
  Lemma distribute_follows x st : In x (jt_cliques j) -> (1 <= M)%nat -> smallst st -> follows (times M (fun k => gdis B M F (gpass B k))) stsim stsim (fun st => distribute o j st x) (fun a st => distribute_r a o j st x) st /\ (forall st1, distribute o j st x = Ok st1 -> smallst st1).
  Proof using HM HF.
    intros Hx H1 HS. assert (FF := spread_follows (distribute_walk o j (walk_fuel j)) (fun a => distribute_walk_r a o j (walk_fuel j)) (gdis B M F) x (gdis_rises B M F)).
    assert (HD : forall z st, In z (jt_cliques j) -> smallst st -> follows (gdis B M F) stsim stsim (fun st => distribute_walk o j (walk_fuel j) st z) (fun a st => distribute_walk_r a o j (walk_fuel j) st z) st /\ (forall st1, distribute_walk o j (walk_fuel j) st z = Ok st1 -> smallst st1)).
    { intros z s Hz H0. destruct (distribute_walk_follows (walk_fuel j) z s Hz H0) as [K1 K2]. split; auto. eapply follows_le; [exact stsim_climbs| |exact K1]. intros k. apply gdis_le; auto. }
    specialize (FF HD). split.
    - intros st1 E k. unfold distribute, distribute_r in *. cbv zeta in *. destruct (neighboring o j x) as [nb|] eqn:En; cbn [rbind] in E; [|discriminate].
      destruct (FF nb st (mark_all (sadd (snd st) (cl_id x)) nb) (fun p => neighboring_in o j x nb p En) (HM _ _ Hx En) HS) as [F1 _]. eapply near_1; [exact (F1 st1 E k)|]. intros r a _ N1 st' [S1 S2]. cbn [rbind]. rewrite <- S2. apply N1; auto. split; auto.
    - intros st1 E. unfold distribute in E. cbv zeta in E. destruct (neighboring o j x) as [nb|] eqn:En; cbn [rbind] in E; [|discriminate]. destruct (FF nb st (mark_all (sadd (snd st) (cl_id x)) nb) (fun p => neighboring_in o j x nb p En) (HM _ _ Hx En) HS) as [_ F2]. auto.
  Qed.
End Walks.

(** ** the walks do not look at the potentials of the tree they are given *)
Lemma fold_ext {A B} (f g : A -> B -> res A) l : (forall a b, f a b = g a b) -> forall a, foldM f l a = foldM g l a.
Proof. intros H. induction l as [|b l IH]; intros a; simpl; auto. rewrite H. destruct (g a b); cbn [rbind]; auto. Qed.
Lemma collect_walk_pots a o j ps f : forall st x s y, collect_walk_r a o (set_jpots j ps) f st x s y = collect_walk_r a o j f st x s y.
Proof.
  induction f as [|f IH]; intros st x s y; cbn [collect_walk_r]; auto. change (neighboring o (set_jpots j ps) y) with (neighboring o j y).
  destruct (neighboring o j y) as [nb|]; cbn [rbind]; auto. destruct (mark_new (snd st) nb) as [m todo].
  erewrite fold_ext; [reflexivity|]. intros st0 p. apply IH.
Qed.
Lemma distribute_walk_pots a o j ps f : forall st y, distribute_walk_r a o (set_jpots j ps) f st y = distribute_walk_r a o j f st y.
Proof.
  induction f as [|f IH]; intros st y; cbn [distribute_walk_r]; auto. change (neighboring o (set_jpots j ps) y) with (neighboring o j y).
  destruct (neighboring o j y) as [nb|]; cbn [rbind]; auto. destruct (mark_new (snd st) nb) as [m todo].
  apply fold_ext. intros st0 p. change (jt_heap (set_jpots j ps)) with (jt_heap j). destruct (pass_message_r _ _ _ _ _ _); cbn [rbind]; auto.
Qed.
Lemma collect_pots a o j ps st x : collect_r a o (set_jpots j ps) st x = collect_r a o j st x.
Proof.
  unfold collect_r. change (neighboring o (set_jpots j ps) x) with (neighboring o j x). destruct (neighboring o j x) as [nb|]; cbn [rbind]; auto.
  apply fold_ext. intros st0 p. change (walk_fuel (set_jpots j ps)) with (walk_fuel j). apply collect_walk_pots.
Qed.
Lemma distribute_pots a o j ps st x : distribute_r a o (set_jpots j ps) st x = distribute_r a o j st x.
Proof.
  unfold distribute_r. change (neighboring o (set_jpots j ps) x) with (neighboring o j x). destruct (neighboring o j x) as [nb|]; cbn [rbind]; auto.
  apply fold_ext. intros st0 p. change (walk_fuel (set_jpots j ps)) with (walk_fuel j). change (jt_heap (set_jpots j ps)) with (jt_heap j).
  destruct (pass_message_r _ _ _ _ _ _); cbn [rbind]; auto. apply distribute_walk_pots.
Qed.

(** ** trees *)
Definition jsim (r : Qc) (k : nat) (j j' : jtree) : Prop := j' = set_jpots j (jt_pots j') /\ psim r k (jt_pots j) (jt_pots j').
Lemma jsim_climbs : climbs jsim. Proof. intros r k l s s' Hr H [H1 H2]. split; auto. eapply psim_le; eauto. Qed.
Definition gprop (B M F k : nat) : nat := times M (fun k => gdis B M F (gpass B k)) (times M (gcol B M F) k).
Lemma gprop_rises B M F : rises (gprop B M F).
Proof.
  apply (rises_comp (times M (fun k => gdis B M F (gpass B k))) (times M (gcol B M F))); apply rises_times. { apply rises_comp. apply gdis_rises. apply gpass_rises. } apply gcol_rises.
Qed.
Lemma propagate_follows B U M F o j : few M o j -> (1 <= M)%nat -> (walk_fuel j <= F)%nat -> small B U (jt_pots j) ->
  follows (gprop B M F) jsim jsim (propagate o) (fun a => propagate_r a o) j /\ (forall j1, propagate o j = Ok j1 -> exists ps, j1 = set_jpots j ps /\ small B U ps).
Proof.
  intros HM H1 HF HS. split.
  - intros j1 E k. unfold propagate in E. destruct (isort cl_leb (jt_cliques j)) as [|x cs] eqn:Ex; [discriminate|].
    assert (Hx : In x (jt_cliques j)) by (apply (isort_In cl_leb); rewrite Ex; left; auto).
    destruct (collect o j (jt_pots j, []) x) as [st1|] eqn:E1; cbn [rbind] in E; [|discriminate]. destruct (distribute o j (fst st1, []) x) as [st2|] eqn:E2; cbn [rbind] in E; [|discriminate].
    destruct (collect_follows B U M o j HM F HF x (jt_pots j, []) Hx HS) as [C1 C2]. destruct (distribute_follows B U M o j HM F HF x (fst st1, []) Hx H1 (C2 st1 E1)) as [D1 D2].
    inversion E; subst j1. eapply near_2; [exact (C1 st1 E1 k)|exact (D1 st2 E2 (times M (gcol B M F) k))|]. intros r a _ N1 N2 j' [S1 S2].
    set (ps' := jt_pots j') in *. rewrite S1. unfold propagate_r. change (jt_cliques (set_jpots j ps')) with (jt_cliques j). rewrite Ex. rewrite collect_pots.
    change (jt_pots (set_jpots j ps')) with ps'. destruct (N1 (ps', [])) as [st1' [A1 [A2 A3]]]. { split; auto. } rewrite A1. cbn [rbind]. rewrite distribute_pots.
    destruct (N2 (fst st1', [])) as [st2' [B1 [B2 B3]]]. { split; auto. } rewrite B1. cbn [rbind]. eexists. split; [reflexivity|]. split; auto.
  - intros j1 E. unfold propagate in E. destruct (isort cl_leb (jt_cliques j)) as [|x cs] eqn:Ex; [discriminate|].
    assert (Hx : In x (jt_cliques j)) by (apply (isort_In cl_leb); rewrite Ex; left; auto).
    destruct (collect o j (jt_pots j, []) x) as [st1|] eqn:E1; cbn [rbind] in E; [|discriminate]. destruct (distribute o j (fst st1, []) x) as [st2|] eqn:E2; cbn [rbind] in E; [|discriminate].
    destruct (collect_follows B U M o j HM F HF x (jt_pots j, []) Hx HS) as [_ C2]. destruct (distribute_follows B U M o j HM F HF x (fst st1, []) Hx H1 (C2 st1 E1)) as [_ D2].
    inversion E; subst j1. exists (fst st2). split; auto. apply (D2 st2 E2).
Qed.

(** tables and likelihoods at least 0, and small *)
Definition ppos (p : potential) : Prop := Forall (fun e => 0 <= pe_val e) p.
Definition jkeys (j : jtree) : list string := map cl_id (jt_cliques j) ++ map ss_id (jt_sepsets j).
Record tpos (B : nat) (j : jtree) : Prop := {
  tp_one : (1 <= B)%nat;
  tp_heap : forall i n p, In i (jt_bbn_ids j) -> dget (jt_heap j) i = Some n -> n_pot n = Some p -> ppos p /\ (List.length p <= B)%nat;
  tp_vals : forall i n, In i (jt_bbn_ids j) -> dget (jt_heap j) i = Some n -> (List.length (n_values n) <= B)%nat;
  tp_evid : forall i m v p, dget (jt_evid j) i = Some m -> dget m v = Some p -> ppos p /\ (List.length p <= B)%nat;
  tp_pots : small B (jkeys j) (jt_pots j);
  tp_tabs : forall ns, In ns (map cl_nodes (jt_cliques j) ++ map ss_nodes (jt_sepsets j)) -> (List.length (potential_from_nodes (h_nv (jt_heap j) ns)) <= B)%nat;
  tp_ids : (List.length (jt_bbn_ids j) <= B)%nat;
  tp_nbrs : forall x, In x (dkeys (jt_nodes j)) -> (List.length (jt_neighbors j x) <= B)%nat;
  tp_fuel : (walk_fuel j <= B)%nat;
  tp_kid : forall k n, In (k, n) (jt_nodes j) -> k = j_id n }.
Lemma ppos_within r p : ppos p -> pwithin r 0 p p.
Proof. intros H. induction H as [|e p He Hp IH]; constructor; auto. split; auto. apply within_refl; auto. Qed.
Lemma pfn_pos ns : ppos (potential_from_nodes ns).
Proof. apply Forall_forall. intros e He. apply in_map_iff in He. destruct He as [vs [<- _]]. cbn [pe_val]. discriminate. Qed.
Lemma sum_len {A} n (ls : list (list A)) : Forall (fun l => (List.length l <= n)%nat) ls -> (List.length (List.concat ls) <= List.length ls * n)%nat.
Proof. induction 1 as [|l ls H1 H2 IH]; cbn [List.concat List.length]; [lia|]. rewrite app_length. lia. Qed.
Lemma filter_le {A} (f : A -> bool) l : (List.length (filter f l) <= List.length l)%nat.
Proof. induction l as [|x l IH]; simpl; auto. destruct (f x); simpl; lia. Qed.
Lemma tpos_few B j o : ord_ok o -> tpos B j -> few (B * B) o j.
Proof.
  intros Ho HP y nb Hy E. unfold neighboring in E. match type of E with rbind ?m _ = _ => destruct m as [ls|] eqn:El end; cbn [rbind] in E; [|discriminate]. inversion E; subst nb. eapply Nat.le_trans; [apply filter_le|].
  eapply Nat.le_trans; [apply (sum_len B)|].
  - apply (mapM_each _ _ _) with (2 := El). intros s ps _ Es. pose proof (mapM_len _ _ _ Es) as El'. rewrite El', (Permutation_length (proj2 Ho s _)). destruct (in_dec string_dec s (dkeys (jt_nodes j))) as [H|H]; [apply (tp_nbrs _ _ HP); auto|].
    destruct (sord o s (jt_neighbors j s)) as [|d t] eqn:Ed. { rewrite <- (Permutation_length (proj2 Ho s (jt_neighbors j s))), Ed. simpl. lia. }
    exfalso. cbn [mapM] in Es. unfold jt_get_sep in Es. destruct (dget (jt_nodes j) s) as [n|] eqn:D; [|discriminate]. apply H. apply dget_In in D. apply in_map_iff. exists (s, n). auto.
  - apply mapM_len in El. rewrite El, (Permutation_length (proj2 Ho (cl_id y) _)). apply Nat.mul_le_mono_r. apply (tp_nbrs _ _ HP).
    unfold jt_cliques, dvals in Hy. apply in_flat_map in Hy. destruct Hy as [n [Hn Hc]]. apply in_map_iff in Hn. destruct Hn as [[k n'] [<- Hn]]. cbn [snd] in Hc. destruct n' as [c|s]; [|destruct Hc]. destruct Hc as [->|[]]. pose proof (tp_kid _ _ HP _ _ Hn) as Hk. apply in_map_iff. exists (k, JC y). auto.
Qed.

(** initialization forgets the potentials of before *)
Definition pmost (r : Qc) (k : nat) (D : list string) (ps ps' : pots) : Prop :=
  Forall2 (fun p p' => fst p = fst p' /\ pwithin r k (snd p) (snd p') /\ (In (fst p) D -> pwithin r 0 (snd p) (snd p'))) ps ps'.
Lemma pmost_set r k D ps ps' x p : 1 <= r -> NoDup (dkeys ps) -> pmost r k D ps ps' -> ppos p -> pmost r k (x :: D) (dset ps x p) (dset ps' x p).
Proof.
  intros Hr Hn F Hp. assert (H0 : pwithin r 0 p p) by (apply ppos_within; auto). assert (Hk : pwithin r k p p) by (eapply pwithin_le; [exact Hr| |exact H0]; lia).
  induction F as [|[y q] [y' q'] ps ps' [E [H1 H2]] F IH]; simpl. { constructor; [repeat split; auto|constructor]. }
  cbn [fst snd] in *. subst y'. inversion Hn as [|? ? N1 N2]; subst. destruct (String.eqb_spec x y) as [->|Hxy]; constructor; cbn [fst snd]; auto.
  - clear - F N1. induction F as [|a b ps ps' [A1 [A2 A3]] F IH]; constructor.
    + repeat split; auto. intros [Ea|Ha]; auto. exfalso. apply N1. left. auto.
    + apply IH. intros H. apply N1. right. auto.
  - repeat split; auto. intros [Ea|Ha]; auto. congruence.
  - apply IH; auto.
Qed.
Section Fresh.
  Context (r : Qc) (k : nat) (Hr : 1 <= r) (B : nat) (U : list string) {X : Type} (key : X -> string) (nodes : X -> list Z).
  Let step := fun j (c : X) => add_potential j (key c) (potential_from_nodes (h_nv (jt_heap j) (nodes c))).
  Lemma step_small l : forall j, (forall c, In c l -> In (key c) U /\ (List.length (potential_from_nodes (h_nv (jt_heap j) (nodes c))) <= B)%nat) -> small B U (jt_pots j) -> small B U (jt_pots (fold_left step l j)).
  Proof using.
    induction l as [|c l IH]; intros j H HS; cbn [fold_left]; auto. apply IH. { intros d Hd. apply (H d). right; auto. }
    cbn [step add_potential set_jpots jt_pots]. destruct (H c (or_introl eq_refl)). apply small_set; auto.
  Qed.
  Lemma step_most l : forall D j j', NoDup (dkeys (jt_pots j)) -> j' = set_jpots j (jt_pots j') -> pmost r k D (jt_pots j) (jt_pots j') ->
    exists ps', fold_left step l j' = set_jpots (fold_left step l j) ps' /\ pmost r k (map key l ++ D) (jt_pots (fold_left step l j)) ps'.
  Proof using Hr.
    induction l as [|c l IH]; intros D j j' Hn E H; cbn [fold_left map app]. { exists (jt_pots j'). auto. }
    destruct (IH (key c :: D) (step j c) (step j' c)) as [ps' [A1 A2]].
    - cbn [step add_potential set_jpots jt_pots]. apply dset_NoDup; auto.
    - rewrite E. reflexivity.
    - cbn [step add_potential set_jpots jt_pots]. replace (jt_heap j') with (jt_heap j) by (rewrite E; auto). apply pmost_set; auto. apply pfn_pos.
    - exists ps'. split; auto. eapply F2_impl; [|exact A2]. intros p p' [P1 [P2 P3]]. repeat split; auto. intros Hp. apply P3. apply in_or_app. destruct Hp as [Hp|Hp]; [right; left; auto|]. apply in_app_or in Hp. destruct Hp; [left; auto|right; right; auto].
  Qed.
  Lemma step_keeps l : forall j, let j' := fold_left step l j in jt_heap j' = jt_heap j /\ jt_evid j' = jt_evid j /\ jt_nodes j' = jt_nodes j /\ jt_nbrs j' = jt_nbrs j.
  Proof using. induction l as [|c l IH]; intros j; cbn [fold_left]; auto. cbv zeta. destruct (IH (step j c)) as [H1 [H2 [H3 H4]]]. rewrite H1, H2, H3, H4. auto. Qed.
End Fresh.
Lemma init_pots_keeps j : jt_heap (init_pots j) = jt_heap j /\ jt_evid (init_pots j) = jt_evid j /\ jt_nodes (init_pots j) = jt_nodes j /\ jt_nbrs (init_pots j) = jt_nbrs j.
Proof.
  unfold init_pots. match goal with |- context [fold_left _ (jt_sepsets ?u) ?u] => destruct (step_keeps ss_id ss_nodes (jt_sepsets u) u) as [A1 [A2 [A3 A4]]] end. cbv zeta in *. rewrite A1, A2, A3, A4. apply (step_keeps cl_id cl_nodes).
Qed.
Lemma init_pots_small B j : tpos B j -> small B (jkeys j) (jt_pots (init_pots j)).
Proof.
  intros HP. unfold init_pots. set (u := fold_left _ (jt_cliques j) j). destruct (step_keeps cl_id cl_nodes (jt_cliques j) j) as [A1 [A2 [A3 A4]]]. cbv zeta in *. fold u in A1, A2, A3, A4.
  replace (jt_sepsets u) with (jt_sepsets j) by (unfold jt_sepsets; rewrite A3; auto).
  apply (step_small B (jkeys j) ss_id ss_nodes).
  - intros s Hs. rewrite A1. split. { apply in_or_app; right. apply in_map; auto. } apply (tp_tabs _ _ HP). apply in_or_app; right. apply in_map; auto.
  - apply (step_small B (jkeys j) cl_id cl_nodes); [|apply (tp_pots _ _ HP)]. intros c Hc. split. { apply in_or_app; left. apply in_map; auto. } apply (tp_tabs _ _ HP). apply in_or_app; left. apply in_map; auto.
Qed.
Lemma init_pots_sim B j r k j' : tpos B j -> 1 <= r -> jsim r k j j' -> jsim r 0 (init_pots j) (init_pots j').
Proof.
  intros HP Hr [H1 H2]. pose proof (sm_keys _ _ _ (init_pots_small B j HP)) as HK. revert HK. unfold init_pots. set (u := fold_left _ (jt_cliques j) j). destruct (step_keeps cl_id cl_nodes (jt_cliques j) j) as [A1 [A2 [A3 A4]]]. cbv zeta in *. fold u in A1, A2, A3, A4.
  replace (jt_cliques j') with (jt_cliques j) by (rewrite H1; auto).
  destruct (step_most r k Hr cl_id cl_nodes (jt_cliques j) [] j j') as [ps1 [E1 M1]]; auto. { apply (tp_pots _ _ HP). } { eapply F2_impl; [|exact H2]. intros p p' [P1 P2]. repeat split; auto. intros []. }
  fold u in E1, M1. rewrite E1. change (jt_sepsets (set_jpots u ps1)) with (jt_sepsets u).
  assert (Hs : small B (jkeys j) (jt_pots u)). { apply (step_small B (jkeys j) cl_id cl_nodes); [|apply (tp_pots _ _ HP)]. intros c Hc. split. { apply in_or_app; left. apply in_map; auto. } apply (tp_tabs _ _ HP). apply in_or_app; left. apply in_map; auto. }
  destruct (step_most r k Hr ss_id ss_nodes (jt_sepsets u) (map cl_id (jt_cliques j) ++ []) u (set_jpots u ps1)) as [ps2 [E2 M2]]; auto. { apply Hs. }
  intros HK. rewrite E2. split; auto. cbn [set_jpots jt_pots]. set (v := fold_left _ (jt_sepsets u) u) in *.
  assert (G : forall ps ps', incl (dkeys ps) (jkeys j) -> pmost r k (map ss_id (jt_sepsets u) ++ map cl_id (jt_cliques j) ++ []) ps ps' -> psim r 0 ps ps').
  { intros ps ps' Hi F. induction F as [|p p' ps ps' [P1 [P2 P3]] F IH]; constructor.
    - split; auto. apply P3. assert (Hp : In (fst p) (jkeys j)) by (apply Hi; left; auto). replace (jt_sepsets u) with (jt_sepsets j) by (unfold jt_sepsets; rewrite A3; auto). unfold jkeys in Hp. rewrite app_nil_r. apply in_app_or in Hp. apply in_or_app. tauto.
    - apply IH. intros y Hy. apply Hi. right; auto. }
  apply G; auto.
Qed.
