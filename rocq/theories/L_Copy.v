(** copy.deepcopy copies the graph of objects. *)
From Verif Require Import Py M_Copy Spec SpecCopy L_Base.

Lemma put_len h p ob : p < List.length h -> List.length (put_obj h p ob) = List.length h.
Proof. intros H. unfold put_obj. rewrite app_length, firstn_length. cbn [List.length]. rewrite skipn_length. lia. Qed.
Lemma put_at h p ob : p < List.length h -> nth_error (put_obj h p ob) p = Some ob.
Proof. intros H. unfold put_obj. rewrite nth_error_app2; rewrite firstn_length; [|lia]. replace (p - Nat.min p (List.length h)) with 0 by lia. reflexivity. Qed.
Lemma nth_skipn {A} (l : list A) : forall n k, nth_error (skipn n l) k = nth_error l (n + k).
Proof. induction l as [|a l IH]; intros [|n] k; simpl; auto. destruct k; auto. Qed.
Lemma nth_firstn {A} (l : list A) : forall n k, k < n -> nth_error (firstn n l) k = nth_error l k.
Proof. induction l as [|a l IH]; intros [|n] k H; simpl; auto; try lia. destruct k; auto. simpl. apply IH. lia. Qed.
Lemma put_other h p ob r : p < List.length h -> r <> p -> nth_error (put_obj h p ob) r = nth_error h r.
Proof.
  intros H Hr. unfold put_obj. destruct (lt_dec r p) as [L|L].
  - rewrite nth_error_app1; [|rewrite firstn_length; lia]. apply nth_firstn; auto.
  - rewrite nth_error_app2; rewrite firstn_length; [|lia]. replace (r - Nat.min p (List.length h)) with (S (r - S p)) by lia. cbn [nth_error]. rewrite nth_skipn. f_equal. lia.
Qed.

(** [v'] is [v] with references taken through the memo *)
Definition thr (m : memo) (v v' : val) : Prop :=
  match v with At a => v' = At a | Rf p => exists q, dget m p = Some q /\ v' = Rf q end.
Definition thrs (m : memo) (l l' : list (atom * val)) : Prop := Forall2 (fun s s' => fst s' = fst s /\ thr m (snd s) (snd s')) l l'.

Section Copy.
  Variable h0 : heap.
  Notation n0 := (List.length h0).
  (** the objects reached *)
  Variable R : nat -> Prop.
  Hypothesis R_obj : forall p, R p -> exists ob, nth_error h0 p = Some ob /\ o_cls ob <> "JoinTree"%string /\ forall k q, In (k, Rf q) (o_slots ob) -> R q.
  Definition Rv (v : val) : Prop := match v with At _ => True | Rf p => R p end.

  Record inv (h : heap) (m : memo) : Prop := {
    i_old : forall p, p < n0 -> nth_error h p = nth_error h0 p;
    i_len : n0 <= List.length h;
    i_in : forall p q, In (p, q) m -> p < n0 /\ n0 <= q < List.length h;
    i_keys : NoDup (map fst m);
    i_vals : NoDup (map snd m) }.
  Definition filled (h : heap) (m e : memo) : Prop :=
    forall p q, In (p, q) e -> exists ob l, nth_error h0 p = Some ob /\ nth_error h q = Some (mkObj (o_cls ob) l) /\ thrs m (o_slots ob) l.
  Record step (h : heap) (m : memo) (h' : heap) (m' : memo) : Prop := {
    s_inv : inv h' m';
    s_ext : exists e, m' = e ++ m /\ (forall p q, In (p, q) e -> List.length h <= q) /\ filled h' m' e;
    s_same : forall r, r < List.length h -> nth_error h' r = nth_error h r;
    s_len : List.length h <= List.length h' }.

  Lemma ext_get e (m : memo) p q : NoDup (map fst (e ++ m)) -> dget m p = Some q -> dget (e ++ m) p = Some q.
  Proof. intros HN H. apply In_dget; auto. apply in_or_app. right. apply dget_In; auto. Qed.
  Lemma thr_ext e m v v' : NoDup (map fst (e ++ m)) -> thr m v v' -> thr (e ++ m) v v'.
  Proof. intros HN. destruct v as [a|p]; simpl; auto. intros (q & H & ->). exists q. split; auto. apply ext_get; auto. Qed.
  Lemma thrs_ext e m l l' : NoDup (map fst (e ++ m)) -> thrs m l l' -> thrs (e ++ m) l l'.
  Proof. intros HN F. induction F as [|a b l l' [H1 H2] F IH]; constructor; auto. split; auto. apply thr_ext; auto. Qed.
  Lemma step_refl h m : inv h m -> step h m h m.
  Proof. intros I. constructor; auto. exists []. repeat split; auto; intros p q []. Qed.
  Lemma step_trans h m h1 m1 h2 m2 : step h m h1 m1 -> step h1 m1 h2 m2 -> step h m h2 m2.
  Proof.
    intros [I1 (e1 & -> & E1 & F1) S1 L1] [I2 (e2 & -> & E2 & F2) S2 L2]. constructor; auto; try lia.
    - exists (e2 ++ e1). rewrite app_assoc. split; auto. split.
      + intros p q H. apply in_app_or in H. destruct H as [H|H]; [apply E2 in H; lia|apply (E1 p q H)].
      + intros p q H. apply in_app_or in H. destruct H as [H|H]; [rewrite <- app_assoc; apply (F2 p q H)|].
        destruct (F1 p q H) as (ob & l & A & B & C). exists ob, l. split; auto. split.
        * rewrite S2; auto. apply nth_error_Some. congruence.
        * rewrite <- app_assoc. apply thrs_ext; auto. apply (i_keys _ _ I2).
    - intros r Hr. rewrite S2 by lia. apply S1; auto.
  Qed.

  (** what one call of deepcopy must do *)
  Definition good (f : nat) (dc : heap -> memo -> val -> res (heap * memo * val)) : Prop := forall h m v, inv h m -> Rv v -> n0 <= f + List.length m ->
    exists h' m' v', dc h m v = Ok (h', m', v') /\ step h m h' m' /\ thr m' v v'.
  Lemma slots_good f dc : good f dc -> forall l h m, inv h m -> (forall k v, In (k, v) l -> Rv v) -> n0 <= f + List.length m ->
    exists h' m' l', copy_slots dc h m l = Ok (h', m', l') /\ step h m h' m' /\ thrs m' l l'.
  Proof.
    intros G l. induction l as [|[k v] l IH]; intros h m I Hl Hf.
    - exists h, m, []. split; auto. split; [apply step_refl; auto|constructor].
    - destruct (G h m v I) as (h1 & m1 & v' & E1 & T1 & V1); auto. { apply (Hl k). simpl; auto. }
      pose proof (s_inv _ _ _ _ T1) as I1. assert (Hf1 : n0 <= f + List.length m1). { destruct (s_ext _ _ _ _ T1) as (e & -> & _). rewrite app_length. lia. }
      destruct (IH h1 m1 I1) as (h2 & m2 & l' & E2 & T2 & V2); auto. { intros; eapply Hl; simpl; eauto. }
      exists h2, m2, ((k, v') :: l'). cbn [copy_slots]. rewrite E1. cbn [rbind]. rewrite E2. cbn [rbind]. split; auto. split; [eapply step_trans; eauto|].
      constructor; auto. split; auto. simpl. destruct (s_ext _ _ _ _ T2) as (e & -> & _). apply thr_ext; auto. apply (i_keys _ _ (s_inv _ _ _ _ T2)).
  Qed.

  Lemma deepcopy_good : forall f, good f (deepcopy f).
  Proof.
    induction f as [|f IH]; intros h m v I Hv Hf.
    - destruct v as [a|p]; simpl. { exists h, m, (At a). split; auto. split; [apply step_refl; auto|reflexivity]. }
      destruct (dget m p) as [q|] eqn:E. { exists h, m, (Rf q). split; auto. split; [apply step_refl; auto|]. exists q; auto. }
      exfalso. destruct (R_obj p Hv) as (ob & Ho & _). assert (p < n0) by (apply nth_error_Some; congruence).
      assert (K : List.length (p :: map fst m) <= n0).
      { rewrite <- (seq_length n0 0). apply NoDup_incl_length.
        - constructor; [|apply (i_keys _ _ I)]. intros C. apply in_map_iff in C. destruct C as ((p', q) & <- & C). apply In_dget in C; [simpl in E; congruence|]. apply (i_keys _ _ I).
        - intros x [<-|C]; apply in_seq; [lia|]. apply in_map_iff in C. destruct C as ((p', q) & <- & C). apply (i_in _ _ I) in C. simpl. lia. }
      simpl in K. rewrite map_length in K. lia.
    - destruct v as [a|p]; cbn [deepcopy]. { exists h, m, (At a). split; auto. split; [apply step_refl; auto|reflexivity]. }
      destruct (dget m p) as [q|] eqn:E. { exists h, m, (Rf q). split; auto. split; [apply step_refl; auto|]. exists q; auto. }
      destruct (R_obj p Hv) as (ob & Ho & Hc & Hs). assert (Hp : p < n0) by (apply nth_error_Some; congruence).
      rewrite (i_old _ _ I p Hp), Ho. destruct (String.eqb_spec (o_cls ob) "JoinTree"); [congruence|].
      set (q := List.length h). set (h1 := h ++ [mkObj (o_cls ob) []]). set (m1 := (p, q) :: m).
      assert (Hk : ~ In p (map fst m)). { intros C. apply in_map_iff in C. destruct C as ((p', q') & <- & C). apply In_dget in C; [simpl in E; congruence|]. apply (i_keys _ _ I). }
      assert (Lh1 : List.length h1 = S q). { unfold h1. rewrite app_length. simpl. unfold q. lia. }
      pose proof (i_len _ _ I) as L0. fold q in L0.
      assert (I1 : inv h1 m1).
      { constructor.
        - intros r Hr. unfold h1. rewrite nth_error_app1 by (fold q; lia). apply (i_old _ _ I); auto.
        - lia.
        - intros a b [H|H]; [injection H as <- <-; split; auto; lia|]. apply (i_in _ _ I) in H. fold q in H. lia.
        - simpl. constructor; auto. apply (i_keys _ _ I).
        - simpl. constructor; [|apply (i_vals _ _ I)]. intros C. apply in_map_iff in C. destruct C as ((p', q') & E' & C). apply (i_in _ _ I) in C. simpl in E'. subst q'. unfold q in C. lia. }
      destruct (slots_good f (deepcopy f) IH (o_slots ob) h1 m1 I1) as (h2 & m2 & l & E2 & T2 & V2).
      { intros k [a|r] H; simpl; auto. apply (Hs k r H). }
      { unfold m1. simpl. lia. }
      rewrite E2. cbn [rbind]. exists (put_obj h2 q (mkObj (o_cls ob) l)), m2, (Rf q). split; auto.
      destruct T2 as [I2 (e & -> & E3 & F3) S2 L2]. assert (Hq : q < List.length h2) by lia. split.
      + constructor.
        * constructor.
          -- intros r Hr. rewrite put_other by lia. apply (i_old _ _ I2); auto.
          -- rewrite put_len by auto. apply (i_len _ _ I2).
          -- intros a b H. rewrite put_len by auto. apply (i_in _ _ I2); auto.
          -- apply (i_keys _ _ I2).
          -- apply (i_vals _ _ I2).
        * exists (e ++ [(p, q)]). split; [unfold m1; rewrite <- app_assoc; auto|]. split.
          -- intros a b H. apply in_app_or in H. destruct H as [H|[H|[]]]; [apply E3 in H; fold q; lia|]. injection H as <- <-. auto.
          -- intros a b H. apply in_app_or in H. destruct H as [H|[H|[]]].
             ++ destruct (F3 a b H) as (ob' & l' & A & B & C). exists ob', l'. split; auto. split; auto. rewrite put_other; auto. apply E3 in H. lia.
             ++ injection H as <- <-. exists ob, l. split; auto. split; auto. apply put_at; auto.
        * intros r Hr. fold q in Hr. rewrite put_other by lia. rewrite S2 by lia. unfold h1. apply nth_error_app1. auto.
        * rewrite put_len by auto. fold q. lia.
      + exists q. split; auto. apply In_dget; [apply (i_keys _ _ I2)|]. apply in_or_app. right. unfold m1. simpl; auto.
  Qed.

  Lemma inv_start : inv h0 [].
  Proof. split; [auto|auto|intros p q []|constructor|constructor]. Qed.
End Copy.

(** the function the memo gives *)
Definition memo_fn (m : memo) (p : nat) : nat := match dget m p with Some q => q | None => 0 end.
Lemma thr_fn m v v' : thr m v v' -> v' = through (memo_fn m) v.
Proof. destruct v as [a|p]; simpl; auto. intros (q & H & ->). unfold memo_fn. rewrite H. auto. Qed.
Lemma thrs_fn m l l' : thrs m l l' -> l' = slots_through (memo_fn m) l.
Proof.
  intros F. induction F as [|[k v] [k' v'] l l' [H1 H2] F IH]; simpl; auto. simpl in H1, H2. subst k'. rewrite <- (thr_fn _ _ _ H2), IH. reflexivity.
Qed.

Lemma copied_by h h' m l l' : closed h -> step h h [] h' m -> thrs m l l' -> copied h h' (map snd l) (memo_fn m).
Proof.
  intros Hc [I (e & E & E1 & F) S L] V. rewrite app_nil_r in E. subst e.
  assert (K : forall p, reached h (map snd l) p -> exists q, dget m p = Some q).
  { intros p (r & Hr & P). assert (H : exists q, dget m r = Some q).
    { apply in_map_iff in Hr. destruct Hr as ((k, v) & Ev & Hr). simpl in Ev. subst v. clear - V Hr. induction V as [|a b l l' [H1 H2] V IH]; [destruct Hr|].
      destruct Hr as [Hr|Hr]; auto. subst a. simpl in H2. destruct H2 as (q & H2 & _). eauto. }
    clear Hr. induction P as [x|x y z (ob & k & Ho & Hk) P IH]; auto. apply IH. destruct H as (q & Hq). apply dget_In in Hq. destruct (F x q Hq) as (ob' & l1 & A & B & C).
    assert (ob' = ob) by congruence. subst ob'. clear - C Hk. induction C as [|a b l l' [H1 H2] V IH]; [destruct Hk|]. destruct Hk as [Hk|Hk]; auto. subst a. simpl in H2. destruct H2 as (q & H2 & _). eauto. }
  constructor.
  - intros p Hp. apply S; auto.
  - intros p Hp. destruct (K p Hp) as (q & Hq). unfold memo_fn. rewrite Hq. apply dget_In in Hq. apply (i_in _ _ _ I) in Hq. tauto.
  - intros p q Hp Hq. destruct (K p Hp) as (p' & Ep). destruct (K q Hq) as (q' & Eq). unfold memo_fn. rewrite Ep, Eq. intros ->.
    apply dget_In in Ep. apply dget_In in Eq. pose proof (i_vals _ _ _ I) as HN. clear - Ep Eq HN. induction m as [|[a b] m IH]; [destruct Ep|]. simpl in HN. inversion_clear HN as [|? ? H1 H2].
    destruct Ep as [Ep|Ep]; destruct Eq as [Eq|Eq].
    + congruence.
    + injection Ep as -> ->. exfalso. apply H1. apply in_map_iff. exists (q, q'); auto.
    + injection Eq as -> ->. exfalso. apply H1. apply in_map_iff. exists (p, q'); auto.
    + auto.
  - intros p ob Hp Ho. destruct (K p Hp) as (q & Hq). unfold memo_fn at 1. rewrite Hq. apply dget_In in Hq. destruct (F p q Hq) as (ob' & l1 & A & B & C).
    assert (ob' = ob) by congruence. subst ob'. rewrite B, (thrs_fn _ _ _ C). reflexivity.
Qed.

Lemma plain_R h vs : closed h -> (forall p, In (Rf p) vs -> p < List.length h) -> plain h vs ->
  forall p, reached h vs p -> exists ob, nth_error h p = Some ob /\ o_cls ob <> "JoinTree"%string /\ forall k q, In (k, Rf q) (o_slots ob) -> reached h vs q.
Proof.
  intros Hc Hv Hp p Hr. assert (L : p < List.length h).
  { destruct Hr as (q & Hq & P). apply Hv in Hq. induction P as [|x y z S P IH]; auto. apply IH. apply (Hc x y S). }
  destruct (nth_error h p) as [ob|] eqn:E. 2:{ apply nth_error_None in E. lia. }
  exists ob. split; auto. split; [apply (Hp p ob); auto|]. intros k q Hk. destruct Hr as (r & Hr & P). exists r. split; auto.
  clear - P E Hk. induction P as [x|x y z S P IH]. { apply path_step with q; [exists ob, k; auto|constructor]. } apply path_step with y; auto.
Qed.
Lemma reached_len h vs p : closed h -> (forall p, In (Rf p) vs -> p < List.length h) -> reached h vs p -> p < List.length h.
Proof. intros Hc Hv (q & Hq & P). apply Hv in Hq. induction P as [|x y z S P IH]; auto. apply IH. apply (Hc x y S). Qed.
Lemma reached_step h vs p ob k w : reached h vs p -> nth_error h p = Some ob -> In (k, Rf w) (o_slots ob) -> reached h vs w.
Proof.
  intros (r & Hr & P) E Hk. exists r. split; auto. clear - P E Hk. induction P as [x|x y z S P IH]. { apply path_step with w; [exists ob, k; auto|constructor]. } apply path_step with y; auto.
Qed.
(** the new objects are not connected to the old ones *)
Lemma apart h h' vs f : closed h -> (forall p, In (Rf p) vs -> p < List.length h) -> copied h h' vs f ->
  forall p, reached h' (map (through f) vs) p -> exists q, reached h vs q /\ p = f q.
Proof.
  intros Hc Hv C p (r & Hr & P). apply in_map_iff in Hr. destruct Hr as ([a|q] & E & Hq); [discriminate|]. simpl in E. injection E as <-.
  assert (Hq' : reached h vs q) by (exists q; split; auto; constructor). clear Hq.
  remember (f q) as s eqn:Es. revert q Hq' Es. induction P as [x|x y z (ob & k & Ho & Hk) P IH]; intros q Hq ->; eauto.
  pose proof (reached_len h vs q Hc Hv Hq) as L. destruct (nth_error h q) as [ob0|] eqn:E0. 2:{ apply nth_error_None in E0. lia. }
  pose proof (cp_obj _ _ _ _ C q ob0 Hq E0) as E1. rewrite Ho in E1. injection E1 as ->. simpl in Hk. unfold slots_through in Hk. apply in_map_iff in Hk. destruct Hk as ((k', v) & E2 & Hk).
  destruct v as [a|w]; [discriminate|]. simpl in E2. injection E2 as <- <-. apply (IH w); auto. eapply reached_step; eauto.
Qed.

Lemma c76 h v : closed h -> (forall p, v = Rf p -> p < List.length h) -> plain h [v] ->
  exists h' f, deepcopy_top h v = Ok (h', through f v) /\ copied h h' [v] f /\ forall p, reached h' [through f v] p -> List.length h <= p.
Proof.
  intros Hc Hv Hp. assert (Hv' : forall p, In (Rf p) [v] -> p < List.length h) by (intros p [H|[]]; auto).
  destruct (slots_good h (reached h [v]) (List.length h) _ (deepcopy_good h (reached h [v]) (plain_R h [v] Hc Hv' Hp) (List.length h)) [(ANone, v)] h [] (inv_start h)) as (h' & m & l & E & T & V).
  { intros k w [H|[]]. injection H as <- <-. destruct v as [a|p]; simpl; auto. exists p. split; [simpl; auto|constructor]. }
  { lia. }
  pose proof (copied_by h h' m _ _ Hc T V) as C. simpl in C. exists h', (memo_fn m). split; [|split; auto].
  - cbn [copy_slots] in E. unfold deepcopy_top. destruct (deepcopy _ _ _ _) as [[[h1 m1] v']|] eqn:Ed; [|discriminate]. cbn [rbind] in E |- *. injection E as -> -> <-.
    apply thrs_fn in V. simpl in V. injection V as ->. reflexivity.
  - intros p H. destruct (apart h h' [v] _ Hc Hv' C p H) as (q & Hq & ->). apply (cp_new _ _ _ _ C q Hq).
Qed.

Lemma getattr_all ob l : forall vs, Forall2 (fun f v => slot (o_slots ob) f = Some v) l vs ->
  mapM (fun f => v <- getattr ob f ;; Ok (AStr f, v)) l = Ok (combine (map AStr l) vs).
Proof.
  induction l as [|f l IH]; intros vs F; inversion F as [|? v ? vs' H1 H2]; subst; auto. cbn [mapM]. unfold getattr at 1. rewrite H1. cbn [rbind]. rewrite (IH vs' H2). reflexivity.
Qed.
Lemma combine_snd {A B} (l : list A) : forall (l' : list B), List.length l = List.length l' -> map snd (combine l l') = l'.
Proof. induction l as [|a l IH]; intros [|b l'] H; try discriminate; auto. simpl. f_equal. apply IH. simpl in H. lia. Qed.
Lemma through_combine f (l : list atom) : forall vs, slots_through f (combine l vs) = combine l (map (through f) vs).
Proof. unfold slots_through. induction l as [|a l IH]; intros [|v vs]; simpl; auto. f_equal. apply IH. Qed.

Lemma c76_tree h p ob vs : closed h -> nth_error h p = Some ob -> Forall2 (fun f v => slot (o_slots ob) f = Some v) tree_fields vs -> plain h vs ->
  exists h' p' f, deepcopy_tree h p = Ok (h', p') /\ copied h h' vs f /\
    nth_error h' p' = Some (mkObj "JoinTree" (combine (map AStr tree_fields) (map (through f) vs) ++ [(AStr "listener", At ANone)])) /\
    forall q, reached h' [Rf p'] q -> List.length h <= q.
Proof.
  intros Hc Ho F Hp.
  assert (Hv : forall q, In (Rf q) vs -> q < List.length h).
  { intros q Hq. apply (Hc p q). assert (K : forall l f w, slot l f = Some w -> exists k, In (k, w) l).
    { induction l as [|[k w] l IH]; simpl; [discriminate|]. intros f w'. destruct k; try (intros H; destruct (IH f w' H) as (k' & ?); exists k'; auto; fail).
      destruct (String.eqb s f); [intros H; injection H as <-; eexists; eauto|]. intros H; destruct (IH f w' H) as (k' & ?); exists k'; auto. }
    clear - Ho F Hq K. exists ob. revert F Hq. generalize tree_fields. intros l F. induction F as [|f v l vs H F IH]; [intros []|]. intros [->|Hq]; auto.
    destruct (K _ _ _ H) as (k & Hk). exists k. auto. }
  assert (Ln : List.length (map AStr tree_fields) = List.length vs). { rewrite map_length. clear - F. revert F. generalize tree_fields. intros l F. induction F; simpl; auto. }
  unfold deepcopy_tree. rewrite Ho, (getattr_all ob tree_fields vs F). cbn [rbind]. set (l := combine (map AStr tree_fields) vs).
  assert (Sl : map snd l = vs) by (apply combine_snd; auto).
  pose proof (plain_R h vs Hc Hv Hp) as Rh.
  destruct (slots_good h (reached h vs) (List.length h) _ (deepcopy_good h (reached h vs) Rh (List.length h)) l h [] (inv_start h)) as (h' & m & l' & E & T & V).
  { intros k w H. destruct w as [a|q]; simpl; auto. exists q. split; [|constructor]. rewrite <- Sl. apply in_map_iff. exists (k, Rf q); auto. }
  { lia. }
  pose proof (copied_by h h' m _ _ Hc T V) as C. rewrite Sl in C. rewrite E. cbn [rbind].
  set (tree := mkObj "JoinTree" (l' ++ [(AStr "listener", At ANone)])).
  assert (El : l' = combine (map AStr tree_fields) (map (through (memo_fn m)) vs)). { rewrite (thrs_fn _ _ _ V). unfold l. apply through_combine. }
  pose proof (s_len _ _ _ _ _ T) as Len.
  assert (C' : copied h (h' ++ [tree]) vs (memo_fn m)).
  { constructor.
    - intros q Hq. rewrite nth_error_app1 by lia. apply (cp_old _ _ _ _ C); auto.
    - intros q Hq. apply (cp_new _ _ _ _ C) in Hq. rewrite app_length. simpl. lia.
    - apply (cp_one _ _ _ _ C).
    - intros q ob' Hq Ho'. rewrite nth_error_app1. apply (cp_obj _ _ _ _ C); auto. apply (cp_new _ _ _ _ C q Hq). }
  assert (At' : nth_error (h' ++ [tree]) (List.length h') = Some tree). { rewrite nth_error_app2 by lia. rewrite Nat.sub_diag. reflexivity. }
  exists (h' ++ [tree]), (List.length h'), (memo_fn m). split; auto. split; auto. split. { rewrite At'. unfold tree. rewrite El. reflexivity. }
  intros q (r & [Hr|[]] & P). injection Hr as Er. destruct P as [x|x y z S P']; [lia|]. rewrite <- Er in S.
  assert (Hq : reached (h' ++ [tree]) (map (through (memo_fn m)) vs) z).
  { exists y. split; auto. destruct S as (ob' & k & S1 & S2). rewrite At' in S1. injection S1 as <-. unfold tree in S2. simpl in S2. apply in_app_or in S2. destruct S2 as [S2|[S2|[]]]; [|discriminate].
    rewrite El in S2. apply in_combine_r in S2. auto. }
  destruct (apart h _ vs _ Hc Hv C' z Hq) as (w & Hw & ->). apply (cp_new _ _ _ _ C' w Hw).
Qed.
