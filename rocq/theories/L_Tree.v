(** Message passing on a rooted tree of cliques, without marks and fuel, and its effect on the potentials. *)
From Verif Require Import Py M_Graph M_Node M_Pptc Spec L_Base L_Sums L_Table.
Open Scope Qc_scope.

Inductive rt := RN (c : clique) (kids : list (sepset * rt)).
Definition kid := (sepset * rt)%type.
Definition root (t : rt) : clique := match t with RN c _ => c end.
Definition kids_of (t : rt) : list kid := match t with RN _ k => k end.

Section RtInd.
  Context (P : rt -> Prop) (H : forall c kids, (forall s t, In (s, t) kids -> P t) -> P (RN c kids)).
  Fixpoint rt_ind' (t : rt) : P t :=
    match t with
    | RN c kids =>
        H c kids ((fix go (l : list kid) : forall s t, In (s, t) l -> P t :=
                     match l with
                     | [] => fun s t Hi => match Hi with end
                     | p :: l' => fun s t Hi =>
                         match Hi with
                         | or_introl E => eq_rect (snd p) P (rt_ind' (snd p)) t (f_equal snd E)
                         | or_intror Hi' => go l' s t Hi'
                         end
                     end) kids)
    end.
End RtInd.

(** nodes of a tree *)
Fixpoint cliques_of (t : rt) : list clique :=
  match t with RN c kids => c :: flat_map (fun p => cliques_of (snd p)) kids end.
Fixpoint seps_of (t : rt) : list sepset :=
  match t with RN c kids => flat_map (fun p => fst p :: seps_of (snd p)) kids end.
Fixpoint ids_of (t : rt) : list string :=
  match t with RN c kids => cl_id c :: flat_map (fun p => ss_id (fst p) :: ids_of (snd p)) kids end.
Definition kids_ids (l : list kid) : list string := flat_map (fun p => ss_id (fst p) :: ids_of (snd p)) l.

(** variables eliminated below a separation set / below a clique *)
Fixpoint el (S : list Z) (t : rt) : list Z :=
  match t with RN c kids => minus (cl_nodes c) S ++ flat_map (fun p => el (ss_nodes (fst p)) (snd p)) kids end.
Definition elL (l : list kid) : list Z := flat_map (fun p => el (ss_nodes (fst p)) (snd p)) l.
Definition elk (t : rt) : list Z := elL (kids_of t).

(** product of the clique potentials of a tree *)
Fixpoint prodT (F : string -> asg -> Qc) (t : rt) (a : asg) : Qc :=
  match t with RN c kids => F (cl_id c) a * qprod (map (fun p => prodT F (snd p) a) kids) end.
Definition prodL F (l : list kid) (a : asg) : Qc := qprod (map (fun p => prodT F (snd p) a) l).

(** well-formed tree: separators inside both ends *)
Inductive okT : rt -> Prop :=
| okT_node c kids :
    NoDup (cl_nodes c) ->
    (forall s t, In (s, t) kids ->
       NoDup (ss_nodes s) /\ incl (ss_nodes s) (cl_nodes c) /\ incl (ss_nodes s) (cl_nodes (root t)) /\ okT t) ->
    okT (RN c kids).

Lemma okT_inv c kids : okT (RN c kids) -> NoDup (cl_nodes c) /\
    (forall s t, In (s, t) kids ->
       NoDup (ss_nodes s) /\ incl (ss_nodes s) (cl_nodes c) /\ incl (ss_nodes s) (cl_nodes (root t)) /\ okT t).
Proof. intros H; inversion H; subst; auto. Qed.

Fixpoint collectT (h : heap) (ps : pots) (x : clique) (s : sepset) (t : rt) {struct t} : res pots :=
  match t with
  | RN y kids =>
      ps' <- (fix go (ps : pots) (l : list kid) : res pots :=
                match l with
                | [] => Ok ps
                | p :: l' => ps1 <- collectT h ps y (fst p) (snd p) ;; go ps1 l'
                end) ps kids ;;
      pass_message h ps' y s x
  end.
Definition collectL h (y : clique) (l : list kid) (ps : pots) : res pots :=
  foldM (fun ps p => collectT h ps y (fst p) (snd p)) l ps.
Lemma collectT_eq h ps x s y kids :
  collectT h ps x s (RN y kids) = (ps' <- collectL h y kids ps ;; pass_message h ps' y s x).
Proof.
  simpl. f_equal. revert ps. induction kids as [|p l IH]; intros ps; simpl; auto.
  unfold collectL. simpl. destruct (collectT h ps y (fst p) (snd p)); simpl; auto. apply IH.
Qed.

Fixpoint distT (h : heap) (ps : pots) (t : rt) {struct t} : res pots :=
  match t with
  | RN y kids =>
      (fix go (ps : pots) (l : list kid) : res pots :=
         match l with
         | [] => Ok ps
         | p :: l' =>
             ps1 <- (ps0 <- pass_message h ps y (fst p) (root (snd p)) ;; distT h ps0 (snd p)) ;; go ps1 l'
         end) ps kids
  end.
Definition distL h (y : clique) (l : list kid) (ps : pots) : res pots :=
  foldM (fun ps p => ps0 <- pass_message h ps y (fst p) (root (snd p)) ;; distT h ps0 (snd p)) l ps.
Lemma distT_eq h ps y kids : distT h ps (RN y kids) = distL h y kids ps.
Proof.
  simpl. revert ps. induction kids as [|p l IH]; intros ps; simpl; auto.
  unfold distL. simpl. destruct (pass_message h ps y (fst p) (root (snd p))); simpl; auto.
  destruct (distT h a (snd p)); simpl; auto. apply IH.
Qed.

Section Num.
  Context (h : heap).
  Notation dom := (h_values h).
  Notation tab := (tab dom).
  Notation sums := (sums dom).
  Notation okon := (okon dom).
  Context (F : string -> asg -> Qc).  (** the clique potentials before propagation *)

  (** ** single message *)
  Lemma pass_message_tab ps x s y fx fs fy :
    cl_id y <> ss_id s -> 
    NoDup (cl_nodes x) -> NoDup (cl_nodes y) -> NoDup (ss_nodes s) ->
    incl (ss_nodes s) (cl_nodes x) -> incl (ss_nodes s) (cl_nodes y) ->
    (forall v, In v (ss_nodes s) -> NoDup (dom v)) ->
    dep (cl_nodes x) fx ->
    dget ps (cl_id x) = Some (tab (cl_nodes x) fx) ->
    dget ps (ss_id s) = Some (tab (ss_nodes s) fs) ->
    dget ps (cl_id y) = Some (tab (cl_nodes y) fy) ->
    dep (ss_nodes s) fs ->
    let m := sums (minus (cl_nodes x) (ss_nodes s)) fx in
    pass_message h ps x s y =
    Ok (dset (dset ps (ss_id s) (tab (ss_nodes s) m)) (cl_id y) (tab (cl_nodes y) (fun a => fy a * qquot (m a) (fs a)))).
  Proof.
    intros Hne Nx Ny Ns Ix Iy Hd Hfx Ex Es Ey Hfs m. unfold pass_message, dgetE. rewrite Es. simpl. rewrite Ex.
    unfold h_nv. rewrite marginalize_tab by auto. fold m.
    rewrite dget_dset_neq by auto. rewrite Ey. simpl.
    rewrite divide_tab by auto. simpl. f_equal. f_equal.
    assert (Hm : dep (ss_nodes s) m).
    { eapply sums_dep'; [exact Hfx|]. intros v Hv. rewrite minus_In. destruct (in_dec Z.eq_dec v (ss_nodes s)); tauto. }
    apply multiply_tab; auto. intros a b E. rewrite (Hm a b), (Hfs a b); auto.
  Qed.

  (** ** scopes *)
  Definition Fok (t : rt) : Prop := forall c, In c (cliques_of t) -> dep (cl_nodes c) (F (cl_id c)).

  Lemma el_eq S c kids : el S (RN c kids) = minus (cl_nodes c) S ++ elL kids.
  Proof. reflexivity. Qed.
  Lemma elk_eq c kids : elk (RN c kids) = elL kids.
  Proof. reflexivity. Qed.
  Lemma prodT_eq c kids a : prodT F (RN c kids) a = F (cl_id c) a * prodL F kids a.
  Proof. reflexivity. Qed.
  Lemma el_split S t : el S t = minus (cl_nodes (root t)) S ++ elk t.
  Proof. destruct t; reflexivity. Qed.

  Lemma prodT_dep t : okT t -> Fok t -> dep (cl_nodes (root t) ++ elk t) (prodT F t).
  Proof.
    induction t as [c kids IH] using rt_ind'. intros Hok HF. destruct (okT_inv _ _ Hok) as [_ H3]. simpl root. rewrite elk_eq.
    apply (dep_ext _ (fun a => F (cl_id c) a * prodL F kids a)). { intros; rewrite prodT_eq; auto. }
    apply dep_mult.
    - eapply dep_mono; [|apply HF; simpl; auto]. intros v Hv; apply in_or_app; auto.
    - apply dep_qprod. intros [s t] Hi. destruct (H3 s t Hi) as [Hs [I1 [I2 Ht]]].
      eapply dep_mono; [|apply (IH s t Hi Ht)].
      + intros v Hv. apply in_or_app. apply in_app_or in Hv.
        destruct (in_dec Z.eq_dec v (ss_nodes s)) as [Hvs|Hvs]; [left; auto|right].
        apply in_flat_map. exists (s, t); split; auto. simpl. rewrite el_split. apply in_or_app.
        destruct Hv; auto. left. apply minus_In; auto.
      + intros c' Hc'. apply HF. simpl. right. apply in_flat_map. exists (s, t); auto.
  Qed.

  Lemma prodT_dep_sep s t : okT t -> Fok t -> incl (ss_nodes s) (cl_nodes (root t)) ->
    dep (ss_nodes s ++ el (ss_nodes s) t) (prodT F t).
  Proof.
    intros Hok HF Hi. eapply dep_mono; [|apply prodT_dep; auto]. intros v Hv. rewrite el_split. rewrite !in_app_iff, minus_In in *.
    destruct (in_dec Z.eq_dec v (ss_nodes s)); tauto.
  Qed.

  (** message sent upwards by subtree [t] over [s] *)
  Definition mu (s : sepset) (t : rt) : asg -> Qc := sums (el (ss_nodes s) t) (prodT F t).
  Definition phi (t : rt) : asg -> Qc := sums (elk t) (prodT F t).

  Lemma mu_phi s t a : mu s t a = sums (minus (cl_nodes (root t)) (ss_nodes s)) (phi t) a.
  Proof. unfold mu, phi. rewrite el_split, sums_app. auto. Qed.

  Lemma phi_dep t : okT t -> Fok t -> dep (cl_nodes (root t)) (phi t).
  Proof.
    intros Hok HF. unfold phi. eapply sums_dep'; [apply prodT_dep; auto|]. intros x Hx. apply in_app_or in Hx; auto.
  Qed.
  Lemma mu_dep s t : okT t -> Fok t -> incl (ss_nodes s) (cl_nodes (root t)) -> dep (ss_nodes s) (mu s t).
  Proof.
    intros Hok HF Hi. unfold mu. eapply sums_dep'; [apply prodT_dep_sep; eauto|]. intros x Hx. apply in_app_or in Hx; auto.
  Qed.

  Lemma Fok_kid c kids s t : Fok (RN c kids) -> In (s, t) kids -> Fok t.
  Proof. intros HF Hi c' Hc'. apply HF. simpl. right. apply in_flat_map. exists (s, t); auto. Qed.

  (** scope of a list of kids relative to their parent's variables *)
  Definition kidsok (C : list Z) (l : list kid) : Prop :=
    forall s t, In (s, t) l -> NoDup (ss_nodes s) /\ incl (ss_nodes s) C /\ incl (ss_nodes s) (cl_nodes (root t)) /\ okT t /\ Fok t.

  Lemma prodL_dep C l : kidsok C l -> dep (C ++ elL l) (prodL F l).
  Proof.
    intros H. apply dep_qprod. intros [s t] Hi. destruct (H s t Hi) as [Hs [I1 [I2 [Ht HF]]]].
    eapply dep_mono; [|apply (prodT_dep_sep s t); auto]. intros v Hv. apply in_or_app. apply in_app_or in Hv. destruct Hv; auto.
    right. apply in_flat_map. exists (s, t); auto.
  Qed.

  Lemma kids_prod C l a : NoDup (C ++ elL l) -> kidsok C l ->
    qprod (map (fun p => mu (fst p) (snd p) a) l) = sums (elL l) (prodL F l) a.
  Proof.
    induction l as [|[s t] l IH]; intros HN Hk. reflexivity.
    simpl map. rewrite qprod_cons. simpl fst. simpl snd.
    assert (Hk' : kidsok C l) by (intros s' t' Hi; apply Hk; right; auto).
    destruct (Hk s t) as [Hs [I1 [I2 [Ht HF]]]]; [left; auto|].
    change (elL ((s, t) :: l)) with (el (ss_nodes s) t ++ elL l) in *.
    apply NoDup_app_iff in HN. destruct HN as [HC [HN Hd]]. apply NoDup_app_iff in HN. destruct HN as [H1 [H2 H3]].
    rewrite IH; auto.
    2: { apply NoDup_app_intro; auto. intros x Hx Hx'. apply (Hd x Hx), in_or_app; auto. }
    unfold mu. erewrite sums_prod.
    - apply sums_ext. intros b. unfold prodL. simpl. rewrite qprod_cons. reflexivity.
    - apply (prodT_dep_sep s t); auto.
    - apply (prodL_dep C); auto.
    - intros v Hv Hv'. apply in_app_or in Hv'. destruct Hv' as [Hv'|Hv'].
      + apply (Hd v Hv'), in_or_app; auto.
      + apply (H3 v); auto.
    - intros v Hv Hv'. apply in_app_or in Hv'. destruct Hv' as [Hv'|Hv'].
      + apply (Hd v); auto. apply in_or_app; auto.
      + apply (H3 v); auto.
  Qed.

  Lemma phi_eq c kids a : okT (RN c kids) -> Fok (RN c kids) -> NoDup (cl_nodes c ++ elL kids) ->
    phi (RN c kids) a = F (cl_id c) a * qprod (map (fun p => mu (fst p) (snd p) a) kids).
  Proof.
    intros Hok HF HN. destruct (okT_inv _ _ Hok) as [_ H2].
    assert (Hk : kidsok (cl_nodes c) kids).
    { intros s t Hi. destruct (H2 s t Hi) as [? [? [? ?]]]. repeat split; auto. eapply Fok_kid; eauto. }
    rewrite (kids_prod (cl_nodes c)); auto. unfold phi. rewrite elk_eq.
    rewrite <- (sums_factor dom (cl_nodes c)).
    - apply sums_ext. intros; apply prodT_eq.
    - apply HF; simpl; auto.
    - intros v Hv Hc. apply NoDup_app_iff in HN. destruct HN as [_ [_ Hd]]. apply (Hd v); auto.
  Qed.

  (** ** states of the potentials *)
  Definition holds (ps : pots) (i : string) (A : list Z) (f : asg -> Qc) : Prop := dget ps i = Some (tab A f).

  Inductive initT (ps : pots) : rt -> Prop :=
  | initT_node c kids :
      holds ps (cl_id c) (cl_nodes c) (F (cl_id c)) ->
      (forall s t, In (s, t) kids -> holds ps (ss_id s) (ss_nodes s) (fun _ => 1) /\ initT ps t) ->
      initT ps (RN c kids).
  Inductive collT (ps : pots) : rt -> Prop :=
  | collT_node c kids :
      holds ps (cl_id c) (cl_nodes c) (phi (RN c kids)) ->
      (forall s t, In (s, t) kids -> holds ps (ss_id s) (ss_nodes s) (mu s t) /\ collT ps t) ->
      collT ps (RN c kids).

  Lemma initT_inv ps c kids : initT ps (RN c kids) ->
      holds ps (cl_id c) (cl_nodes c) (F (cl_id c)) /\
      (forall s t, In (s, t) kids -> holds ps (ss_id s) (ss_nodes s) (fun _ => 1) /\ initT ps t).
  Proof. intros H; inversion H; subst; auto. Qed.
  Lemma collT_inv ps c kids : collT ps (RN c kids) ->
      holds ps (cl_id c) (cl_nodes c) (phi (RN c kids)) /\
      (forall s t, In (s, t) kids -> holds ps (ss_id s) (ss_nodes s) (mu s t) /\ collT ps t).
  Proof. intros H; inversion H; subst; auto. Qed.

  Lemma ids_of_eq c kids : ids_of (RN c kids) = cl_id c :: kids_ids kids.
  Proof. reflexivity. Qed.
  Lemma ids_root t : In (cl_id (root t)) (ids_of t).
  Proof. destruct t; simpl; auto. Qed.
  Lemma kids_ids_sep s t kids : In (s, t) kids -> In (ss_id s) (kids_ids kids).
  Proof. intros Hi. apply in_flat_map. exists (s, t); simpl; auto. Qed.
  Lemma kids_ids_in s t kids i : In (s, t) kids -> In i (ids_of t) -> In i (kids_ids kids).
  Proof. intros Hi Hx. apply in_flat_map. exists (s, t); simpl; auto. Qed.

  Lemma initT_frame ps ps' t : (forall i, In i (ids_of t) -> dget ps' i = dget ps i) -> initT ps t -> initT ps' t.
  Proof.
    induction t as [c kids IH] using rt_ind'. intros Hf Hi. destruct (initT_inv _ _ _ Hi) as [H2 H3]. constructor.
    - unfold holds in *. rewrite Hf; auto. simpl; auto.
    - intros s t Hk. destruct (H3 s t Hk) as [E1 E2]. split.
      + unfold holds in *. rewrite Hf; auto. simpl. right. eapply kids_ids_sep; eauto.
      + eapply IH; eauto. intros i Hin. apply Hf. simpl. right. eapply kids_ids_in; eauto.
  Qed.
  Lemma collT_frame ps ps' t : (forall i, In i (ids_of t) -> dget ps' i = dget ps i) -> collT ps t -> collT ps' t.
  Proof.
    induction t as [c kids IH] using rt_ind'. intros Hf Hi. destruct (collT_inv _ _ _ Hi) as [H2 H3]. constructor.
    - unfold holds in *. rewrite Hf; auto. simpl; auto.
    - intros s t Hk. destruct (H3 s t Hk) as [E1 E2]. split.
      + unfold holds in *. rewrite Hf; auto. simpl. right. eapply kids_ids_sep; eauto.
      + eapply IH; eauto. intros i Hin. apply Hf. simpl. right. eapply kids_ids_in; eauto.
  Qed.

  Definition domok (vs : list Z) : Prop := forall v, In v vs -> NoDup (dom v).

  Lemma qquot_1 x : qquot x 1 = x.
  Proof.
    unfold qquot, is_zero. destruct (qeqb 0 x) eqn:E; simpl.
    - apply qeqb_true in E; auto.
    - replace (is_zero 1) with false by reflexivity. field. discriminate.
  Qed.

  Lemma sub_NoDup C s t kids : In (s, t) kids -> kidsok C kids -> NoDup (C ++ elL kids) -> okT t ->
    NoDup (cl_nodes (root t) ++ elk t).
  Proof.
    intros Hi Hk HN Ht. destruct (Hk s t Hi) as [Hs [I1 [I2 [_ HF]]]].
    apply NoDup_app_iff in HN. destruct HN as [HC [HN Hd]].
    assert (HNe : NoDup (el (ss_nodes s) t)).
    { clear - Hi HN. unfold elL in HN. apply in_split in Hi. destruct Hi as [l1 [l2 ->]].
      rewrite flat_map_app in HN. simpl in HN. apply NoDup_app_iff in HN. destruct HN as [_ [HN _]].
      apply NoDup_app_iff in HN. tauto. }
    rewrite el_split in HNe. apply NoDup_app_iff in HNe. destruct HNe as [N1 [N2 N3]].
    assert (Hroot : NoDup (cl_nodes (root t))) by (destruct t; inv Ht; auto).
    apply NoDup_app_intro; auto. intros v Hv Hv'.
    destruct (in_dec Z.eq_dec v (ss_nodes s)) as [Hvs|Hvs].
    - apply (Hd v); auto. apply in_flat_map. exists (s, t); split; auto. simpl. rewrite el_split. apply in_or_app; auto.
    - apply (N3 v); auto. apply minus_In; auto.
  Qed.

  (** ** collection *)
  Definition upL (ps : pots) (y : clique) (fy : asg -> Qc) (l : list kid) (ps' : pots) : Prop :=
    holds ps' (cl_id y) (cl_nodes y) (fun a => fy a * qprod (map (fun p => mu (fst p) (snd p) a) l)) /\
    (forall s t, In (s, t) l -> holds ps' (ss_id s) (ss_nodes s) (mu s t) /\ collT ps' t) /\
    (forall i, i <> cl_id y -> ~ In i (kids_ids l) -> dget ps' i = dget ps i).

  Definition upP (t : rt) : Prop := okT t -> Fok t -> NoDup (ids_of t) -> NoDup (cl_nodes (root t) ++ elk t) ->
    domok (cl_nodes (root t) ++ elk t) ->
    forall ps x s fx, initT ps t -> NoDup (cl_nodes x) -> NoDup (ss_nodes s) ->
    incl (ss_nodes s) (cl_nodes x) -> incl (ss_nodes s) (cl_nodes (root t)) ->
    NoDup (cl_id x :: ss_id s :: ids_of t) -> 
    holds ps (ss_id s) (ss_nodes s) (fun _ => 1) -> holds ps (cl_id x) (cl_nodes x) fx ->
    exists ps', collectT h ps x s t = Ok ps' /\
      holds ps' (cl_id x) (cl_nodes x) (fun a => fx a * mu s t a) /\
      holds ps' (ss_id s) (ss_nodes s) (mu s t) /\ collT ps' t /\
      (forall i, i <> cl_id x -> i <> ss_id s -> ~ In i (ids_of t) -> dget ps' i = dget ps i).

  Lemma collectL_gen y kids : (forall s t, In (s, t) kids -> upP t) -> NoDup (cl_nodes y) -> kidsok (cl_nodes y) kids ->
    ~ In (cl_id y) (kids_ids kids) -> NoDup (cl_nodes y ++ elL kids) -> domok (cl_nodes y ++ elL kids) ->
    forall l fy ps, incl l kids -> NoDup (kids_ids l) -> holds ps (cl_id y) (cl_nodes y) fy ->
      (forall s' t', In (s', t') l -> holds ps (ss_id s') (ss_nodes s') (fun _ => 1) /\ initT ps t') ->
      exists ps', collectL h y l ps = Ok ps' /\ upL ps y fy l ps'.
  Proof.
    intros IH H2 Hk Hyn HN Hdom. induction l as [|[s' t'] l IHl]; intros fy ps Hincl HNl Hy Hin.
      - exists ps. split; auto. split; [|split]; auto.
        + unfold holds in *. rewrite Hy. f_equal. apply tab_ext. intros a _. simpl. rewrite qprod_nil. ring.
        + intros ? ? [].
      - assert (Hin' : In (s', t') kids) by (apply Hincl; left; auto).
        destruct (Hk s' t' Hin') as [Ns' [I1 [I2 [Ht' HF']]]].
        simpl in HNl. unfold kids_ids in HNl. simpl in HNl. fold (kids_ids l) in HNl.
        change (ss_id s' :: ids_of t' ++ kids_ids l) with ((ss_id s' :: ids_of t') ++ kids_ids l) in HNl.
        apply NoDup_app_iff in HNl. destruct HNl as [HN1 [HN2 HN3]].
        destruct (Hin s' t') as [Hs1 Ht1]; [left; auto|].
        assert (Hyk : ~ In (cl_id y) (ss_id s' :: ids_of t')).
        { intros Hc. apply Hyn. destruct Hc as [<-|Hc]; [eapply kids_ids_sep|eapply kids_ids_in]; eauto. }
        destruct (IH s' t' Hin' Ht' HF') with (ps := ps) (x := y) (s := s') (fx := fy) as [ps1 [E1 [A1 [A2 [A3 A4]]]]]; auto.
        + inv HN1; auto.
        + eapply sub_NoDup; eauto.
        + intros v Hv. apply Hdom. apply in_or_app. apply in_app_or in Hv.
          destruct (in_dec Z.eq_dec v (ss_nodes s')) as [Hvs|Hvs]; [left; auto|right].
          apply in_flat_map. exists (s', t'); split; auto. simpl. rewrite el_split. apply in_or_app. destruct Hv; auto.
          left. apply minus_In; auto.
        + constructor; auto.
        + destruct (IHl (fun a => fy a * mu s' t' a) ps1) as [ps2 [E2 [B1 [B2 B3]]]]; auto.
          * intros p Hp; apply Hincl; right; auto.
          * intros s2 t2 Hi2. destruct (Hin s2 t2) as [C1 C2]; [right; auto|].
            assert (Hfr : forall i, In i (kids_ids l) -> dget ps1 i = dget ps i).
            { intros i Hi. apply A4.
              - intros ->. apply Hyn. clear - Hi Hincl. unfold kids_ids in *. apply in_flat_map in Hi. destruct Hi as [p [Hp Hi]].
                apply in_flat_map. exists p; split; auto. apply Hincl; right; auto.
              - intros ->. apply (HN3 (ss_id s')); simpl; auto.
              - intros Hc. apply (HN3 i); simpl; auto. }
            split.
            { unfold holds in *. rewrite Hfr; auto. eapply kids_ids_sep; eauto. }
            { eapply initT_frame; [|exact C2]. intros i Hi. apply Hfr. eapply kids_ids_in; eauto. }
          * exists ps2. split; [simpl; unfold collectL; simpl; rewrite E1; simpl; exact E2|].
            assert (Hfr : forall i, In i (ss_id s' :: ids_of t') -> dget ps2 i = dget ps1 i).
            { intros i Hi. apply B3.
              - intros ->. auto.
              - intros Hc. apply (HN3 i); auto. }
            split; [|split].
            { unfold holds in *. rewrite B1. f_equal. apply tab_ext. intros a _. simpl. rewrite qprod_cons. ring. }
            { intros s2 t2 [E|Hi2]; auto. inv E. split.
              - unfold holds in *. rewrite Hfr; simpl; auto.
              - eapply collT_frame; [|exact A3]. intros i Hi. apply Hfr; simpl; auto. }
            { intros i Hi1 Hi2. change (kids_ids ((s', t') :: l)) with (ss_id s' :: ids_of t' ++ kids_ids l) in Hi2.
              simpl in Hi2. rewrite in_app_iff in Hi2. rewrite B3 by tauto. apply A4; auto; intros E; apply Hi2; auto. }
  Qed.

  Lemma collect_up t : upP t.
  Proof.
    induction t as [y kids IH] using rt_ind'.
    intros Hok HF Hids HN Hdom ps x s fx Hinit Nx Ns Isx Isy Hd Hs Hx.
    simpl root in *. rewrite elk_eq in *.
    destruct (okT_inv _ _ Hok) as [H2 H3]. destruct (initT_inv _ _ _ Hinit) as [H4 H5].
    assert (Hk : kidsok (cl_nodes y) kids).
    { intros s' t' Hi. destruct (H3 s' t' Hi) as [? [? [? ?]]]. repeat split; auto. eapply Fok_kid; eauto. }
    rewrite ids_of_eq in *. inversion Hids as [|? ? Hyn Hkn]; subst.
    inversion Hd as [|? ? Hd1 Hd2]; subst. inversion Hd2 as [|? ? Hd3 Hd4]; subst. simpl in Hd1, Hd3.
    destruct (collectL_gen y kids IH H2 Hk Hyn HN Hdom kids (F (cl_id y)) ps) as [ps1 [E1 [A1 [A2 A3]]]]; auto using incl_refl.
    assert (Hphi : holds ps1 (cl_id y) (cl_nodes y) (phi (RN y kids))).
    { unfold holds in *. rewrite A1. f_equal. apply tab_ext. intros a _. symmetry. apply phi_eq; auto. }
    assert (Hx1 : holds ps1 (cl_id x) (cl_nodes x) fx).
    { unfold holds in *. rewrite A3; auto. }
    assert (Hs1 : holds ps1 (ss_id s) (ss_nodes s) (fun _ => 1)).
    { unfold holds in *. rewrite A3; auto. }
    rewrite collectT_eq, E1. simpl.
    erewrite pass_message_tab; eauto.
    2: { intros v Hv. apply Hdom, in_or_app; auto. }
    2: { apply (phi_dep (RN y kids)); auto. }
    2: { apply dep_const. }
    eexists. split; [reflexivity|].
    assert (Hmu : forall a, sums (minus (cl_nodes y) (ss_nodes s)) (phi (RN y kids)) a = mu s (RN y kids) a).
    { intros a. symmetry. apply (mu_phi s (RN y kids)). }
    assert (Hfr : forall i, In i (cl_id y :: kids_ids kids) -> forall p q, dget (dset (dset ps1 (ss_id s) p) (cl_id x) q) i = dget ps1 i).
    { intros i Hi p q. rewrite !dget_dset_neq; auto; intros ->; simpl in *; tauto. }
    split; [|split; [|split]].
    - unfold holds. rewrite dget_dset_eq. f_equal. apply tab_ext. intros a _. rewrite qquot_1, Hmu. auto.
    - unfold holds. rewrite dget_dset_neq by tauto. rewrite dget_dset_eq. f_equal. apply tab_ext. auto.
    - constructor.
      + unfold holds in *. rewrite Hfr; simpl; auto.
      + intros s' t' Hi. destruct (A2 s' t' Hi) as [B1 B2]. split.
        * unfold holds in *. rewrite Hfr; auto. right. eapply kids_ids_sep; eauto.
        * eapply collT_frame; [|exact B2]. intros i Hi'. apply Hfr. right. eapply kids_ids_in; eauto.
    - intros i Hi1 Hi2 Hi3. rewrite !dget_dset_neq by auto. apply A3; intros E; apply Hi3; [left; auto|right; auto].
  Qed.

  Lemma collect_root y kids ps : okT (RN y kids) -> Fok (RN y kids) -> NoDup (ids_of (RN y kids)) ->
    NoDup (cl_nodes y ++ elL kids) -> domok (cl_nodes y ++ elL kids) -> initT ps (RN y kids) ->
    exists ps', collectL h y kids ps = Ok ps' /\ collT ps' (RN y kids) /\
      (forall i, ~ In i (ids_of (RN y kids)) -> dget ps' i = dget ps i).
  Proof.
    intros Hok HF Hids HN Hdom Hinit.
    destruct (okT_inv _ _ Hok) as [H2 H3]. destruct (initT_inv _ _ _ Hinit) as [H4 H5].
    assert (Hk : kidsok (cl_nodes y) kids).
    { intros s' t' Hi. destruct (H3 s' t' Hi) as [? [? [? ?]]]. repeat split; auto. eapply Fok_kid; eauto. }
    rewrite ids_of_eq in *. inversion Hids as [|? ? Hyn Hkn]; subst.
    destruct (collectL_gen y kids (fun s t _ => collect_up t) H2 Hk Hyn HN Hdom kids (F (cl_id y)) ps) as [ps1 [E1 [A1 [A2 A3]]]]; auto using incl_refl.
    exists ps1. split; auto. split.
    - constructor; auto. unfold holds in *. rewrite A1. f_equal. apply tab_ext. intros a _. symmetry. apply phi_eq; auto.
    - intros i Hi. apply A3; intros E; apply Hi; [left; auto|right; auto].
  Qed.

  (** ** distribution *)
  Definition Fnn (t : rt) : Prop := forall c, In c (cliques_of t) -> forall a, okon (cl_nodes c) a -> 0 <= F (cl_id c) a.
  Lemma Fnn_kid c kids s t : Fnn (RN c kids) -> In (s, t) kids -> Fnn t.
  Proof. intros HF Hi c' Hc'. apply HF. simpl. right. apply in_flat_map. exists (s, t); auto. Qed.

  Lemma qprod_nonneg' l : (forall x, In x l -> 0 <= x) -> 0 <= qprod l.
  Proof.
    induction l as [|x l IH]; intros H. rewrite qprod_nil. discriminate.
    rewrite qprod_cons. apply Qcle_0_mult; [apply H; left; auto|apply IH; intros; apply H; right; auto].
  Qed.

  Lemma prodT_nonneg t : okT t -> Fnn t -> forall a, okon (cl_nodes (root t) ++ elk t) a -> 0 <= prodT F t a.
  Proof.
    induction t as [c kids IH] using rt_ind'. intros Hok HF a Ha. destruct (okT_inv _ _ Hok) as [_ H3]. simpl root in *. rewrite elk_eq in *.
    rewrite prodT_eq. apply Qcle_0_mult.
    - apply HF; simpl; auto. intros v Hv. apply Ha, in_or_app; auto.
    - apply qprod_nonneg'. intros x Hx. apply in_map_iff in Hx. destruct Hx as [[s t] [<- Hi]]. simpl.
      destruct (H3 s t Hi) as [Hs [I1 [I2 Ht]]]. eapply IH; eauto.
      + eapply Fnn_kid; eauto.
      + intros v Hv. apply Ha. apply in_or_app. apply in_app_or in Hv.
        destruct (in_dec Z.eq_dec v (ss_nodes s)) as [Hvs|Hvs]; [left; auto|right].
        apply in_flat_map. exists (s, t); split; auto. simpl. rewrite el_split. apply in_or_app.
        destruct Hv; auto. left. apply minus_In; auto.
  Qed.

  Lemma phi_nonneg t a : okT t -> Fnn t -> okon (cl_nodes (root t)) a -> 0 <= phi t a.
  Proof.
    intros Hok HF Ha. unfold phi. apply sums_nonneg_ok with (cl_nodes (root t)); auto. intros b Hb.
    apply prodT_nonneg; auto. intros v Hv. apply Hb. apply in_app_or in Hv. apply in_or_app; tauto.
  Qed.

  Lemma mu_zero s t a : okT t -> Fok t -> Fnn t -> incl (ss_nodes s) (cl_nodes (root t)) -> okon (cl_nodes (root t)) a ->
    mu s t a = 0 -> phi t a = 0.
  Proof.
    intros Hok HF Hn Hi Ha Hz. rewrite mu_phi in Hz.
    eapply (sums_zero_terms dom (minus (cl_nodes (root t)) (ss_nodes s)) (phi t)); [|intros b Hb Ho|exact Hz|auto|].
    - eapply dep_proper, phi_dep; auto.
    - apply phi_nonneg; auto. intros v Hv. destruct (in_dec Z.eq_dec v (ss_nodes s)) as [Hvs|Hvs].
      + rewrite Hb. apply Ha; auto. rewrite minus_In. tauto.
      + apply Ho. apply minus_In; auto.
    - intros v Hv. apply Ha. apply minus_In in Hv; tauto.
  Qed.

  Context (All : list Z) (PT : asg -> Qc) (HAll : NoDup All) (HPT : dep All PT).
  Definition M (A : list Z) : asg -> Qc := sums (minus All A) PT.

  Lemma M_dep A : dep A (M A).
  Proof using HPT. unfold M. eapply sums_dep'; [exact HPT|]. intros x Hx. rewrite minus_In. destruct (in_dec Z.eq_dec x A); tauto. Qed.

  Lemma perm_minus A B : Permutation All (A ++ B) -> Permutation (minus All A) B.
  Proof using HAll.
    intros P. assert (HN : NoDup (A ++ B)) by (eapply Permutation_NoDup; eauto).
    apply NoDup_app_iff in HN. destruct HN as [N1 [N2 N3]].
    apply NoDup_Permutation; auto using minus_NoDup. intros x. rewrite minus_In. split.
    - intros [H1 H2]. apply (Permutation_in _ P) in H1. apply in_app_or in H1. tauto.
    - intros H. split; [|intros Hc; apply (N3 x); auto]. apply (Permutation_in _ (Permutation_sym P)), in_or_app; auto.
  Qed.

  Lemma M_perm A B a : Permutation All (A ++ B) -> M A a = sums B PT a.
  Proof using HAll HPT. intros P. unfold M. apply sums_perm; [eapply dep_proper; eauto|]. apply perm_minus; auto. Qed.

  Lemma M_marg S C a : NoDup C -> NoDup S -> incl S C -> incl C All -> sums (minus C S) (M C) a = M S a.
  Proof using HAll HPT.
    intros NC NS I1 I2. unfold M at 1. rewrite <- sums_app. symmetry. apply M_perm.
    rewrite (minus_perm All C) at 1 by auto. rewrite (minus_perm C S) at 1 by auto. rewrite app_assoc. auto.
  Qed.

  Inductive calT (ps : pots) : rt -> Prop :=
  | calT_node c kids :
      holds ps (cl_id c) (cl_nodes c) (M (cl_nodes c)) ->
      (forall s t, In (s, t) kids -> holds ps (ss_id s) (ss_nodes s) (M (ss_nodes s)) /\ calT ps t) ->
      calT ps (RN c kids).
  Lemma calT_inv ps c kids : calT ps (RN c kids) ->
      holds ps (cl_id c) (cl_nodes c) (M (cl_nodes c)) /\
      (forall s t, In (s, t) kids -> holds ps (ss_id s) (ss_nodes s) (M (ss_nodes s)) /\ calT ps t).
  Proof. intros H; inversion H; subst; auto. Qed.
  Lemma calT_frame ps ps' t : (forall i, In i (ids_of t) -> dget ps' i = dget ps i) -> calT ps t -> calT ps' t.
  Proof.
    induction t as [c kids IH] using rt_ind'. intros Hf Hi. destruct (calT_inv _ _ _ Hi) as [H2 H3]. constructor.
    - unfold holds in *. rewrite Hf; auto. simpl; auto.
    - intros s t Hk. destruct (H3 s t Hk) as [E1 E2]. split.
      + unfold holds in *. rewrite Hf; auto. simpl. right. eapply kids_ids_sep; eauto.
      + eapply IH; eauto. intros i Hin. apply Hf. simpl. right. eapply kids_ids_in; eauto.
  Qed.

  Lemma perm_occ (l1 l2 : list Z) : (forall x, count_occ Z.eq_dec l1 x = count_occ Z.eq_dec l2 x) -> Permutation l1 l2.
  Proof. apply (Permutation_count_occ Z.eq_dec). Qed.
  Lemma occ_perm (l1 l2 : list Z) : Permutation l1 l2 -> forall x, count_occ Z.eq_dec l1 x = count_occ Z.eq_dec l2 x.
  Proof. apply (Permutation_count_occ Z.eq_dec). Qed.

  Lemma elL_app l1 l2 : elL (l1 ++ l2) = elL l1 ++ elL l2.
  Proof. apply flat_map_app. Qed.

  (** what surrounds the subtree of one kid *)
  Section Kid.
    Context (c : clique) (l1 l2 : list kid) (s : sepset) (t : rt) (R : list Z) (Pout : asg -> Qc).
    Notation kids := (l1 ++ (s, t) :: l2).
    Notation C := (cl_nodes c).
    Notation S := (ss_nodes s).
    Context (Hc : NoDup C) (HFc : dep C (F (cl_id c))) (Hk : kidsok C kids).
    Context (Hout : dep (C ++ R) Pout) (HP : Permutation All (C ++ elL kids ++ R))
            (HE : forall a, PT a = F (cl_id c) a * prodL F kids a * Pout a).
    Definition R' := minus C S ++ elL (l1 ++ l2) ++ R.
    Definition Pout' a := F (cl_id c) a * prodL F (l1 ++ l2) a * Pout a.

    Lemma kid_facts : NoDup S /\ incl S C /\ incl S (cl_nodes (root t)) /\ okT t /\ Fok t.
    Proof using Hk. apply Hk. apply in_or_app; right; left; auto. Qed.

    Lemma kid_PT a : PT a = prodT F t a * Pout' a.
    Proof using HE.
      rewrite HE. unfold Pout', prodL. rewrite !map_app, !qprod_app. simpl. rewrite qprod_cons. ring.
    Qed.
    Lemma kid_perm : Permutation All (cl_nodes (root t) ++ elk t ++ R').
    Proof using HP Hk Hc.
      clear HE HPT Hout Pout PT. destruct kid_facts as [Ns [I1 [I2 [Ht _]]]]. rewrite HP. clear HAll HP.
      assert (Hr : NoDup (cl_nodes (root t))) by (destruct t; apply okT_inv in Ht; tauto).
      apply perm_occ. intros x. pose proof (occ_perm _ _ (minus_perm C S Hc Ns I1) x) as E1.
      pose proof (occ_perm _ _ (minus_perm _ S Hr Ns I2) x) as E2. unfold R'. rewrite !elL_app.
      change (elL ((s, t) :: l2)) with (el S t ++ elL l2). rewrite el_split. rewrite !count_occ_app in *. lia.
    Qed.
    Lemma kid_perm_sep : Permutation All (S ++ el S t ++ R').
    Proof using HP Hk Hc.
      clear HE HPT Hout Pout PT. destruct kid_facts as [Ns [I1 [I2 [Ht _]]]]. rewrite HP. clear HAll HP.
      apply perm_occ. intros x. pose proof (occ_perm _ _ (minus_perm C S Hc Ns I1) x) as E1.
      unfold R'. rewrite !elL_app. change (elL ((s, t) :: l2)) with (el S t ++ elL l2). rewrite !count_occ_app in *. lia.
    Qed.
    Lemma kid_dep : dep (S ++ R') Pout'.
    Proof using HFc Hk Hout.
      destruct kid_facts as [Ns [I1 [I2 [Ht _]]]].
      assert (HC : incl C (S ++ R')).
      { intros v Hv. unfold R'. rewrite !in_app_iff, minus_In. destruct (in_dec Z.eq_dec v S); tauto. }
      apply dep_mult; [apply dep_mult|].
      - eapply dep_mono; eauto.
      - eapply dep_mono; [|apply (prodL_dep C)].
        + intros v Hv. apply in_app_or in Hv. destruct Hv as [Hv|Hv]; auto. unfold R'. rewrite !in_app_iff. auto.
        + intros s' t' Hi. apply Hk. apply in_app_or in Hi. apply in_or_app. simpl. tauto.
      - eapply dep_mono; [|exact Hout]. intros v Hv. apply in_app_or in Hv. destruct Hv as [Hv|Hv]; auto. unfold R'. rewrite !in_app_iff. auto.
    Qed.
    Lemma kid_M_clique a : M (cl_nodes (root t)) a = phi t a * sums R' Pout' a.
    Proof using HAll HE HFc HP HPT Hc Hk Hout.
      destruct kid_facts as [Ns [I1 [I2 [Ht HFt]]]].
      rewrite (M_perm _ _ a kid_perm). unfold phi. erewrite sums_prod.
      - apply sums_ext. intros b. apply kid_PT.
      - apply prodT_dep; auto.
      - apply kid_dep.
      - assert (HN := Permutation_NoDup kid_perm HAll). apply NoDup_app_iff in HN. destruct HN as [N1 [N2 N3]].
        apply NoDup_app_iff in N2. destruct N2 as [N4 [N5 N6]]. intros v Hv Hv'. apply in_app_or in Hv'. destruct Hv' as [Hv'|Hv'].
        + apply (N3 v); auto. apply in_or_app; auto.
        + apply (N6 v); auto.
      - assert (HN := Permutation_NoDup kid_perm HAll). apply NoDup_app_iff in HN. destruct HN as [N1 [N2 N3]].
        apply NoDup_app_iff in N2. destruct N2 as [N4 [N5 N6]]. intros v Hv Hv'. apply in_app_or in Hv'. destruct Hv' as [Hv'|Hv'].
        + apply (N3 v); auto. apply in_or_app; auto.
        + apply (N6 v); auto.
    Qed.
    Lemma kid_M_sep a : M S a = mu s t a * sums R' Pout' a.
    Proof using HAll HE HFc HP HPT Hc Hk Hout.
      destruct kid_facts as [Ns [I1 [I2 [Ht HFt]]]].
      rewrite (M_perm _ _ a kid_perm_sep). unfold mu. erewrite sums_prod.
      - apply sums_ext. intros b. apply kid_PT.
      - apply prodT_dep_sep; eauto.
      - apply kid_dep.
      - assert (HN := Permutation_NoDup kid_perm_sep HAll). apply NoDup_app_iff in HN. destruct HN as [N1 [N2 N3]].
        apply NoDup_app_iff in N2. destruct N2 as [N4 [N5 N6]]. intros v Hv Hv'. apply in_app_or in Hv'. destruct Hv' as [Hv'|Hv'].
        + apply (N3 v); auto. apply in_or_app; auto.
        + apply (N6 v); auto.
      - assert (HN := Permutation_NoDup kid_perm_sep HAll). apply NoDup_app_iff in HN. destruct HN as [N1 [N2 N3]].
        apply NoDup_app_iff in N2. destruct N2 as [N4 [N5 N6]]. intros v Hv Hv'. apply in_app_or in Hv'. destruct Hv' as [Hv'|Hv'].
        + apply (N3 v); auto. apply in_or_app; auto.
        + apply (N6 v); auto.
    Qed.
    Lemma kid_update a : Fnn t -> okon (cl_nodes (root t)) a -> phi t a * qquot (M S a) (mu s t a) = M (cl_nodes (root t)) a.
    Proof using HAll HE HFc HP HPT Hc Hk Hout.
      intros Hn Ha. destruct kid_facts as [Ns [I1 [I2 [Ht HFt]]]]. rewrite kid_M_clique, kid_M_sep. unfold qquot, is_zero.
      destruct (qeqb 0 (mu s t a)) eqn:E.
      - apply qeqb_true in E. rewrite (mu_zero s t a); auto. ring.
      - apply qeqb_false in E. rewrite orb_false_r.
        destruct (qeqb 0 (mu s t a * sums R' Pout' a)) eqn:E2.
        + apply qeqb_true in E2. symmetry in E2. apply Qcmult_integral in E2. destruct E2 as [E2|E2]; [congruence|]. rewrite E2. ring.
        + field. auto.
    Qed.
  End Kid.

  Definition dnP (t : rt) : Prop := okT t -> Fok t -> Fnn t -> NoDup (ids_of t) -> domok All ->
    forall R Pout, dep (cl_nodes (root t) ++ R) Pout -> Permutation All (cl_nodes (root t) ++ elk t ++ R) ->
    (forall a, PT a = prodT F t a * Pout a) ->
    forall ps, holds ps (cl_id (root t)) (cl_nodes (root t)) (M (cl_nodes (root t))) ->
    (forall s t', In (s, t') (kids_of t) -> holds ps (ss_id s) (ss_nodes s) (mu s t') /\ collT ps t') ->
    exists ps', distT h ps t = Ok ps' /\ calT ps' t /\ (forall i, ~ In i (ids_of t) -> dget ps' i = dget ps i).

  Lemma collT_root ps t : collT ps t -> holds ps (cl_id (root t)) (cl_nodes (root t)) (phi t) /\
     (forall s t', In (s, t') (kids_of t) -> holds ps (ss_id s) (ss_nodes s) (mu s t') /\ collT ps t').
  Proof. destruct t. apply collT_inv. Qed.
  Lemma ids_kids t s t' : In (s, t') (kids_of t) -> NoDup (ids_of t) ->
    ss_id s <> cl_id (root t) /\ (forall i, In i (ids_of t') -> i <> cl_id (root t)) /\ incl (ss_id s :: ids_of t') (ids_of t).
  Proof.
    destruct t as [c kids]. simpl kids_of. rewrite ids_of_eq. intros Hi HN. inversion HN as [|? ? H1 H2]; subst. simpl. split; [|split].
    - intros E. apply H1. rewrite <- E. eapply kids_ids_sep; eauto.
    - intros i Hx ->. apply H1. eapply kids_ids_in; eauto.
    - intros i [<-|Hx]; right; [eapply kids_ids_sep|eapply kids_ids_in]; eauto.
  Qed.

  Lemma dist_dn t : dnP t.
  Proof using HAll HPT.
    induction t as [c kids IH] using rt_ind'. intros Hok HF Hnn Hids Hdom R Pout Hout HP HE ps Hc Hps.
    simpl root in *. simpl kids_of in *. rewrite elk_eq in *. destruct (okT_inv _ _ Hok) as [H2 H3].
    assert (HFc : dep (cl_nodes c) (F (cl_id c))) by (apply HF; simpl; auto).
    assert (Hk : kidsok (cl_nodes c) kids).
    { intros s' t' Hi. destruct (H3 s' t' Hi) as [? [? [? ?]]]. repeat split; auto. eapply Fok_kid; eauto. }
    rewrite ids_of_eq in *. inversion Hids as [|? ? Hyn Hkn]; subst.
    assert (HCA : incl (cl_nodes c) All).
    { intros v Hv. apply (Permutation_in _ (Permutation_sym HP)), in_or_app; auto. }
    assert (G : forall l2 l1 ps, kids = l1 ++ l2 -> holds ps (cl_id c) (cl_nodes c) (M (cl_nodes c)) ->
       (forall s t', In (s, t') l2 -> holds ps (ss_id s) (ss_nodes s) (mu s t') /\ collT ps t') ->
       exists ps', distL h c l2 ps = Ok ps' /\ holds ps' (cl_id c) (cl_nodes c) (M (cl_nodes c)) /\
         (forall s t', In (s, t') l2 -> holds ps' (ss_id s) (ss_nodes s) (M (ss_nodes s)) /\ calT ps' t') /\
         (forall i, ~ In i (kids_ids l2) -> dget ps' i = dget ps i)).
    { clear ps Hc Hps. induction l2 as [|[s t] l2 IHl]; intros l1 ps E Hc Hps.
      - exists ps. repeat split; auto; intros; contradiction.
      - assert (Hin : In (s, t) kids) by (rewrite E; apply in_or_app; right; left; auto).
        destruct (Hk s t Hin) as [Ns [I1 [I2 [Ht HFt]]]].
        assert (Hr : NoDup (cl_nodes (root t))) by (destruct t; apply okT_inv in Ht; tauto).
        assert (Hnt : Fnn t) by (eapply Fnn_kid; eauto).
        destruct (Hps s t) as [Hs Hct]; [left; auto|]. destruct (collT_root _ _ Hct) as [Hrt Hkt].
        assert (Hkn2 : NoDup (kids_ids l1) /\ NoDup ((ss_id s :: ids_of t) ++ kids_ids l2)).
        { rewrite E in Hkn. unfold kids_ids in Hkn. rewrite flat_map_app in Hkn. apply NoDup_app_iff in Hkn. simpl in *. tauto. }
        destruct Hkn2 as [_ Hkn2]. apply NoDup_app_iff in Hkn2. destruct Hkn2 as [HN1 [HN2 HN3]].
        inversion HN1 as [|? ? HN4 HN5]; subst.
        assert (Hyk : ~ In (cl_id c) (ss_id s :: ids_of t)).
        { intros Hx. apply Hyn. destruct Hx as [<-|Hx]; [eapply kids_ids_sep|eapply kids_ids_in]; eauto. }
        assert (Hne : cl_id (root t) <> ss_id s) by (intros Ex; apply HN4; rewrite <- Ex; apply ids_root).
        assert (Hne2 : cl_id c <> cl_id (root t)) by (intros Ex; apply Hyk; rewrite Ex; right; apply ids_root).
        assert (Hne3 : cl_id c <> ss_id s) by (intros Ex; apply Hyk; rewrite Ex; left; auto).
        assert (HE' : forall a, PT a = F (cl_id c) a * prodL F (l1 ++ (s, t) :: l2) a * Pout a).
        { intros b. rewrite HE, prodT_eq. reflexivity. }
        assert (Hmsg : pass_message h ps c s (root t) =
          Ok (dset (dset ps (ss_id s) (tab (ss_nodes s) (M (ss_nodes s)))) (cl_id (root t)) (tab (cl_nodes (root t)) (M (cl_nodes (root t)))))).
        { rewrite (pass_message_tab ps c s (root t) (M (cl_nodes c)) (mu s t) (phi t)); eauto using M_dep.
          - f_equal. f_equal; [f_equal|]; apply tab_ext; intros a Ha.
            + apply M_marg; auto.
            + rewrite M_marg by auto. apply (kid_update c l1 l2 s t R Pout); auto.
          - apply mu_dep; auto. }
        set (ps0 := dset _ (cl_id (root t)) _) in Hmsg.
        assert (Hps0 : forall i, i <> ss_id s -> i <> cl_id (root t) -> dget ps0 i = dget ps i).
        { intros i N1 N2. unfold ps0. rewrite !dget_dset_neq by auto. auto. }
        destruct (IH s t Hin Ht HFt Hnt HN5 Hdom (R' c l1 l2 s R) (Pout' c l1 l2 Pout)) with (ps := ps0) as [ps1 [E1 [A1 A2]]].
        { eapply dep_mono; [|apply (kid_dep c l1 l2 s t R Pout); auto]. intros v Hv. apply in_app_or in Hv. apply in_or_app. destruct Hv; auto. }
        { apply kid_perm; auto. }
        { intros a. apply (kid_PT c l1 l2 s t Pout); auto. }
        { unfold holds, ps0. rewrite dget_dset_eq. auto. }
        { intros s' t' Hi. destruct (Hkt s' t' Hi) as [B1 B2]. destruct (ids_kids t s' t' Hi HN5) as [D1 [D2 D3]].
          split.
          - unfold holds in *. rewrite Hps0; auto. intros Ex. apply HN4. rewrite <- Ex. apply D3; left; auto.
          - eapply collT_frame; [|exact B2]. intros i Hx. apply Hps0; auto. intros Ex. apply HN4. rewrite <- Ex. apply D3; right; auto. }
        destruct (IHl (l1 ++ [(s, t)]) ps1) as [ps2 [E2 [B1 [B2 B3]]]].
        { rewrite <- app_assoc. reflexivity. }
        { unfold holds in *. rewrite A2 by (intros Hx; apply Hyk; right; auto). rewrite Hps0; auto. }
        { intros s' t' Hi. destruct (Hps s' t') as [D1 D2]; [right; auto|].
          assert (Hfr : forall i, In i (kids_ids l2) -> dget ps1 i = dget ps i).
          { intros i Hx. rewrite A2. apply Hps0.
            - intros ->. apply (HN3 (ss_id s)); simpl; auto.
            - intros ->. apply (HN3 (cl_id (root t))); auto. right. apply ids_root.
            - intros Hx'. apply (HN3 i); simpl; auto. }
          split.
          - unfold holds in *. rewrite Hfr; auto. eapply kids_ids_sep; eauto.
          - eapply collT_frame; [|exact D2]. intros i Hx. apply Hfr. eapply kids_ids_in; eauto. }
        exists ps2. split; [unfold distL; simpl; rewrite Hmsg; simpl; rewrite E1; simpl; exact E2|].
        assert (Hfr : forall i, In i (ss_id s :: ids_of t) -> dget ps2 i = dget ps1 i).
        { intros i Hi. apply B3. intros Hx. apply (HN3 i); auto. }
        split; auto. split.
        + intros s' t' [Ex|Hi]; auto. injection Ex as <- <-. split.
          * unfold holds. rewrite Hfr by (left; auto). rewrite A2 by auto. unfold ps0. rewrite dget_dset_neq by auto. rewrite dget_dset_eq. auto.
          * eapply calT_frame; [|exact A1]. intros i Hi. apply Hfr. right; auto.
        + intros i Hi. change (kids_ids ((s, t) :: l2)) with (ss_id s :: ids_of t ++ kids_ids l2) in Hi. simpl in Hi. rewrite in_app_iff in Hi.
          rewrite B3 by tauto. rewrite A2 by tauto. apply Hps0.
          * intros ->. tauto.
          * intros ->. apply Hi. right; left. apply ids_root. }
    destruct (G kids [] ps) as [ps' [E1 [A1 [A2 A3]]]]; auto.
    exists ps'. rewrite distT_eq. split; auto. split.
    - constructor; auto.
    - intros i Hi. apply A3. intros Hx. apply Hi. right; auto.
  Qed.
End Num.
Close Scope Qc_scope.
