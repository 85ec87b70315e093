(** The samples kept when there is evidence, and how they are spread. *)
From Verif Require Import Py M_Graph M_Node M_Sampling Spec SpecNet SpecPot SpecSamp SpecKept L_Base L_Sums L_Table L_Net L_Build L_P4 L_Samp L_Samp2 L_P5 L_Samp3.
Open Scope nat_scope.

Section Kept.
  Variables (dm : Z -> list string) (ps : Z -> list Z) (row : Z -> asg -> list Qc) (tables : list (Z * table)) (order : list Z).
  Hypothesis HT : forall v, In v order -> exists t, dget tables v = Some t /\ table_right t dm (ps v) v (row v).
  Hypothesis Hord : forall before v after p, order = before ++ v :: after -> In p (ps v) -> In p before.
  Hypothesis HN : NoDup order.
  Hypothesis Hlen : forall v a, List.length (row v a) = List.length (dm v).
  Hypothesis Hnn : forall v a, In v order -> okon dm (ps v) a -> nonneg (row v a).
  Hypothesis Hsum : forall v a, In v order -> okon dm (ps v) a -> qsum (row v a) = 1%Qc.
  Variable ev : sample.
  Hypothesis Hevo : incl (dkeys ev) order.
  Variable a : asg.
  Hypothesis Ha : okon dm order a.
  Hypothesis Hev : forall i x, dget ev i = Some x -> a i = x.

  Lemma walk_keys l : forall d r, sample_walk tables ev d l = Ok r -> NoDup (dkeys d) ->
    NoDup (dkeys r) /\ incl (dkeys r) (dkeys d ++ map snd l) /\ (forall w, ~ In w (map snd l) -> dget r w = dget d w).
  Proof.
    clear. induction l as [|[u v] l IH]; intros d r E Hd.
    - injection E as <-. rewrite app_nil_r. split; auto. split; [apply incl_refl|auto].
    - cbn [sample_walk] in E. destruct (dgetE tables v) as [t|]; [|discriminate]. cbn [rbind] in E. destruct (get_value t u d) as [x|]; [|discriminate]. cbn [rbind] in E.
      assert (Stop : Ok d = Ok r -> NoDup (dkeys r) /\ incl (dkeys r) (dkeys d ++ v :: map snd l) /\ (forall w, ~ (v = w \/ In w (map snd l)) -> dget r w = dget d w)).
      { intros Er. injection Er as <-. split; auto. split; [apply incl_appl, incl_refl|auto]. }
      assert (Go : sample_walk tables ev (dset d v x) l = Ok r -> NoDup (dkeys r) /\ incl (dkeys r) (dkeys d ++ v :: map snd l) /\ (forall w, ~ (v = w \/ In w (map snd l)) -> dget r w = dget d w)).
      { intros Er. destruct (IH _ _ Er) as (H1 & H2 & H3). apply dset_NoDup; auto. split; auto. split.
        - intros w Hw. apply H2, in_app_or in Hw as [Hw|Hw]; [apply dkeys_dset_In in Hw as [Hw|Hw]|]; rewrite in_app_iff; simpl; auto.
        - intros w Hw. rewrite H3 by tauto. apply dget_dset_neq. intros ->. tauto. }
      simpl map. destruct (dget ev v) as [e|]; auto. destruct (eqb x e); auto.
  Qed.

  Lemma value_ok v t d u before after : order = before ++ v :: after -> dget tables v = Some t -> holds ev before d a -> uniform u ->
    (exists x, In x (dm v) /\ get_value t u d = Ok x) /\ (get_value t u d = Ok (a v) <-> within dm row a v u).
  Proof.
    intros Eo Et [Hd _] Hu. destruct (mid_facts order HN _ _ _ Eo) as (Hv & Hnb). assert (Hps : incl (ps v) before) by (intros p Hp; eapply Hord; eauto).
    assert (Hin : incl before order) by (rewrite Eo; apply incl_appl, incl_refl).
    assert (O1 : okon dm (ps v) a) by (intros p Hp; auto). assert (O2 : records d (ps v) a) by (intros p Hp; apply Hd, in_or_app; auto).
    split. { apply (value_some dm ps row tables order HT Hlen Hnn Hsum v t a d u); auto. } apply (value_iff dm ps row tables order HT); auto. apply Hu.
  Qed.

  (** in the block at the end every value is already there *)
  Lemma walk_back back : forall before d us, order = before ++ back -> incl back (dkeys ev) -> holds ev before d a -> Forall uniform us -> List.length us = List.length back ->
    exists r, sample_walk tables ev d (combine us back) = Ok r /\ records r order a.
  Proof.
    induction back as [|v back IH]; intros before d us Eo Hb Hd Hu Hl.
    - destruct us; [|discriminate]. exists d. split; auto. rewrite app_nil_r in Eo. subst before. intros w Hw. apply Hd. apply in_or_app; auto.
    - destruct us as [|u us]; [discriminate|]. inversion_clear Hu as [|? ? Hu0 Hus]. destruct (mid_facts order HN _ _ _ Eo) as (Hv & Hnb). destruct (HT v Hv) as (t & Et & _).
      cbn [combine sample_walk]. unfold dgetE. rewrite Et. cbn [rbind]. destruct (value_ok v t d u before back Eo Et Hd Hu0) as [(x & Hx & Ex) _]. rewrite Ex. cbn [rbind].
      assert (Hk : In v (dkeys ev)) by (apply Hb; left; auto). apply dkeys_dget in Hk as [e He]. rewrite He.
      destruct (eqb_spec x e) as [->|Hne].
      + apply (IH (before ++ [v])); auto.
        * rewrite <- app_assoc; auto.
        * intros w Hw. apply Hb; right; auto.
        * rewrite <- (Hev v e He). apply (holds_next ev before v d a a); auto.
      + exists d. split; auto. intros w Hw. apply Hd. rewrite Eo in Hw. apply in_app_or in Hw as [Hw|Hw]; apply in_or_app; auto.
  Qed.

  Lemma walk_front back front : forall before d us1 us2, order = before ++ front ++ back -> incl back (dkeys ev) -> holds ev before d a -> Forall uniform us1 -> Forall uniform us2 ->
    List.length us2 = List.length back -> Forall2 (within dm row a) front us1 ->
    exists r, sample_walk tables ev d (combine (us1 ++ us2) (front ++ back)) = Ok r /\ records r order a.
  Proof.
    induction front as [|v front IH]; intros before d us1 us2 Eo Hb Hd Hu1 Hu2 Hl HF.
    - inversion HF; subst us1. simpl. apply (walk_back back before); auto.
    - inversion HF as [|z0 u l0 us' Hw HF']; subst us1. inversion_clear Hu1 as [|? ? Hu0 Hus]. destruct (mid_facts order HN _ _ _ Eo) as (Hv & Hnb). destruct (HT v Hv) as (t & Et & _).
      cbn [app combine sample_walk]. unfold dgetE. rewrite Et. cbn [rbind]. destruct (value_ok v t d u before _ Eo Et Hd Hu0) as [_ Hi]. rewrite (proj2 Hi Hw). cbn [rbind].
      assert (Go : exists r, sample_walk tables ev (dset d v (a v)) (combine (us' ++ us2) (front ++ back)) = Ok r /\ records r order a).
      { apply (IH (before ++ [v])); auto.
        - rewrite <- app_assoc; auto.
        - apply (holds_next ev before v d a a); auto. }
      destruct (dget ev v) as [e|] eqn:Ee; auto. rewrite (Hev v e Ee), eqb_refl. rewrite (Hev v e Ee) in Go. exact Go.
  Qed.

  (** a sample that is kept gave the variables before that block their values *)
  Lemma walk_inv back front : forall before d us1 us2 r, order = before ++ front ++ back -> holds ev before d a -> NoDup (dkeys d) -> Forall uniform us1 -> List.length us1 = List.length front ->
    (forall b v, front = b ++ [v] -> ~ In v (dkeys ev)) ->
    sample_walk tables ev d (combine (us1 ++ us2) (front ++ back)) = Ok r -> records r order a -> Forall2 (within dm row a) front us1.
  Proof.
    induction front as [|v front IH]; intros before d us1 us2 r Eo Hd Hnd Hu Hl Hlast Er Hr.
    - destruct us1; [constructor|discriminate].
    - destruct us1 as [|u us1]; [discriminate|]. inversion_clear Hu as [|? ? Hu0 Hus]. destruct (mid_facts order HN _ _ _ Eo) as (Hv & Hnb). destruct (HT v Hv) as (t & Et & _).
      cbn [app combine sample_walk] in Er. unfold dgetE in Er. rewrite Et in Er. cbn [rbind] in Er. destruct (value_ok v t d u before _ Eo Et Hd Hu0) as [(x & Hx & Ex) Hi]. rewrite Ex in Er, Hi. cbn [rbind] in Er.
      assert (Go : x = a v -> sample_walk tables ev (dset d v x) (combine (us1 ++ us2) (front ++ back)) = Ok r -> Forall2 (within dm row a) (v :: front) (u :: us1)).
      { intros -> Er'. constructor; [apply Hi; auto|]. apply (IH (before ++ [v]) (dset d v (a v)) us1 us2 r); auto.
        - rewrite <- app_assoc; auto.
        - apply (holds_next ev before v d a a); auto.
        - apply dset_NoDup; auto.
        - intros b w ->. apply (Hlast (v :: b)). auto. }
      assert (Nv : ~ In v (front ++ back)). { rewrite Eo in HN. apply NoDup_remove in HN as [_ H]. rewrite in_app_iff in H. tauto. }
      destruct (dget ev v) as [e|] eqn:Ee.
      + destruct (eqb_spec x e) as [->|Hne]. { apply Go; auto. symmetry. auto. }
        exfalso. injection Er as <-. destruct (exists_last (l := v :: front)) as (b & z & Eb); [discriminate|].
        assert (Hz : In z (v :: front)) by (rewrite Eb; apply in_or_app; simpl; auto).
        assert (Hzo : In z order) by (rewrite Eo; apply in_or_app; right; apply in_or_app; auto).
        pose proof (Hr z Hzo) as Hz'. apply dget_Some_key in Hz'. apply Hd, in_app_or in Hz' as [Hz'|Hz']; [|apply (Hlast b z Eb Hz')].
        rewrite Eo in HN. apply NoDup_app_iff in HN as (_ & _ & H). apply (H z Hz'). apply in_or_app; auto.
      + apply Go; auto. destruct (walk_keys _ _ _ Er) as (_ & _ & H). apply dset_NoDup; auto.
        assert (Hvr : dget r v = dget (dset d v x) v). { apply H. intros Hin. apply Nv. apply in_map_iff in Hin as ([u' w] & <- & Hin). eapply in_combine_r; eauto. }
        rewrite (Hr v Hv), dget_dset, eqb_refl in Hvr. congruence.
  Qed.
End Kept.
