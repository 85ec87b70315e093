(** Sums over the samples that are kept. *)
From Verif Require Import Py M_Graph M_Node M_Sampling Spec SpecNet SpecPot SpecSamp SpecKept L_Base L_Sums L_Table L_Net L_Build L_Apply L_P4 L_Samp L_Samp2 L_P5 L_Samp3 L_Kept.
Open Scope nat_scope.

Lemma has_values_In ev a : has_values ev a = true <-> forall i x, In (i, x) ev -> a i = x.
Proof.
  unfold has_values. rewrite forallb_forall. split; intros H.
  - intros i x Hi. specialize (H _ Hi). apply String.eqb_eq in H. auto.
  - intros [i x] Hi. apply String.eqb_eq. simpl. auto.
Qed.
Lemma has_values_iff ev a : NoDup (dkeys ev) -> (has_values ev a = true <-> forall i x, dget ev i = Some x -> a i = x).
Proof. intros HN. rewrite has_values_In. split; intros H i x Hi; apply H; [apply dget_In|apply In_dget]; auto. Qed.
Lemma only_In vs ev i x : In (i, x) (only vs ev) <-> In (i, x) ev /\ In i vs.
Proof. unfold only. rewrite filter_In. simpl. rewrite mem_In. tauto. Qed.
Lemma only_keys vs ev i : In i (dkeys (only vs ev)) <-> In i (dkeys ev) /\ In i vs.
Proof.
  unfold dkeys. rewrite !in_map_iff. split.
  - intros ([k x] & <- & H). apply only_In in H as [H1 H2]. simpl. split; auto. exists (k, x). auto.
  - intros [([k x] & <- & H) Hv]. exists (k, x). split; auto. apply only_In. auto.
Qed.
Lemma only_NoDup vs ev : NoDup (dkeys ev) -> NoDup (dkeys (only vs ev)).
Proof.
  unfold dkeys, only. induction ev as [|[k x] ev IH]; simpl; intros H; [constructor|]. inversion_clear H. destruct (mem k vs); simpl; auto. constructor; auto.
  intros Hk. apply H0. apply in_map_iff in Hk as ([k' y] & <- & Hk). apply filter_In in Hk as [Hk _]. apply (in_map fst) in Hk. auto.
Qed.
Lemma has_values_dep ev : dep (dkeys ev) (fun a => if has_values ev a then 1%Qc else 0%Qc).
Proof.
  intros a b H. assert (has_values ev a = has_values ev b) as ->; auto. unfold has_values. unfold dkeys in H. induction ev as [|[k x] ev IH]; simpl; auto.
  rewrite (H k) by (simpl; auto). rewrite IH; auto. intros v Hv. apply H. simpl. auto.
Qed.
Lemma has_values_eqdep ev a b : (forall v, In v (dkeys ev) -> a v = b v) -> has_values ev a = has_values ev b.
Proof. intros H. pose proof (has_values_dep ev a b H) as E. cbv beta in E. destruct (has_values ev a), (has_values ev b); auto; discriminate. Qed.

Lemma seen_prod ev vs a : NoDup (dkeys ev) -> incl (dkeys ev) vs -> qprod (map (fun v => seen ev v (a v)) vs) = if has_values ev a then 1%Qc else 0%Qc.
Proof.
  intros HN HI. destruct (has_values ev a) eqn:E.
  - apply qprod_map_one. intros v Hv. unfold seen. destruct (dget ev v) as [x|] eqn:Ex; auto. rewrite has_values_iff in E by auto. destruct (string_dec (a v) x); auto. exfalso; auto.
  - assert (X : exists i x, In (i, x) ev /\ a i <> x).
    { unfold has_values in E. clear - E. induction ev as [|[k x] ev IH]; simpl in E; [discriminate|]. destruct (String.eqb_spec (a k) x) as [_|Hn].
      - destruct IH as (i & y & H1 & H2); auto. exists i, y. simpl; auto.
      - exists k, x. simpl; auto. }
    destruct X as (i & x & Hi & Hn). apply in_split with (x := i) in HI as (l1 & l2 & ->); [|apply (in_map fst) in Hi; auto].
    rewrite map_app, qprod_app. simpl map. rewrite qprod_cons. unfold seen at 2. rewrite (In_dget _ _ _ HN Hi). destruct (string_dec (a i) x); [congruence|]. ring.
Qed.

Section Spread.
  Local Open Scope Qc_scope.
  Context (M : net) (front back : list Z).
  Notation D := (dom M).
  Notation V := (vars M).
  Context (HP : Permutation (front ++ back) V) (HN : NoDup V) (HD : forall v, In v V -> NoDup (D v))
    (Hord : forall before v after p, front ++ back = before ++ v :: after -> In p (par M v) -> In p before)
    (HS : forall v a, In v V -> okon D (par M v) a -> qsum (map (fun x => cpt_entry M v (upd a v x)) (D v)) = 1).
  Context (ev : list (Z * string)) (HEN : NoDup (dkeys ev)) (HEV : incl (dkeys ev) V) (HEP : possible_values M ev) (HEB : incl back (dkeys ev)).
  Definition Wt (vs : list Z) (a : asg) : Qc := qprod (map (fun v => cpt_entry M v a) vs).

  Lemma fb_V v : In v (front ++ back) <-> In v V.
  Proof using HP. split; apply Permutation_in; [|symmetry]; auto. Qed.
  Lemma fb_nd : NoDup (front ++ back).
  Proof using HP HN. eapply Permutation_NoDup; [symmetry; exact HP|auto]. Qed.

  Lemma back_one rest : forall before a, front ++ back = before ++ rest -> okon D before a -> sums D rest (Wt rest) a = 1.
  Proof using HP HN Hord HS.
    induction rest as [|v rest IH]; intros before a E Ha; [reflexivity|]. cbn [sums].
    assert (Hv : In v V) by (apply fb_V; rewrite E; apply in_or_app; simpl; auto).
    assert (Hps : incl (par M v) before) by (intros p Hp; eapply Hord; eauto).
    pose proof fb_nd as ND. rewrite E in ND.
    rewrite <- (HS v a Hv) by (intros p Hp; auto). apply qsum_map_ext. intros x Hx.
    assert (Ha' : okon D (before ++ [v]) (upd a v x)). { intros w Hw. destruct (Z.eq_dec w v) as [->|Hn]; [rewrite upd_eq; auto|rewrite upd_neq by auto]. apply in_app_or in Hw as [Hw|[Hw|[]]]; auto; congruence. }
    transitivity (cpt_entry M v (upd a v x) * sums D rest (Wt rest) (upd a v x)); [|rewrite (IH (before ++ [v])); [ring|rewrite <- app_assoc; auto|auto]].
    rewrite <- sums_mult_const. apply sums_ext_gen. intros b Hb _. unfold Wt. simpl map. rewrite qprod_cons. f_equal. apply cpt_dep. intros u Hu. apply Hb. intros Hr.
    apply NoDup_remove in ND as [ND1 ND2]. apply in_app_or in Hu as [Hu|[<-|[]]].
    - apply Hps in Hu. apply NoDup_app_iff in ND1 as (_ & _ & H). apply (H u); auto.
    - apply ND2. apply in_or_app; auto.
  Qed.

  Lemma Wt_front_dep : dep front (Wt front).
  Proof using Hord.
    apply (dep_qprod front (fun v b => cpt_entry M v b)). intros v Hv. eapply dep_mono; [|apply cpt_dep]. intros u Hu. apply in_app_or in Hu as [Hu|[<-|[]]]; auto.
    apply in_split in Hv as (b1 & b2 & E). assert (In u b1). { apply (Hord b1 v (b2 ++ back) u); auto. rewrite E, <- app_assoc. auto. } rewrite E. apply in_or_app; auto.
  Qed.
  Lemma Wt_dep vs : incl vs V -> dep V (Wt vs).
  Proof using HP Hord.
    intros Hi. apply (dep_qprod V (fun v b => cpt_entry M v b)). intros v Hv. eapply dep_mono; [|apply cpt_dep]. intros u Hu. apply in_app_or in Hu as [Hu|[<-|[]]]; auto.
    apply Hi, fb_V, in_split in Hv as (b1 & b2 & E). apply fb_V. rewrite E. apply in_or_app. left. eapply Hord; eauto.
  Qed.

  Definition ev_asg (a : asg) : asg := fun v => match dget ev v with Some x => x | None => a v end.

  Lemma spread F : dep front F ->
    sums D V (fun a => if has_values ev a then F a * Wt front a else 0) no_asg = sums D V (fun a => F a * weight M (seen (only front ev)) a) no_asg.
  Proof using HP HN HD Hord HS HEN HEV HEP HEB.
    intros HF. assert (IF : incl front V) by (intros v Hv; apply fb_V, in_or_app; auto). assert (IB : incl back V) by (intros v Hv; apply fb_V, in_or_app; auto).
    pose proof fb_nd as ND. apply NoDup_app_iff in ND as (NF & NB & NFB).
    assert (OV : incl (dkeys (only front ev)) V). { intros v Hv. apply only_keys in Hv. apply IF. tauto. }
    transitivity (sums D (front ++ back) (fun a => if has_values ev a then F a * Wt front a else 0) no_asg).
    { apply sums_perm; [|symmetry; auto]. apply dep_proper with (S := V). intros a b H. rewrite (has_values_eqdep ev a b) by auto. rewrite (HF a b), (Wt_front_dep a b) by auto. auto. }
    transitivity (sums D (front ++ back) (fun a => F a * weight M (seen (only front ev)) a) no_asg).
    2:{ symmetry. apply sums_perm; [|symmetry; auto]. apply proper_mult. { eapply dep_proper; eauto. } apply dep_proper with (S := V). unfold weight. apply dep_mult. { apply (Wt_dep V). apply incl_refl. }
        intros a b H. f_equal. apply map_ext_in. intros v Hv. rewrite H; auto. }
    rewrite !sums_app. apply sums_ext_gen. intros b _ Hb.
    set (h := if has_values (only front ev) b then F b * Wt front b else 0).
    transitivity h.
    - transitivity (sums D back (fun c => if agrees back c (ev_asg b) then h else 0) b).
      + apply sums_ext_gen. intros c Hc _. assert (Ef : forall v, In v front -> c v = b v) by (intros v Hv; apply Hc; intros Hw; apply (NFB v); auto).
        rewrite (HF c b), (Wt_front_dep c b) by auto.
        assert (Eo : has_values (only front ev) c = has_values (only front ev) b) by (apply has_values_eqdep; intros v Hv; apply only_keys in Hv; apply Ef; tauto).
        unfold h. rewrite <- Eo.
        destruct (has_values ev c) eqn:E1.
        * rewrite has_values_iff in E1 by auto.
          assert (agrees back c (ev_asg b) = true) as ->. { apply agrees_spec. intros v Hv. apply HEB in Hv. apply dkeys_dget in Hv as [x Hx]. unfold ev_asg. rewrite Hx. auto. }
          assert (has_values (only front ev) c = true) as ->; auto. apply has_values_In. intros i x Hi. apply only_In in Hi as [Hi _]. apply E1. apply In_dget; auto.
        * destruct (agrees back c (ev_asg b)) eqn:E2; auto. destruct (has_values (only front ev) c) eqn:E3; auto. exfalso.
          assert (has_values ev c = true); [|congruence]. rewrite has_values_iff by auto. intros i x Hi.
          assert (Hv : In i (front ++ back)) by (apply fb_V, HEV; eapply dget_Some_key; eauto). apply in_app_or in Hv as [Hv|Hv].
          -- rewrite has_values_In in E3. apply E3. apply only_In. split; auto. apply dget_In; auto.
          -- rewrite agrees_spec in E2. rewrite (E2 i Hv). unfold ev_asg. rewrite Hi; auto.
      + rewrite (sums_agree D back (fun _ => h)); auto. intros v Hv. unfold ev_asg. apply HEB in Hv. apply dkeys_dget in Hv as [x Hx]. rewrite Hx. apply HEP; auto. intros x y _; auto.
    - transitivity (h * sums D back (Wt back) b). { rewrite (back_one back front); auto. ring. }
      rewrite <- sums_mult_const. apply sums_ext_gen. intros c Hc _. assert (Ef : forall v, In v front -> c v = b v) by (intros v Hv; apply Hc; intros Hw; apply (NFB v); auto).
      unfold weight. rewrite seen_prod by (auto; apply only_NoDup; auto).
      assert (Eo : has_values (only front ev) c = has_values (only front ev) b) by (apply has_values_eqdep; intros v Hv; apply only_keys in Hv; apply Ef; tauto).
      rewrite <- (qprod_perm _ _ (Permutation_map (fun v => cpt_entry M v c) HP)), map_app, qprod_app. fold (Wt front c) (Wt back c).
      rewrite (HF c b), (Wt_front_dep c b) by auto. rewrite Eo. unfold h. destruct (has_values (only front ev) b); ring.
  Qed.

  Lemma spread_total vol : (forall a, okon D V a -> has_values ev a = true -> vol a = Wt front a) -> all_kept M ev vol = total M (seen (only front ev)).
  Proof using HP HN HD Hord HS HEN HEV HEP HEB.
    intros Hv. unfold all_kept, total. transitivity (sums D V (fun a => if has_values ev a then 1 * Wt front a else 0) no_asg).
    - apply sums_ext_gen. intros a _ Ha. destruct (has_values ev a) eqn:E; auto. rewrite Hv by auto. ring.
    - rewrite (spread (fun _ => 1)) by apply dep_const. apply sums_ext. intros a. ring.
  Qed.
  Lemma spread_with vol i x : In i front -> (forall a, okon D V a -> has_values ev a = true -> vol a = Wt front a) -> kept_with M ev vol i x = mass_of M (seen (only front ev)) i x.
  Proof using HP HN HD Hord HS HEN HEV HEP HEB.
    intros Hi Hv. unfold kept_with, mass_of. transitivity (sums D V (fun a => if has_values ev a then (if string_dec (a i) x then 1 else 0) * Wt front a else 0) no_asg).
    - apply sums_ext_gen. intros a _ Ha. destruct (has_values ev a) eqn:E; auto. destruct (string_dec (a i) x); [rewrite Hv by auto|]; ring.
    - rewrite (spread (fun a => if string_dec (a i) x then 1 else 0)). { apply sums_ext. intros a. destruct (string_dec (a i) x); ring. } intros a b H. rewrite (H i Hi). auto.
  Qed.
End Spread.
