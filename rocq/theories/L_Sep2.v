(** Barren variables and factorisation of masses along a separation. *)
From Verif Require Import Py Spec SpecNet SpecPot L_Base L_PD L_Sums L_Table L_UG L_Dag L_Apply L_P4 L_Claims L_Part3.
Open Scope nat_scope.

Lemma filter_cut {A} (p : A -> bool) l : Permutation l (filter p l ++ filter (fun x => negb (p x)) l).
Proof. induction l as [|a l IH]; simpl; auto. destruct (p a); simpl; auto. rewrite <- Permutation_middle. auto. Qed.

Section Sep.
  Context (N : net) (HN : nshape N) (HA : acyclic (is_parent N)) (HS : stochastic N).
  Local Open Scope Qc_scope.
  Notation D := (dom N).
  Notation V := (vars N).

  (** the tables of [W] sum to 1 over [W], whatever the values of the parents outside *)
  Lemma barren n : forall W a, List.length W = n -> NoDup W -> incl W V ->
    (forall v p, In v W -> In p (par N v) -> ~ In p W -> In (a p) (D p)) ->
    sums D W (fun b => qprod (map (fun v => cpt_entry N v b) W)) a = 1.
  Proof using HN HA HS.
    induction n as [|n IH]; intros W a HL HD HI HC.
    - destruct W; [|discriminate]. simpl. reflexivity.
    - destruct (sink (is_parent N) (parent_dec N) HA W) as [s [Hs Hsink]]. { intros ->. discriminate. }
      apply in_split in Hs. destruct Hs as [W1 [W2 ->]]. set (W' := W1 ++ W2).
      assert (HP : Permutation (W1 ++ s :: W2) (W' ++ [s])). { unfold W'. rewrite <- Permutation_middle. rewrite <- Permutation_cons_append. auto. }
      assert (HD' : NoDup (W' ++ [s])) by (eapply Permutation_NoDup; eauto). assert (HD'' : NoDup W' /\ ~ In s W').
      { apply NoDup_app_iff in HD'. destruct HD' as [D1 [_ D3]]. split; auto. intros Hi. apply (D3 s Hi). left; auto. }
      assert (HW : forall v, In v (W1 ++ s :: W2) <-> In v W' \/ v = s).
      { intros v. split; intros Hv. apply (Permutation_in _ HP) in Hv. apply in_app_or in Hv. destruct Hv as [Hv|[<-|[]]]; auto.
        apply (Permutation_in _ (Permutation_sym HP)). apply in_or_app. destruct Hv as [Hv| ->]; [auto|right; left; auto]. }
      assert (HI' : incl W' V). { intros v Hv. apply HI, HW. auto. }
      assert (Hsv : In s V). { apply HI, HW. auto. }
      assert (Hps : forall v, In v (W1 ++ s :: W2) -> ~ In s (par N v)). { intros v Hv Hp. apply (Hsink v Hv). split; auto. }
      assert (Hprop : proper (fun b => qprod (map (fun v => cpt_entry N v b) (W1 ++ s :: W2)))).
      { apply dep_proper with (S := V ++ W1 ++ s :: W2). apply (dep_qprod (V ++ W1 ++ s :: W2) (fun v b => cpt_entry N v b)). intros v Hv.
        apply dep_mono with (S := par N v ++ [v]); [|apply cpt_dep]. intros u Hu. apply in_app_or in Hu. apply in_or_app. destruct Hu as [Hu|[<-|[]]]; auto.
        left. apply (ns_ends _ HN u v Hu). }
      rewrite (sums_perm D _ (W' ++ [s])); auto. rewrite sums_app.
      rewrite <- (IH W' a); auto; [|unfold W' in *; rewrite app_length in *; simpl in HL; lia|tauto|].
      2:{ intros v p Hv Hp Hn. apply (HC v p); auto. apply HW; auto. intros Hi. apply HW in Hi. destruct Hi as [Hi| ->]; auto. apply (Hps v); auto. apply HW; auto. }
      apply sums_ext_gen. intros b Hb Hok.
      transitivity (qprod (map (fun v => cpt_entry N v b) W') * qsum (map (fun x => cpt_entry N s (upd b s x)) (D s))).
      + change (sums D [s] (fun b0 => qprod (map (fun v => cpt_entry N v b0) (W1 ++ s :: W2))) b)
          with (qsum (map (fun x => qprod (map (fun v => cpt_entry N v (upd b s x)) (W1 ++ s :: W2))) (D s))).
        rewrite <- qsum_map_mult. apply qsum_map_ext. intros x _.
        transitivity (qprod (map (fun v => cpt_entry N v (upd b s x)) (W' ++ [s]))). { apply qprod_perm. apply Permutation_map. auto. }
        rewrite map_app, qprod_app. simpl map. rewrite qprod_cons, qprod_nil, Qcmult_1_r. f_equal.
        apply qprod_map_ext. intros v Hv. apply cpt_dep. intros u Hu. apply upd_neq. intros ->. apply in_app_or in Hu.
        destruct Hu as [Hu|[<-|[]]]; [|tauto]. apply (Hps v); auto. apply HW; auto.
      + rewrite HS; auto. apply Qcmult_1_r. intros p Hp. destruct (in_dec Z.eq_dec p W') as [Hi|Hi]. apply Hok; auto.
        rewrite Hb by auto. apply (HC s p); auto. apply HW; auto. intros Hi'. apply HW in Hi'. destruct Hi' as [Hi'| ->]; auto. apply (Hps s); auto. apply HW; auto.
  Qed.

  (** ** a set [inA] closed under parents, a part [inS] of it that only meets the rest in [ev], where the evidence is hard *)
  Variables (inA inS : Z -> bool) (ev : list Z) (e : asg) (y : Z).
  Hypothesis HAp : forall i p, In i V -> inA i = true -> In p (par N i) -> inA p = true.
  Hypothesis HSep : forall i m, In i V -> inA i = true -> In m (par N i ++ [i]) -> inS m = true ->
    forall m', In m' (par N i ++ [i]) -> inS m' = true \/ In m' ev.
  Hypothesis HSe : forall i, inS i = true -> ~ In i ev.
  Hypothesis Hy : In y V.
  Hypothesis HyA : inA y = true.
  Hypothesis HyS : inS y = false.
  Hypothesis Hye : ~ In y ev.
  Hypothesis He : forall z, In z V -> In z ev -> In (e z) (D z).

  Let VA := filter inA V.
  Let VB := filter (fun i => negb (inA i)) V.
  Let VS := filter inS VA.
  Let VR := filter (fun i => negb (inS i)) VA.
  Let VE := filter (fun i => mem i ev) VR.
  Let VT := filter (fun i => negb (mem i ev)) VR.
  Let fam i := par N i ++ [i].
  Let touch i := existsb inS (fam i).
  Let FS := filter touch VA.
  Let FT := filter (fun i => negb (touch i)) VA.
  Definition at_y (v : string) (a : asg) : Qc := if string_dec (a y) v then 1 else 0.
  Definition prods (W : list Z) (a : asg) : Qc := qprod (map (fun i => cpt_entry N i a) W).
  Definition likes (L : likelihood) (W : list Z) (a : asg) : Qc := qprod (map (fun i => L i (a i)) W).

  Lemma VA_In i : In i VA <-> In i V /\ inA i = true.
  Proof. apply filter_In. Qed.
  Lemma VS_In i : In i VS <-> In i V /\ inA i = true /\ inS i = true.
  Proof. unfold VS. rewrite filter_In, VA_In. tauto. Qed.
  Lemma VE_In i : In i VE <-> In i V /\ inA i = true /\ In i ev.
  Proof.
    unfold VE, VR. rewrite !filter_In, VA_In, negb_true_iff, mem_In. split; [tauto|]. intros (H1 & H2 & H3). repeat split; auto.
    destruct (inS i) eqn:E; auto. exfalso. apply (HSe i E H3).
  Qed.
  Lemma VT_In i : In i VT <-> In i V /\ inA i = true /\ inS i = false /\ ~ In i ev.
  Proof.
    unfold VT, VR. rewrite !filter_In, VA_In, !negb_true_iff. destruct (mem_spec i ev); split; try tauto. intros [_ H]; discriminate.
  Qed.
  Lemma V_cut : Permutation V (VA ++ VB).
  Proof. apply filter_cut. Qed.
  Lemma VA_cut : Permutation VA (VE ++ (VS ++ VT)).
  Proof.
    eapply Permutation_trans; [apply (filter_cut inS)|]. fold VS VR. eapply Permutation_trans; [apply Permutation_app_head, (filter_cut (fun i => mem i ev))|]. fold VE VT.
    rewrite !app_assoc. apply Permutation_app_tail. apply Permutation_app_comm.
  Qed.
  Lemma F_cut : Permutation VA (FS ++ FT).
  Proof. apply filter_cut. Qed.

  Lemma prods_app W W' a : prods (W ++ W') a = prods W a * prods W' a.
  Proof. unfold prods. rewrite map_app. apply qprod_app. Qed.
  Lemma likes_app L W W' a : likes L (W ++ W') a = likes L W a * likes L W' a.
  Proof. unfold likes. rewrite map_app. apply qprod_app. Qed.
  Lemma prods_perm W W' a : Permutation W W' -> prods W a = prods W' a.
  Proof. intros H. apply qprod_perm, Permutation_map, H. Qed.
  Lemma likes_perm L W W' a : Permutation W W' -> likes L W a = likes L W' a.
  Proof. intros H. apply qprod_perm, Permutation_map, H. Qed.
  Lemma likes_dep L W : dep W (likes L W).
  Proof. apply (dep_qprod W (fun i a => L i (a i))). intros x Hx a b E. rewrite E; auto. Qed.
  Lemma prods_dep S W : (forall i, In i W -> incl (fam i) S) -> dep S (prods W).
  Proof. intros H. apply (dep_qprod S (fun i a => cpt_entry N i a)). intros i Hi. apply dep_mono with (fam i); auto. apply cpt_dep. Qed.
  Lemma at_y_dep S v : In y S -> dep S (at_y v).
  Proof. intros H a b E. unfold at_y. rewrite E; auto. Qed.
  Lemma all_proper L W v : incl W V -> proper (fun a => at_y v a * (prods W a * likes L W a)).
  Proof.
    intros HW. apply (dep_proper V). apply dep_mult; [apply at_y_dep; auto|]. apply dep_mult.
    - apply prods_dep. intros i Hi p Hp. apply in_app_or in Hp. destruct Hp as [Hp|[<-|[]]]; [apply (ns_ends _ HN p i Hp)|auto].
    - apply dep_mono with W; auto. apply likes_dep.
  Qed.
  Lemma fam_A i : In i VA -> incl (fam i) VA.
  Proof.
    intros Hi p Hp. apply VA_In in Hi. destruct Hi as [H1 H2]. apply in_app_or in Hp. apply VA_In. destruct Hp as [Hp|[<-|[]]]; auto.
    split; [apply (ns_ends _ HN p i Hp)|eapply HAp; eauto].
  Qed.

  Section L.
    Variable L : likelihood.
    Hypothesis flat : forall i v, In i V -> inA i = false -> In v (D i) -> L i v = 1.

    (** only [inA] matters *)
    Lemma mass_A v : mass_of N L y v = sums D VA (fun a => at_y v a * (prods VA a * likes L VA a)) no_asg.
    Proof using HN HA HS HAp Hy HyA flat.
      unfold mass_of. rewrite (sums_ext _ _ _ (fun a => at_y v a * (prods V a * likes L V a))).
      2:{ intros b. unfold at_y. change (weight N L b) with (prods V b * likes L V b). destruct (string_dec (b y) v); ring. }
      rewrite (sums_perm D _ (VA ++ VB)); [|apply all_proper, incl_refl|apply V_cut]. rewrite sums_app. apply sums_ext_gen. intros b Hb Hok.
      assert (DA : dep VA (fun a => at_y v a * (prods VA a * likes L VA a))).
      { apply dep_mult; [apply at_y_dep, VA_In; auto|]. apply dep_mult; [apply prods_dep; intros; apply fam_A; auto|apply likes_dep]. }
      transitivity (sums D VB (fun a => (at_y v a * (prods VA a * likes L VA a)) * prods VB a) b).
      - apply sums_ext_gen. intros c Hc Hk. rewrite (prods_perm _ _ c V_cut), (likes_perm L _ _ c V_cut), prods_app, likes_app.
        assert (E : likes L VB c = 1).
        { apply qprod_map_one. intros i Hi. pose proof (Hk i Hi) as Hd. apply filter_In in Hi. destruct Hi as [Hi Hn]. apply flat; auto. apply negb_true_iff; auto. }
        rewrite E. ring.
      - rewrite (sums_factor D VA); auto.
        + assert (E : sums D VB (prods VB) b = 1).
          { apply (barren (List.length VB)); auto. apply NoDup_filter, (ns_nd _ HN). intros i Hi; apply filter_In in Hi; tauto.
            intros i p Hi Hp Hn. apply Hok. apply VA_In. assert (Hv : In p V) by apply (ns_ends _ HN p i Hp). split; auto.
            destruct (inA p) eqn:Ep; auto. exfalso. apply Hn, filter_In. rewrite Ep. auto. }
          rewrite E. ring.
        + intros i Hi Hi'. apply filter_In in Hi. apply VA_In in Hi'. destruct Hi as [_ Hi], Hi' as [_ Hi']. rewrite Hi' in Hi. discriminate.
    Qed.

    Hypothesis hardL : forall z v, In z V -> In z ev -> In v (D z) -> v <> e z -> L z v = 0.
    Definition fS (a : asg) : Qc := prods FS a * likes L VS a.
    Definition fT (v : string) (a : asg) : Qc := at_y v a * (prods FT a * likes L VT a).

    Lemma fS_dep : dep (VE ++ VS) fS.
    Proof.
      apply dep_mult; [|apply dep_mono with VS; [apply incl_appr, incl_refl|apply likes_dep]].
      apply prods_dep. intros i Hi m Hm. apply filter_In in Hi. destruct Hi as [Hi Ht]. pose proof (fam_A i Hi m Hm) as HmA. apply VA_In in Hi, HmA.
      apply existsb_exists in Ht. destruct Ht as (m0 & H0 & H1). apply in_or_app.
      destruct (HSep i m0 ltac:(tauto) ltac:(tauto) H0 H1 m Hm); [right; apply VS_In|left; apply VE_In]; tauto.
    Qed.
    Lemma fT_dep v : dep (VE ++ VT) (fT v).
    Proof.
      assert (HyT : In y VT) by (apply VT_In; auto).
      apply dep_mult; [apply at_y_dep; apply in_or_app; auto|]. apply dep_mult; [|apply dep_mono with VT; [apply incl_appr, incl_refl|apply likes_dep]].
      apply prods_dep. intros i Hi m Hm. apply filter_In in Hi. destruct Hi as [Hi Ht]. apply negb_true_iff in Ht. pose proof (fam_A i Hi m Hm) as HmA. apply VA_In in HmA.
      apply in_or_app. assert (Es : inS m = false). { destruct (inS m) eqn:E; auto. exfalso. assert (touch i = true); [|congruence]. apply existsb_exists. eauto. }
      destruct (in_dec Z.eq_dec m ev) as [Hev|Hev]; [left; apply VE_In|right; apply VT_In]; tauto.
    Qed.
    Lemma mass_S v : mass_of N L y v =
      likes L VE (updl no_asg VE e) * (sums D VS fS (updl no_asg VE e) * sums D VT (fT v) (updl no_asg VE e)).
    Proof using All.
      rewrite mass_A. rewrite (sums_perm D _ (VE ++ (VS ++ VT))); [|apply all_proper; intros i Hi; apply VA_In in Hi; tauto|apply VA_cut].
      rewrite sums_app.
      set (h := fun b => likes L VE b * (sums D VS fS b * sums D VT (fT v) b)).
      assert (NE : NoDup VE) by (unfold VE, VR, VA; do 3 apply NoDup_filter; apply (ns_nd _ HN)).
      assert (dS : dep VE (sums D VS fS)). { apply sums_dep' with (S := VE ++ VS). apply fS_dep. intros x Hx. apply in_app_or in Hx. tauto. }
      assert (dT : dep VE (sums D VT (fT v))). { apply sums_dep' with (S := VE ++ VT). apply fT_dep. intros x Hx. apply in_app_or in Hx. tauto. }
      assert (dh : dep VE h). { apply dep_mult; [apply likes_dep|]. apply dep_mult; auto. }
      transitivity (sums D VE (fun b => if agrees VE b e then h b else 0) no_asg).
      2:{ rewrite sums_agree; [reflexivity|exact NE|intros i Hi; apply VE_In in Hi; destruct (ns_dom _ HN i); tauto|intros i Hi; apply VE_In in Hi; apply He; tauto|eapply dep_proper; eauto]. }
      apply sums_ext_gen. intros b Hb Hok.
      transitivity (h b).
      - transitivity (sums D (VS ++ VT) (fun a => likes L VE a * (fS a * fT v a)) b).
        + apply sums_ext. intros a. unfold fS, fT. rewrite (prods_perm _ _ a F_cut), (likes_perm L _ _ a VA_cut), prods_app, !likes_app. ring.
        + rewrite (sums_factor D VE); [|apply likes_dep|intros x Hx Hx'; apply VE_In in Hx'; apply in_app_or in Hx; destruct Hx as [Hx|Hx]; [apply VS_In in Hx; apply (HSe x); tauto|apply VT_In in Hx; tauto]].
          unfold h. f_equal. symmetry. apply (sums_prod D (VE ++ VS) (VE ++ VT)); [apply fS_dep|apply fT_dep| |].
          * intros x Hx Hx'. apply VS_In in Hx. apply in_app_or in Hx'. destruct Hx' as [Hx'|Hx']; [apply VE_In in Hx'; apply (HSe x); tauto|].
            apply VT_In in Hx'. destruct Hx as (_ & _ & Hx), Hx' as (_ & _ & Hx' & _). congruence.
          * intros x Hx Hx'. apply VT_In in Hx. apply in_app_or in Hx'. destruct Hx' as [Hx'|Hx']; [apply VE_In in Hx'; tauto|].
            apply VS_In in Hx'. destruct Hx' as (_ & _ & Hx'), Hx as (_ & _ & Hx & _). congruence.
      - destruct (agrees VE b e) eqn:Ea; auto. unfold h.
        assert (Z0 : exists z, In z VE /\ b z <> e z).
        { unfold agrees in Ea. clear -Ea. induction VE as [|z l IH]; [discriminate|]. simpl in Ea. apply andb_false_iff in Ea. destruct Ea as [Ea|Ea].
          - exists z. split; [left; auto|]. apply String.eqb_neq; auto.
          - destruct (IH Ea) as (w & Hw & Hn). exists w. split; [right; auto|auto]. }
        destruct Z0 as (z & Hz & Hn). assert (E : likes L VE b = 0).
        { unfold likes. apply qprod_has_zero. apply in_map_iff. exists z. split; auto. pose proof (Hok z Hz) as Hd. apply VE_In in Hz. apply hardL; tauto. }
        rewrite E. ring.
    Qed.
  End L.

  (** changing the likelihoods inside [inS] changes no posterior of [y] *)
  Lemma separated_mass L L' :
    (forall i v, In i V -> inA i = false -> In v (D i) -> L i v = 1) -> (forall i v, In i V -> inA i = false -> In v (D i) -> L' i v = 1) ->
    (forall z v, In z V -> In z ev -> In v (D z) -> v <> e z -> L z v = 0) ->
    (forall i v, In i V -> inS i = false -> In v (D i) -> L i v = L' i v) ->
    exists k k', forall v, exists m, mass_of N L y v = k * m /\ mass_of N L' y v = k' * m.
  Proof using All.
    intros F F' H E. assert (H' : forall z v, In z V -> In z ev -> In v (D z) -> v <> e z -> L' z v = 0).
    { intros z v H1 H2 H3 H4. rewrite <- E; auto. destruct (inS z) eqn:Es; auto. exfalso. apply (HSe z Es H2). }
    set (e' := updl no_asg VE e).
    exists (likes L VE e' * sums D VS (fS L) e'), (likes L' VE e' * sums D VS (fS L') e'). intros v. exists (sums D VT (fT L v) e').
    rewrite !mass_S by auto. fold e'. split; [ring|]. rewrite <- Qcmult_assoc. do 2 f_equal. apply sums_ext_gen. intros b Hb Hok. unfold fT. do 2 f_equal. apply qprod_map_ext. intros i Hi. pose proof (Hok i Hi) as Hd. apply VT_In in Hi. symmetry. apply E; tauto.
  Qed.
  Lemma separated_posterior L L' :
    (forall i v, In i V -> inA i = false -> In v (D i) -> L i v = 1) -> (forall i v, In i V -> inA i = false -> In v (D i) -> L' i v = 1) ->
    (forall z v, In z V -> In z ev -> In v (D z) -> v <> e z -> L z v = 0) ->
    (forall i v, In i V -> inS i = false -> In v (D i) -> L i v = L' i v) ->
    possible N L -> possible N L' -> forall v, exact_posterior N L y v = exact_posterior N L' y v.
  Proof using All.
    intros F F' H E P P' v. destruct (separated_mass L L' F F' H E) as (k & k' & Hm).
    assert (Hg : exists g, forall v, mass_of N L y v = k * g v /\ mass_of N L' y v = k' * g v).
    { exists (fun w => match Qc_eq_dec k 0 with left _ => (mass_of N L' y w / k') | right _ => (mass_of N L y w / k) end). intros w. destruct (Hm w) as (m & E1 & E2).
      destruct (Qc_eq_dec k 0) as [K|K].
      - exfalso. apply P. unfold possible. rewrite <- (mass_total N L HN y Hy). apply qsum_map_zero. intros x _. destruct (Hm x) as (mx & Ex & _). rewrite Ex, K. ring.
      - rewrite E1, E2. split; field; auto. }
    destruct Hg as [g Hg]. unfold exact_posterior. destruct (Qc_eq_dec (total N L) 0) as [Z0|Z0]; [exfalso; exact (P Z0)|]. destruct (Qc_eq_dec (total N L') 0) as [Z1|Z1]; [exfalso; exact (P' Z1)|].
    rewrite <- !(mass_total N _ HN y Hy) in *. rewrite (qsum_map_ext (mass_of N L y) (fun w => k * g w)) in * by (intros; apply Hg).
    rewrite (qsum_map_ext (mass_of N L' y) (fun w => k' * g w)) in * by (intros; apply Hg). rewrite !qsum_map_mult in *.
    destruct (Hg v) as [-> ->]. field. repeat split; intros K; [apply Z1|apply Z1|apply Z0]; rewrite K; ring.
  Qed.
End Sep.
