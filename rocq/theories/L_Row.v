(** A variable whose parents are known and about whose effects nothing is known. *)
From Verif Require Import Py M_Graph M_Node M_Pptc Spec SpecNet SpecEv SpecSep SpecPot SpecCohere SpecChain SpecRow L_Base L_PD L_Sums L_Table L_Tree L_UG L_Dag L_Exact L_Apply L_Net L_Claims L_P1 L_P4 L_P2 L_Part3 L_Hist L_Evid L_Sep2 L_Cohere L_Rule.
Open Scope Qc_scope.

(** ** reachability, decided *)
Section Below.
  Context (N : net) (HN : nshape N).
  Definition kids (i : Z) : list Z := filter (fun w => mem i (par N w)) (vars N).
  Definition below (y z : Z) : bool := match pd_exists kids z (List.length (vars N)) y with Ok b => b | Err _ => false end.
  Lemma kids_In i w : In w (kids i) <-> is_parent N i w.
  Proof. unfold kids, is_parent. rewrite filter_In, mem_In. tauto. Qed.
  Lemma below_ok y z : In y (vars N) -> (below y z = true <-> path (is_parent N) y z).
  Proof.
    intros Hy. unfold below. destruct (pd_exists_fuel kids z (vars N)) with (f := List.length (vars N)) (start := y) as [b E]; auto.
    { intros x w _ H. apply kids_In in H. apply H. }
    rewrite E. rewrite (pd_exists_spec _ _ _ _ _ E). split; apply path_mono; intros a c H; apply kids_In; auto.
  Qed.
End Below.

Section Row.
  Context (N : net) (HN : nshape N) (HA : acyclic (is_parent N)) (HS : stochastic N).
  Context (L : likelihood) (y : Z) (a : asg) (Hy : In y (vars N)).
  Hypothesis Fy : free N L y.
  Hypothesis Fd : forall d, effect_of N y d -> free N L d.
  Hypothesis Pp : causes_known N L y a.
  Let inA i := Z.eqb i y || negb (below N y i).
  Let W := filter inA (vars N).
  Let U := filter (fun i => negb (Z.eqb i y)) W.

  Lemma rA_par i p : In i (vars N) -> inA i = true -> In p (par N i) -> inA p = true.
  Proof using HA Hy.
    intros Hi Hm Hp. unfold inA in *. destruct (Z.eqb_spec p y) as [->|Hne]; auto. simpl. apply negb_true_iff. destruct (below N y p) eqn:E; auto. exfalso. apply below_ok in E; auto.
    assert (P : is_parent N p i) by (split; auto). destruct (Z.eqb_spec i y) as [->|Hn]; simpl in Hm.
    - apply (HA p y P E).
    - apply negb_true_iff in Hm. assert (X : below N y i = true); [|congruence]. apply below_ok; auto. eapply path_trans; eauto. apply path_one; auto.
  Qed.
  Lemma rA_flat i v : In i (vars N) -> inA i = false -> In v (dom N i) -> L i v = 1.
  Proof using Hy Fd Fy Pp.
    intros Hi Hm Hv. unfold inA in Hm. apply orb_false_iff in Hm. destruct Hm as [Hm1 Hm2]. apply negb_false_iff in Hm2. apply below_ok in Hm2; auto. apply (Fd i); auto.
    destruct Hm2 as [x|x c z P1 P2]; [rewrite Z.eqb_refl in Hm1; discriminate|]. exists c. auto.
  Qed.
  Lemma rW_perm : Permutation W (U ++ [y]).
  Proof using HN Hy.
    assert (HW : NoDup W) by (apply NoDup_filter, (ns_nd _ HN)). apply NoDup_Permutation; auto.
    - apply NoDup_app_iff. split; [apply NoDup_filter; auto|]. split; [constructor; [tauto|constructor]|]. intros x Hx [<-|[]]. unfold U in Hx. apply filter_In in Hx. destruct Hx as [_ Hx]. rewrite Z.eqb_refl in Hx. discriminate.
    - intros x. rewrite in_app_iff. unfold U. rewrite filter_In. simpl. destruct (Z.eqb_spec x y) as [->|Hne]; simpl; split; try tauto.
      + intros _. unfold W. apply filter_In. split; auto. unfold inA. rewrite Z.eqb_refl. auto.
      + intros [[H _]|[H|[]]]; auto. congruence.
  Qed.
  Lemma rU_fam i : In i U -> incl (par N i ++ [i]) U.
  Proof using HN HA Hy.
    intros Hi x Hx. unfold U in *. apply filter_In in Hi. destruct Hi as [Hi Hn]. apply filter_In in Hi. destruct Hi as [Hi Hm]. apply in_app_or in Hx.
    destruct Hx as [Hx|[<-|[]]]; [|apply filter_In; split; auto; apply filter_In; auto]. apply filter_In. split.
    - apply filter_In. split; [apply (ns_ends _ HN x i Hx)|]. eapply rA_par; eauto.
    - apply negb_true_iff. destruct (Z.eqb_spec x y) as [->|]; auto. exfalso. unfold inA in Hm. apply negb_true_iff in Hn. rewrite Hn in Hm. simpl in Hm. apply negb_true_iff in Hm.
      assert (E : below N y i = true); [|congruence]. apply below_ok; auto. apply path_one. split; auto.
  Qed.
  Definition cell (v : string) : Qc := cpt_entry N y (upd a y v).
  Definition rest : Qc := sums (dom N) U (fun b => prods N U b * likes L U b) no_asg.
  Lemma row_mass v : In v (dom N y) -> mass_of N L y v = cell v * rest.
  Proof using HN HA HS Hy Fy Fd Pp.
    intros Hv. destruct (ns_dom _ HN y Hy) as [Hd _].
    rewrite (mass_A N HN HA HS inA y rA_par Hy) with (L := L); [|unfold inA; rewrite Z.eqb_refl; auto|intros; eapply rA_flat; eauto].
    fold W. rewrite (sums_perm _ _ _ _ _ (all_proper N HN y Hy L W v (fun i Hi => proj1 (proj1 (filter_In _ _ _) Hi))) rW_perm). rewrite sums_app.
    unfold rest. rewrite <- sums_mult_const. apply sums_ext_gen. intros b _ Hb.
    assert (HyU : ~ In y U). { unfold U. rewrite filter_In, Z.eqb_refl. intros [_ H]. discriminate. }
    transitivity (sums (dom N) [y] (fun c => if string_dec (c y) v then (prods N U c * likes L U c) * (cpt_entry N y c * L y (c y)) else 0) b).
    { apply sums_ext. intros c. unfold at_y. rewrite (prods_perm N _ _ c rW_perm), (likes_perm L _ _ c rW_perm), prods_app, likes_app. unfold prods at 2. unfold likes at 2. cbn [map].
      rewrite !qprod_cons, !qprod_nil. destruct (string_dec (c y) v); ring. }
    rewrite (sums_select (dom N) y (fun c => (prods N U c * likes L U c) * (cpt_entry N y c * L y (c y))) v b Hd Hv). rewrite upd_eq, (Fy v Hv).
    assert (EU : forall f, dep U f -> f (upd b y v) = f b). { intros f Hf. apply Hf. intros u Hu. apply upd_neq. intros ->. auto. }
    rewrite (EU (prods N U) (prods_dep N U U rU_fam)), (EU (likes L U) (likes_dep L U)).
    assert (PU : forall p, In p (par N y) -> In p U).
    { intros p Hp. unfold U. apply filter_In. assert (P : is_parent N p y) by (split; auto). split.
      - apply filter_In. split; [apply (ns_ends _ HN p y Hp)|]. apply (rA_par y p); auto. unfold inA. rewrite Z.eqb_refl. auto.
      - apply negb_true_iff. destruct (Z.eqb_spec p y) as [->|]; auto. exfalso. apply (HA y y P). constructor. }
    destruct (agrees (par N y) b a) eqn:Eb.
    - unfold cell. rewrite (cpt_dep N y (upd b y v) (upd a y v)). ring. intros u Hu. apply in_app_or in Hu.
      destruct Hu as [Hu|[<-|[]]]; [|rewrite !upd_eq; auto]. unfold upd. destruct (Z.eqb u y); auto. unfold agrees in Eb. rewrite forallb_forall in Eb. apply String.eqb_eq. apply Eb; auto.
    - assert (Z0 : likes L U b = 0); [|rewrite Z0; ring]. unfold agrees in Eb. assert (X : exists p, In p (par N y) /\ b p <> a p).
      { clear - Eb. induction (par N y) as [|p l IH]; simpl in Eb; [discriminate|]. destruct (String.eqb_spec (b p) (a p)); simpl in Eb; [|exists p; simpl; auto]. destruct (IH Eb) as [q [Q1 Q2]]. exists q. simpl. auto. }
      destruct X as [p [P1 P2]]. pose proof (PU p P1) as P3. destruct (Pp p P1) as [_ P4]. specialize (P4 (b p) (Hb p P3) P2). unfold likes.
      clear - P3 P4. induction U as [|u l IH]; [destruct P3|]. cbn [map]. rewrite qprod_cons. destruct P3 as [->|H]; [rewrite P4; ring|rewrite IH; auto; ring].
  Qed.
  Lemma cells_sum : qsum (map cell (dom N y)) = 1.
  Proof using HS Hy Pp. apply (HS y a Hy). intros p Hp. apply Pp; auto. Qed.
  Lemma row_total : total N L = rest.
  Proof using HN HA HS Hy Fy Fd Pp.
    rewrite <- (mass_total N L HN y Hy). rewrite (qsum_map_ext _ (fun v => rest * cell v)) by (intros v Hv; rewrite row_mass by auto; ring).
    rewrite qsum_map_mult, cells_sum. ring.
  Qed.
  Lemma row_posterior v : In v (dom N y) -> possible N L -> exact_posterior N L y v = cell v.
  Proof using HN HA HS Hy Fy Fd Pp.
    intros Hv HP. unfold exact_posterior. rewrite row_mass by auto. destruct (Qc_eq_dec (total N L) 0) as [E|E]; [contradiction|]. rewrite row_total in *. field. auto.
  Qed.
End Row.

Lemma c100_row ops o h y a : well_shaped ops -> connected ops -> acyclic (is_parent (net_of ops)) -> stochastic (net_of ops) -> ord_ok o -> valid_history (net_of ops) h ->
  let N := net_of ops in let L := shown N (calls h) in possible N L ->
  In y (vars N) -> free N L y -> (forall d, effect_of N y d -> free N L d) -> causes_known N L y a ->
  exists j t, session o ops h = Ok j /\ get_posteriors j = Ok t /\ dget t (net_name ops y) = Some (map (fun v => (v, cpt_entry N y (upd a y v))) (dom N y)).
Proof.
  intros HW Hc HA HS Ho Hh N L HP Hy Fy Fd Pp. destruct (session_exact ops o h HW Hc Ho Hh) as [j [t [A1 [A2 [_ A4]]]]]. exists j, t. split; auto. split; auto.
  rewrite (A4 y Hy). f_equal. apply map_ext_in. intros v Hv. f_equal. apply (row_posterior N (net_shape ops HW) HA HS L y a Hy Fy Fd Pp v Hv HP).
Qed.

(** ** in the order of causation *)
Section Forward.
  Context (ops : list bop) (o : Ord) (os : Z -> Ord) (a : asg).
  Context (HW : well_shaped ops) (Hc : connected ops) (HA : acyclic (is_parent (net_of ops))) (HS : stochastic (net_of ops)).
  Context (Ho : ord_ok o) (Hos : forall i, ord_ok (os i)) (Ha : okon (dom (net_of ops)) (vars (net_of ops)) a).
  Hypothesis Hw : weight (net_of ops) no_evidence a <> 0.
  Notation N := (net_of ops).
  Lemma weight_point L b : okon (dom N) (vars N) b -> (forall i, In i (vars N) -> L i (b i) = 1) -> weight N L b = weight N no_evidence b.
  Proof using. clear. intros Hb H. unfold weight. f_equal. apply qprod_map_ext. intros i Hi. apply H; auto. Qed.
  Lemma point_possible L : (forall i v, In i (vars N) -> In v (dom N i) -> 0 <= L i v) -> (forall i, In i (vars N) -> L i (a i) = 1) -> possible N L.
  Proof using HW Ha Hw.
    intros HL H1 E. pose proof (net_shape ops HW) as HN. pose proof (sums_zero_terms (dom N) (vars N) _ (weight_proper N L) no_asg) as S.
    specialize (S (fun c Hc Hoc => weight_nonneg N L HN HL c Hoc) E (fun v => if mem v (vars N) then a v else no_asg v)). apply Hw. rewrite <- (weight_point L a Ha H1).
    rewrite (weight_vars N L HN a (fun v => if mem v (vars N) then a v else no_asg v)).
    - apply S. + intros u Hu. destruct (mem_spec u (vars N)); [contradiction|reflexivity]. + intros u Hu. apply mem_In in Hu as Hm. rewrite Hm. apply Ha; auto.
    - intros v Hv. apply mem_In in Hv. rewrite Hv. reflexivity.
  Qed.
  Lemma forward l : forall done h, Permutation (done ++ l) (vars N) -> causes_first N (done ++ l) -> valid_history N h -> Forall hard_call (calls h) ->
    (forall i v, In i done -> In v (dom N i) -> in_force N (calls h) i v = if String.eqb v (a i) then 1 else 0) -> (forall i, In i l -> free N (in_force N (calls h)) i) ->
    chained o ops os a h l (map (fun i => cpt_entry N i a) l).
  Proof using HW Hc HA HS Ho Hos Ha Hw.
    pose proof (net_shape ops HW) as HN. induction l as [|i l IH]; intros done h P CF Hh Hd H1 H2; [constructor|]. cbn [map].
    assert (ND : NoDup (done ++ i :: l)) by (apply (Permutation_NoDup (Permutation_sym P)), (ns_nd _ HN)).
    assert (Hin : forall x, In x (done ++ i :: l) -> In x (vars N)) by (intros x; apply (Permutation_in x P)).
    assert (Hi : In i (vars N)) by (apply Hin; apply in_or_app; simpl; auto). assert (Hv : In (a i) (dom N i)) by (apply Ha; auto).
    assert (HP : possible N (in_force N (calls h))).
    { apply point_possible. apply force_pos; auto. intros z Hz. apply (Permutation_in z (Permutation_sym P)) in Hz as Hz'. apply in_app_or in Hz'.
      destruct Hz' as [Hz'|Hz']; [rewrite H1, String.eqb_refl by auto; auto|]. apply (H2 z Hz'). auto. }
    assert (E : exact_posterior N (in_force N (calls h)) i (a i) = cpt_entry N i a).
    { rewrite (row_posterior N HN HA HS _ i a Hi); auto.
      - unfold cell. apply cpt_dep. intros u _. unfold upd. destruct (Z.eqb_spec u i) as [->|]; auto.
      - apply H2. left; auto.
      - intros d (c & P1 & P2). apply H2. assert (Hd' : In d (vars N)). { destruct (path_last _ _ _ P2) as [<-|(z & _ & Q)]; [apply P1|apply Q]. }
        apply (Permutation_in d (Permutation_sym P)) in Hd' as Hx. apply in_app_or in Hx. destruct Hx as [Hx|Hx]; auto. exfalso.
        assert (G : forall x y, path (is_parent N) x y -> In y done -> In x done).
        { intros x y Hp. induction Hp as [x|x w y Q1 Q2 IHp]; auto. intros Hy. specialize (IHp Hy). apply in_split in IHp. destruct IHp as (d1 & d2 & Ed).
          assert (K : incl (par N w) d1). { apply (CF d1 w (d2 ++ i :: l)). rewrite Ed, <- app_assoc. reflexivity. } rewrite Ed. apply in_or_app. left. apply K. apply Q1. }
        assert (Hid : In i done) by (apply (G i d); auto; apply path_step with c; auto). apply NoDup_app_iff in ND. destruct ND as (_ & _ & ND). apply (ND i Hid). left; auto.
      - intros p Hp. assert (K : In p done) by (apply (CF done i l eq_refl); auto). assert (Hpv : In p (vars N)) by (apply Hin; apply in_or_app; auto). split; [apply Ha; auto|].
        intros v Hv' Hne. rewrite H1 by auto. apply String.eqb_neq in Hne. rewrite Hne. reflexivity. }
    constructor. { rewrite <- E. apply prior_answers; auto. }
    pose proof (chain_force ops h (os i) i (a i) Hi Hv) as A. set (e := mkEv i (dom N i) OBSERVATION [(a i, 1)]).
    assert (K : known N e). { split; [exact Hi|]. split; [reflexivity|]. split; [repeat constructor; intros []|]. intros z [<-|[]]. exact Hv. }
    apply (IH (done ++ [i])).
    - rewrite <- app_assoc. exact P.
    - rewrite <- app_assoc. exact CF.
    - apply valid_app. split; auto. apply valid_one; auto. simpl. constructor; auto.
    - rewrite app_calls. apply Forall_app. split; auto. constructor; [|constructor]. simpl. constructor; [discriminate|constructor].
    - intros z v Hz Hvz. rewrite A; auto. 2:{ apply Hin. apply in_app_or in Hz. apply in_or_app. simpl in *. destruct Hz as [Hz|[Hz|[]]]; auto. }
      unfold observing. destruct (Z.eqb_spec z i) as [->|Hne]; auto. apply in_app_or in Hz. destruct Hz as [Hz|[Hz|[]]]; [auto|congruence].
    - intros z Hz v Hvz. rewrite A; auto. 2:{ apply Hin. apply in_or_app. simpl. auto. } unfold observing. destruct (Z.eqb_spec z i) as [->|Hne]; [|apply (H2 z (or_intror Hz) v Hvz)].
      exfalso. apply NoDup_app_iff in ND. destruct ND as (_ & ND & _). inversion ND; auto.
  Qed.
End Forward.
Lemma c100_forward ops o (os : Z -> Ord) a l : well_shaped ops -> connected ops -> acyclic (is_parent (net_of ops)) -> stochastic (net_of ops) -> ord_ok o -> (forall i, ord_ok (os i)) ->
  okon (dom (net_of ops)) (vars (net_of ops)) a -> (forall i, In i (vars (net_of ops)) -> cpt_entry (net_of ops) i a <> 0) -> Permutation l (vars (net_of ops)) -> causes_first (net_of ops) l ->
  chained o ops os a [] l (map (fun i => cpt_entry (net_of ops) i a) l).
Proof.
  intros HW Hc HA HS Ho Hos Ha H0 P CF. apply (forward ops o os a HW Hc HA HS Ho Hos Ha) with (done := []); auto.
  - rewrite weight_prior. revert H0. generalize (vars (net_of ops)) as V. induction V as [|x V IH]; intros H0; cbn [map]; [discriminate|]. rewrite qprod_cons. intros E. apply Qcmult_integral in E.
    destruct E as [E|E]; [apply (H0 x); simpl; auto|]. apply IH; auto. intros i Hi. apply H0. right; auto.
  - split; constructor.
  - constructor.
  - intros i v [].
  - intros i _ v _. reflexivity.
Qed.
