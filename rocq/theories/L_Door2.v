(** Adjustment by the sets that do.py finds, and independence of unrelated parents. *)
From Verif Require Import Py M_Graph M_Node M_Pptc M_Nx M_Do Spec SpecNet SpecPot SpecEv SpecNx SpecDo SpecAce SpecSep SpecDoor L_Base L_PD L_Table L_UG L_Sums L_Do L_Apply L_Shape L_Net L_P4 L_Cut L_Claims L_R6 L_Do2 L_Sep1 L_Sep2 L_Sep3 L_Sep4 L_Door.
Local Open Scope Qc_scope.

Lemma seeing_marginal N Zs a : nshape N -> incl Zs (vars N) -> total N (seeing Zs a) = marginal N no_evidence Zs a.
Proof.
  intros HN HI. rewrite marginal_prior. apply sums_ext. intros b. unfold weight. rewrite (seeing_prod N Zs a b HI). ring.
Qed.

Lemma inactive_backdoors d Zs x y : graph_ok (dg_nodes d) (dg_edges d) -> acyclic (arc (dg_edges d)) -> In x (dg_nodes d) -> In y (dg_nodes d) -> x <> y -> ~ In x Zs -> ~ In y Zs ->
  (backdoors_inactive d Zs x y <-> forall p, simple_path (dg_edges d) x y p -> backdoor (dg_edges d) p -> ~ open_path (dg_edges d) Zs p).
Proof.
  intros G A Hx Hy Hxy Nx Ny. destruct (all_paths_ok d (dgood_graph d G) x y Hx Hy Hxy) as (ps & E & Hps).
  assert (Long : forall p, simple_path (dg_edges d) x y p -> p = [x; y] \/ (3 <= List.length p)%nat).
  { intros p (_ & _ & H1 & H2). destruct p as [|a [|b [|c p]]]; [discriminate| | |right; simpl; lia].
    - simpl in *. congruence.
    - simpl in *. left. congruence. }
  split.
  - intros (ps' & E' & H) p Hp Hb Ho. rewrite E in E'. injection E' as <-. pose proof (H p (proj2 (Hps p) Hp) Hb) as Hf. destruct (Long p Hp) as [->|Hl].
    + destruct (c34_short d x y Zs) as (r & Er & Hr). rewrite Er in Hf. injection Hf as ->. destruct Hr as [_ Hr]. specialize (Hr (conj Nx Ny)). discriminate.
    + destruct Hp as (_ & Hc & _). destruct (c34 d p Zs G A Hl Hc) as (b & Eb & Hb'). rewrite Eb in Hf. injection Hf as ->. apply Hb' in Ho. discriminate.
  - intros H. exists ps. split; auto. intros p Hp Hb. apply Hps in Hp. destruct (Long p Hp) as [->|Hl].
    + exfalso. apply (H _ Hp Hb). intros a z b (l & r & El). destruct l as [|? [|? [|? ?]]]; discriminate.
    + destruct (Hp) as (_ & Hc & _). destruct (c34 d p Zs G A Hl Hc) as (b & Eb & Hb'). rewrite Eb. destruct b; auto. exfalso. apply (H p Hp Hb). apply Hb'. auto.
Qed.

Section Nets.
  Context (ops : list bop).
  Notation N := (net_of ops).
  Notation es := (dg_edges (net_graph ops)).
  Context (HW : well_shaped ops) (HA : acyclic (is_parent N)) (HS : stochastic N).

  Lemma arcs_path u v : path (arc es) u v <-> path (is_parent N) u v.
  Proof using HW. destruct (net_graph_ok ops HW) as (G1 & G2 & G3). split; apply path_mono; intros a b H; apply (G3 a b); auto. Qed.
  Lemma graph_acyclic : acyclic (arc es).
  Proof using HW HA. destruct (net_graph_ok ops HW) as (G1 & G2 & G3). exact (es_acyclic N HA es G3). Qed.

  Lemma c62_blocked Zs x xv y yv : In x (vars N) -> In xv (dom N x) -> In y (vars N) -> In yv (dom N y) -> x <> y ->
    NoDup Zs -> incl Zs (vars N) -> ~ In y Zs -> (forall z, In z Zs -> ~ path (is_parent N) x z) ->
    (forall p, simple_path es x y p -> backdoor es p -> ~ open_path es Zs p) -> overlaps N Zs x xv -> do_prob N x xv y yv = adjusting N Zs x xv y yv.
  Proof using HW HA HS.
    intros Hx Hxv Hy Hyv Hxy HZ HZv HyZ Hnd Hb Hov. destruct (net_graph_ok ops HW) as (G1 & G2 & G3). pose proof (net_shape ops HW) as HN.
    assert (HxZ : ~ In x Zs) by (intros H; apply (Hnd x H); constructor).
    assert (HI : incl (x :: Zs) (vars N)) by (intros v [<-|Hv]; auto).
    rewrite (backdoor_formula N HN HA HS x Hx xv Hxv Zs y HZ HZv HxZ Hy (fun e => Hxy (eq_sym e)) HyZ Hnd es G3 Hb yv Hyv).
    - unfold adjusting. apply sums_ext. intros a. rewrite (seeing_marginal N Zs a HN HZv). auto.
    - intros a Ha. rewrite (seeing_marginal N Zs a HN HZv), (seeing_marginal N (x :: Zs) _ HN HI). apply Hov. auto.
  Qed.

  (** a set holding every parent of [x] that starts a backdoor path *)
  Lemma first_blocks Zs x y : ~ is_parent N y x ->
    (forall p a r, simple_path es x y p -> backdoor es p -> p = x :: a :: r -> open_path es [] p -> In a Zs) ->
    (forall p, simple_path es x y p -> backdoor es p -> open_path es Zs p -> open_path es [] p) ->
    forall p, simple_path es x y p -> backdoor es p -> ~ open_path es Zs p.
  Proof using HW HA.
    intros Hyx H1 H2 p Hp Hb Ho. destruct (net_graph_ok ops HW) as (G1 & G2 & G3). destruct (Hp) as (ND & Hc & E1 & E2).
    destruct p as [|x' p]; [discriminate|]. injection E1 as ->. destruct p as [|a p]; [destruct Hb|]. simpl in Hb.
    destruct p as [|b p]. { simpl in E2. injection E2 as ->. apply Hyx, (G3 y x). auto. }
    assert (Ha : In a Zs) by (eapply H1; eauto; reflexivity || apply H2; auto).
    assert (Ht : triple (x :: a :: b :: p) x a b) by (exists [], p; auto). destruct (Ho x a b Ht) as [_ O]. apply O; auto.
    intros [C _]. apply (graph_acyclic x a C). apply path_one. exact Hb.
  Qed.
End Nets.

Lemma c62_backdoor : forall ops Zs x xv y yv, let N := net_of ops in well_shaped ops -> acyclic (is_parent N) -> stochastic N ->
  In x (vars N) -> In xv (dom N x) -> In y (vars N) -> In yv (dom N y) -> x <> y -> NoDup Zs -> incl Zs (vars N) -> ~ In y Zs ->
  (forall z, In z Zs -> ~ path (is_parent N) x z) -> backdoors_inactive (net_graph ops) Zs x y -> overlaps N Zs x xv ->
  do_prob N x xv y yv = adjusting N Zs x xv y yv.
Proof.
  intros ops Zs x xv y yv N HW HA HS Hx Hxv Hy Hyv Hxy HZ HZv HyZ Hnd Hb Hov. destruct (net_graph_ok ops HW) as (G1 & G2 & G3).
  apply (c62_blocked ops HW HA HS); auto. apply inactive_backdoors; auto.
  - apply graph_acyclic; auto.
  - rewrite G1; auto.
  - rewrite G1; auto.
  - intros H. apply (Hnd x H). constructor.
Qed.

Lemma c62_parents : forall ops x xv y yv, let N := net_of ops in well_shaped ops -> acyclic (is_parent N) -> stochastic N ->
  In x (vars N) -> In xv (dom N x) -> In y (vars N) -> In yv (dom N y) -> x <> y -> ~ In y (par N x) -> overlaps N (par N x) x xv ->
  do_prob N x xv y yv = adjusting N (par N x) x xv y yv.
Proof.
  intros ops x xv y yv N HW HA HS Hx Hxv Hy Hyv Hxy HyP Hov. destruct (net_graph_ok ops HW) as (G1 & G2 & G3). pose proof (net_shape ops HW) as HN. fold N in HN.
  apply (c62_blocked ops HW HA HS); auto.
  - pose proof (ns_par _ HN x) as H. apply NoDup_app_iff in H. apply H.
  - intros p Hp. apply (ns_ends _ HN p x Hp).
  - intros z Hz Hp. apply (HA z x); auto. split; auto.
  - intros p Hp Hb Ho. destruct (Hp) as (ND & Hc & E1 & E2). destruct p as [|x' p]; [discriminate|]. injection E1 as ->. destruct p as [|a p]; [destruct Hb|]. simpl in Hb.
    assert (Ha : In a (par N x)) by (apply (G3 a x); auto).
    destruct p as [|b p]. { simpl in E2. injection E2 as ->. tauto. }
    assert (Ht : triple (x :: a :: b :: p) x a b) by (exists [], p; auto). destruct (Ho x a b Ht) as [_ O]. apply O; auto.
    intros [C _]. apply (graph_acyclic ops HW HA x a C). apply path_one. exact Hb.
Qed.


Lemma chain_nodes V (es : list (Z * Z)) : (forall u v, In (u, v) es -> In u V /\ In v V) -> forall l u, In u V -> chain (sym (arc es)) (u :: l) -> incl (u :: l) V.
Proof.
  intros HE. induction l as [|w l IH]; intros u Hu Hc i Hi.
  - destruct Hi as [<-|[]]. auto.
  - destruct Hi as [<-|Hi]; auto. destruct Hc as [Hs Hc]. apply (IH w); auto. destruct Hs as [H|H]; apply HE in H; tauto.
Qed.
Lemma path_nodes ops x y p : well_shaped ops -> In x (vars (net_of ops)) -> simple_path (dg_edges (net_graph ops)) x y p -> incl p (vars (net_of ops)).
Proof.
  intros HW Hx (_ & Hc & E1 & _). destruct (net_graph_ok ops HW) as (G1 & G2 & G3). destruct p as [|u p]; [discriminate|]. injection E1 as ->.
  apply (chain_nodes _ (dg_edges (net_graph ops))); auto. destruct G2 as (_ & _ & G2). rewrite G1 in G2. exact G2.
Qed.

Lemma c62_confounders : forall ops o x xv y yv, let N := net_of ops in let d := net_graph ops in well_shaped ops -> acyclic (is_parent N) -> stochastic N -> ord_ok o ->
  In x (vars N) -> In xv (dom N x) -> In y (vars N) -> In yv (dom N y) -> x <> y -> ~ is_parent N y x ->
  (forall p z, simple_path (dg_edges d) x y p -> backdoor (dg_edges d) p -> ~ collider_on (dg_edges d) p z) ->
  exists Z0, get_all_confounders o d x y = Ok Z0 /\ (overlaps N Z0 x xv -> do_prob N x xv y yv = adjusting N Z0 x xv y yv).
Proof.
  intros ops o x xv y yv N d HW HA HS Ho Hx Hxv Hy Hyv Hxy Hyx Hcol. destruct (net_graph_ok ops HW) as (G1 & G2 & G3).
  assert (Hx' : In x (dg_nodes d)) by (unfold d; rewrite G1; exact Hx). assert (Hy' : In y (dg_nodes d)) by (unfold d; rewrite G1; exact Hy).
  pose proof (graph_acyclic ops HW HA) as A.
  destruct (c50 o d x y Ho G2 A Hx' Hy' Hxy) as (Z0 & E & ND & H). exists Z0. split; auto. intros Hov.
  assert (Ho0 : forall p, simple_path (dg_edges d) x y p -> backdoor (dg_edges d) p -> open_path (dg_edges d) [] p).
  { intros p P1 P2. apply open_nil. intros a z b T C. apply (Hcol p z P1 P2). exists a, b; auto. }
  apply (c62_blocked ops HW HA HS); auto.
  - intros z Hz. apply H in Hz. destruct Hz as (_ & _ & _ & _ & p & Hp & _ & _ & Hi). apply (path_nodes ops x y p HW Hx Hp). auto.
  - intros C. apply H in C. tauto.
  - intros z Hz Hp. apply H in Hz. destruct Hz as (_ & _ & Hn & _). apply Hn, (arcs_path ops HW). auto.
  - apply first_blocks; auto. intros p a r Hp Hb -> _. simpl in Hb. apply H.
    assert (Nx : a <> x). { destruct Hp as (Hd & _). inversion Hd as [|? ? Hn _]. intros ->. apply Hn. left; auto. }
    assert (Ny : a <> y). { intros ->. apply Hyx. apply (G3 y x). auto. }
    split; auto. split; auto. split; [intros Hq; apply (A a x Hb Hq)|]. split; [intros q Q1 Q2 Q3; exfalso; apply Q3; auto|].
    exists (x :: a :: r). split; auto. split; auto. split; [apply Ho0; auto|]. right; left; auto.
Qed.

Lemma c62_minimal : forall ops o x xv y yv, let N := net_of ops in let d := net_graph ops in well_shaped ops -> acyclic (is_parent N) -> stochastic N -> ord_ok o ->
  In x (vars N) -> In xv (dom N x) -> In y (vars N) -> In yv (dom N y) -> x <> y -> ~ is_parent N y x ->
  (forall p z, simple_path (dg_edges d) x y p -> backdoor (dg_edges d) p -> ~ collider_on (dg_edges d) p z) ->
  exists Z0, get_minimal_confounders o d x y = Ok Z0 /\
    ((forall z, In z Z0 -> ~ path (is_parent N) x z) -> overlaps N Z0 x xv -> do_prob N x xv y yv = adjusting N Z0 x xv y yv).
Proof.
  intros ops o x xv y yv N d HW HA HS Ho Hx Hxv Hy Hyv Hxy Hyx Hcol. destruct (net_graph_ok ops HW) as (G1 & G2 & G3).
  assert (Hx' : In x (dg_nodes d)) by (unfold d; rewrite G1; exact Hx). assert (Hy' : In y (dg_nodes d)) by (unfold d; rewrite G1; exact Hy).
  pose proof (graph_acyclic ops HW HA) as A. assert (Hyx' : ~ In (y, x) (dg_edges d)) by (intros C; apply Hyx, (G3 y x); auto).
  destruct (c35_valid o d x y Ho G2 A Hx' Hy' Hxy Hyx' Hcol) as (Z0 & E & H). destruct (c35 o d x y Ho G2 A Hx' Hy' Hxy) as (Z1 & E1 & ND & _ & H1).
  rewrite E in E1. injection E1 as <-. exists Z0. split; auto. intros Hnd Hov. apply (c62_blocked ops HW HA HS); auto.
  - intros z Hz. destruct (H1 z Hz) as (p & Hp & _ & _ & a & b & T). apply (path_nodes ops x y p HW Hx Hp). apply (triple_In _ _ _ _ T).
  - intros C. destruct (H1 y C) as (p & Hp & _ & _ & a & b & (l & r & ->)). destruct Hp as (Hd & _ & _ & E2).
    change (l ++ a :: y :: b :: r) with (l ++ [a; y] ++ b :: r) in *. rewrite app_assoc in *. rewrite rev_app_distr in E2. simpl in E2.
    apply NoDup_app_iff in Hd. destruct Hd as (_ & _ & Hd). apply (Hd y); [apply in_or_app; right; simpl; auto|].
    apply in_rev. simpl. destruct (rev r ++ [b]) as [|u l0] eqn:E3; [destruct (rev r); discriminate E3|]. simpl in E2. injection E2 as ->. left; auto.
Qed.

(** ** unrelated parents *)
Lemma one_ne : (1 : Qc) <> 0.
Proof. intros H. apply (f_equal this) in H. discriminate. Qed.
Lemma marginal_nil_one N a : nshape N -> acyclic (is_parent N) -> stochastic N -> marginal N no_evidence [] a = 1.
Proof. intros HN HA HS. unfold marginal, same_on. simpl. exact (total_prior N HN HA HS). Qed.

Lemma unrelated_independent N es : nshape N -> acyclic (is_parent N) -> stochastic N -> same_arcs N es -> forall vs, NoDup vs -> incl vs (vars N) ->
  (forall p q, In p vs -> In q vs -> p <> q -> separated es [] p q) -> independent N vs.
Proof.
  intros HN HA HS HE. induction vs as [|p vs IH]; intros ND HI Hsep a Ha.
  - simpl. rewrite qprod_nil. apply marginal_nil_one; auto.
  - inversion ND as [|? ? Hp ND']; subst. cbn [map]. rewrite qprod_cons.
    assert (HI' : incl vs (vars N)) by (intros v Hv; apply HI; right; auto). assert (Hpv : In p (vars N)) by (apply HI; left; auto).
    assert (Ha' : okon (dom N) vs a) by (intros v Hv; apply Ha; right; auto).
    rewrite <- (IH ND' HI' (fun q r Hq Hr => Hsep q r (or_intror Hq) (or_intror Hr)) a Ha').
    assert (E0 : marginal N no_evidence (p :: vs) a = mass_of N (seeing vs a) p (a p)).
    { rewrite marginal_prior. apply sums_ext. intros b. unfold weight. rewrite (seeing_prod N vs a b HI'). unfold same_on. simpl.
      destruct (string_dec (b p) (a p)) as [e|e]; [rewrite (proj2 (String.eqb_eq _ _) e); simpl; ring|apply String.eqb_neq in e; rewrite e; simpl; ring]. }
    rewrite E0. destruct (Qc_eq_dec (total N (seeing vs a)) 0) as [Z0|Z0].
    + rewrite <- (seeing_marginal N vs a HN HI'), Z0, Qcmult_0_r. rewrite <- (mass_total N _ HN p Hpv) in Z0. apply (qsum_zero_nonneg _) with (x := mass_of N (seeing vs a) p (a p)) in Z0; auto.
      * intros q Hq. apply in_map_iff in Hq. destruct Hq as (v & <- & _). apply (mass_nonneg N _ HN). intros; apply seeing_nonneg.
      * apply in_map. apply Ha. left; auto.
    + assert (P : possible N no_evidence). { unfold possible. pose proof (total_prior N HN HA HS) as T. rewrite T. exact one_ne. }
      assert (Ed : exact_posterior N (seeing vs a) p (a p) = exact_posterior N no_evidence p (a p)).
      { apply (dsep N HN HA HS es HE vs p []); auto.
        - intros v [].
        - intros v Hv. apply (Hsep v p); [right; auto|left; auto|intros ->; auto].
        - intros v [].
        - intros i Hi _ Hn _. apply seeing_free; auto.
        - intros i v Hi Hn Hv. apply (seeing_free N); auto. }
      unfold exact_posterior in Ed. destruct (Qc_eq_dec (total N (seeing vs a)) 0); [tauto|]. rewrite (total_prior N HN HA HS) in Ed.
      destruct (Qc_eq_dec 1 0) as [C|_]; [destruct (one_ne C)|]. rewrite <- (seeing_marginal N vs a HN HI').
      transitivity (mass_of N (seeing vs a) p (a p) / total N (seeing vs a) * total N (seeing vs a)); [field; auto|]. rewrite Ed. field. exact one_ne.
Qed.

Lemma c33_unrelated : forall ops x, well_shaped ops -> let N := net_of ops in acyclic (is_parent N) -> stochastic N ->
  (forall p q, In p (par N x) -> In q (par N x) -> p <> q -> all_inactive (net_graph ops) [] p q) -> independent N (par N x).
Proof.
  intros ops x HW N HA HS H. destruct (net_graph_ok ops HW) as (G1 & G2 & G3). pose proof (net_shape ops HW) as HN. fold N in HN.
  assert (HI : incl (par N x) (vars N)) by (intros p Hp; apply (ns_ends _ HN p x Hp)).
  apply (unrelated_independent N (dg_edges (net_graph ops))); auto.
  - pose proof (ns_par _ HN x) as H0. apply NoDup_app_iff in H0. apply H0.
  - intros p q Hp Hq Hn. apply (inactive_separated (net_graph ops) [] p q); auto.
    + apply graph_acyclic; auto.
    + rewrite G1. apply HI; auto.
    + rewrite G1. apply HI; auto.
Qed.
