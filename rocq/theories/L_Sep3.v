(** Graphical separation implies that evidence has no effect. *)
From Verif Require Import Py M_Graph M_Nx Spec SpecNet SpecPot SpecNx SpecDo SpecSep L_Base L_PD L_UG L_Nx L_Do L_Apply L_Sep1 L_Sep2.
Open Scope nat_scope.

Lemma path_flip {K} (R S : K -> K -> Prop) x y : (forall a b, R a b -> S b a) -> path R x y -> path S y x.
Proof. intros H. induction 1. constructor. eapply path_trans; eauto. apply path_one. auto. Qed.
Lemma list_choice (P : Z -> string -> Prop) l : (forall z, In z l -> exists x, P z x) -> exists e : asg, forall z, In z l -> P z (e z).
Proof.
  induction l as [|a l IH]; intros H. exists no_asg. intros z [].
  destruct IH as [e He]. { intros z Hz. apply H; simpl; auto. } destruct (H a) as [x Hx]; [simpl; auto|]. exists (upd e a x). intros z [<-|Hz]; unfold upd.
  - rewrite Z.eqb_refl. auto.
  - destruct (Z.eqb_spec z a) as [->|]; auto.
Qed.

Section Dsep.
  Context (N : net) (HN : nshape N) (HA : acyclic (is_parent N)) (HS : stochastic N).
  Context (es : list (Z * Z)) (HE : same_arcs N es).
  Context (X : list Z) (y : Z) (ev : list Z) (HX : incl X (vars N)) (Hy : In y (vars N)) (Hev : incl ev (vars N)).
  Context (HXe : forall x, In x X -> ~ In x ev) (Hye : ~ In y ev).
  Notation V := (vars N).
  Notation ar := (arc es).

  Lemma es_acyclic : acyclic ar.
  Proof using HA HE. intros a b H1 H2. apply (HA a b); [apply HE; auto|]. apply path_mono with (R := ar); auto. intros u v. apply HE. Qed.
  Lemma par_V x p : In x V -> In p (par N x) -> In p V.
  Proof using HN. intros _ H. apply (ns_ends _ HN p x H). Qed.
  Lemma par_arc a b : In b (par N a) -> ar b a.
  Proof using HN HE. intros H. apply HE. split; auto. apply (ns_ends _ HN b a H). Qed.
  Lemma arc_par a b : ar a b -> In a (par N b).
  Proof using HE. intros H. apply HE in H. apply H. Qed.

  Definition anc (l : list Z) (z : Z) : bool := mem z (closure (List.length V) (par N) (fold_left sadd l [])).
  Lemma anc_ok l z : incl l V -> (anc l z = true <-> exists t, In t l /\ path ar z t).
  Proof using HN HE.
    intros Hl. unfold anc. rewrite mem_In. rewrite (closure_set V (par N) par_V l z Hl). split; intros (t & Ht & Hp); exists t; split; auto.
    - eapply path_flip; [|exact Hp]. intros a b Hab. apply par_arc; auto.
    - eapply path_flip; [|exact Hp]. intros a b Hab. apply arc_par; auto.
  Qed.
  Definition ends : list Z := X ++ y :: ev.
  Lemma ends_V : incl ends V.
  Proof using HX Hy Hev. intros t Ht. apply in_app_or in Ht. destruct Ht as [Ht|[<-|Ht]]; auto. Qed.
  Definition inA := anc ends.
  Lemma inA_lower z : inA z = true <-> lower es ev X y z.
  Proof using HN HE HX Hy Hev.
    unfold inA. rewrite anc_ok by apply ends_V. unfold lower, ends. split; intros (t & H1 & H2); exists t; split; auto.
    - apply in_app_or in H1. destruct H1 as [H1|[H1|H1]]; auto.
    - apply in_or_app. simpl. destruct H2 as [H2|[H2|H2]]; auto.
  Qed.
  Lemma inA_end t : In t ends -> inA t = true.
  Proof using HN HE HX Hy Hev. intros H. apply anc_ok; [apply ends_V|]. exists t. split; auto. constructor. Qed.
  Lemma inA_par i p : In i V -> inA i = true -> In p (par N i) -> inA p = true.
  Proof using HN HE HX Hy Hev.
    intros _ H Hp. unfold inA in *. apply anc_ok in H; [|apply ends_V]. destruct H as (t & Ht & Hpt). apply anc_ok; [apply ends_V|]. exists t. split; auto. apply path_step with i; auto. apply par_arc; auto.
  Qed.

  (** neighbours in the moral graph of [inA], evidence removed *)
  Definition madj (u : Z) : list Z :=
    filter (fun w => negb (mem w ev) && existsb (fun i => inA i && (mem u (par N i ++ [i]) && mem w (par N i ++ [i]))) V) V.
  Lemma madj_In u w : In w (madj u) <-> In w V /\ ~ In w ev /\ exists i, In i V /\ inA i = true /\ In u (par N i ++ [i]) /\ In w (par N i ++ [i]).
  Proof.
    unfold madj. rewrite filter_In, andb_true_iff, negb_true_iff, existsb_exists. split.
    - intros (H1 & H2 & i & Hi & H3). rewrite !andb_true_iff, !mem_In in H3. destruct (mem_spec w ev); [discriminate|]. split; auto. split; auto. exists i. tauto.
    - intros (H1 & H2 & i & Hi & H3). split; auto. split; [destruct (mem_spec w ev); tauto|]. exists i. rewrite !andb_true_iff, !mem_In. tauto.
  Qed.
  Definition inS (z : Z) : bool := mem z (closure (List.length V) madj (fold_left sadd X [])).
  Lemma inS_ok z : inS z = true <-> exists x, In x X /\ path (fun u w => In w (madj u)) x z.
  Proof using HX. unfold inS. rewrite mem_In. apply (closure_set V madj); auto. intros u w _ H. apply madj_In in H. tauto. Qed.
  Lemma inS_X x : In x X -> inS x = true.
  Proof using HX. intros H. apply inS_ok. exists x. split; auto. constructor. Qed.
  Lemma inS_ev z : inS z = true -> ~ In z ev.
  Proof using HX HXe. intros H. apply inS_ok in H. destruct H as (x & Hx & Hp). apply path_last in Hp. destruct Hp as [->|(u & _ & Hu)]; auto. apply madj_In in Hu. tauto. Qed.
  Lemma inS_sep i m : In i V -> inA i = true -> In m (par N i ++ [i]) -> inS m = true -> forall m', In m' (par N i ++ [i]) -> inS m' = true \/ In m' ev.
  Proof using HN HX.
    intros Hi HAi Hm Hs m' Hm'. destruct (in_dec Z.eq_dec m' ev) as [He|He]; auto. left. apply inS_ok in Hs. destruct Hs as (x & Hx & Hp). apply inS_ok. exists x. split; auto.
    eapply path_trans; [exact Hp|]. apply path_one, madj_In. split; [|split; auto; exists i; auto].
    apply in_app_or in Hm'. destruct Hm' as [Hm'|[<-|[]]]; auto. apply (ns_ends _ HN m' i Hm').
  Qed.

  Lemma fam_A' i w : In i V -> inA i = true -> In w (par N i ++ [i]) -> inA w = true.
  Proof using HN HE HX Hy Hev. intros H1 H2 H3. apply in_app_or in H3. destruct H3 as [H3|[<-|[]]]; auto. eapply inA_par; eauto. Qed.
  (** a walk in the moral graph passes common children as colliders *)
  Lemma moral_walk u : path (fun u w => In w (madj u)) u y ->
    exists p, chain (sym ar) (u :: p) /\ loose es ev X y (u :: p) /\ hd_error (rev (u :: p)) = Some y.
  Proof using HN HE HX Hy Hev.
    intros Hp. remember y as y0 eqn:Ey in Hp. induction Hp as [u|u w z Huw Hp IH]; subst.
    - exists []. split; [simpl; auto|]. split; auto. intros a z b (l & r & E). destruct l as [|? [|? ?]]; discriminate.
    - destruct (IH eq_refl) as (p & W & Lo & La). destruct (Z.eq_dec u w) as [->|Hne]. { exists p. auto. }
      apply madj_In in Huw. destruct Huw as (Hw & Hwe & i & Hi & HAi & Fu & Fw).
      assert (Hl : lower es ev X y w) by (apply inA_lower; eapply fam_A'; eauto).
      assert (Hli : lower es ev X y i) by (apply inA_lower; auto).
      assert (Step : sym ar u w -> exists p0, chain (sym ar) (u :: p0) /\ loose es ev X y (u :: p0) /\ hd_error (rev (u :: p0)) = Some y).
      { intros Hs. exists (w :: p). split; [split; auto|]. split; [|rewrite hd_rev_cons; auto]. intros a z b Ht. apply triple_cons in Ht. destruct Ht as [[-> (r & Er)]|Ht].
        - injection Er as <- _. split; auto.
        - apply Lo; auto. }
      apply in_app_or in Fu. apply in_app_or in Fw. destruct Fu as [Fu|[<-|[]]], Fw as [Fw|[<-|[]]]; [|apply Step; left; apply par_arc; auto|apply Step; right; apply par_arc; auto|tauto].
      exists (i :: w :: p). split; [split; [left; apply par_arc; auto|split; [right; apply par_arc; auto|auto]]|]. split; [|rewrite !hd_rev_cons; auto].
      intros a z b Ht. apply triple_cons in Ht. destruct Ht as [[-> (r & Er)]|Ht].
      + injection Er as <- <- _. split; auto. intros Hc. exfalso. apply Hc. split; [apply par_arc; auto|apply par_arc; auto].
      + apply triple_cons in Ht. destruct Ht as [[-> (r & Er)]|Ht]; [|apply Lo; auto]. injection Er as <- _. split; auto.
  Qed.
  Lemma y_not_S : (forall x, In x X -> separated es ev x y) -> inS y = false.
  Proof using HN HA HE HX Hy Hev.
    intros Hsep. destruct (inS y) eqn:E; auto. exfalso. apply inS_ok in E. destruct E as (x & Hx & Hp). destruct (moral_walk x Hp) as (p & W & Lo & La).
    assert (Dec : forall z, (exists v, path ar z v /\ In v ev) \/ ~ (exists v, path ar z v /\ In v ev)).
    { intros z. destruct (anc ev z) eqn:Ez.
      - left. apply (anc_ok ev z Hev) in Ez. destruct Ez as (t & T1 & T2). eauto.
      - right. intros (v & V1 & V2). assert (anc ev z = true); [|congruence]. apply (anc_ok ev z Hev). exists v. auto. }
    destruct (tighten_walk es es_acyclic ev X y Dec (x :: p) x Hx W Lo eq_refl La) as (x' & q & Q1 & Q2 & Q3). apply (Hsep x' Q1 q Q2 Q3).
  Qed.

  Theorem dsep L L' : (forall x, In x X -> separated es ev x y) ->
    (forall z, In z ev -> pinned N L z) -> (forall i, In i V -> ~ In i ev -> ~ In i X -> i <> y -> free N L i) ->
    (forall i v, In i V -> ~ In i X -> In v (dom N i) -> L i v = L' i v) ->
    possible N L -> possible N L' -> forall v, exact_posterior N L y v = exact_posterior N L' y v.
  Proof using All.
    intros Hsep Hpin Hfree Hoff P P'. destruct (list_choice (fun z x => In x (dom N z) /\ forall v, In v (dom N z) -> v <> x -> L z v = 0%Qc) ev Hpin) as [e He].
    assert (NA : forall i, inA i = false -> ~ In i ev /\ ~ In i X /\ i <> y).
    { intros i Hi. assert (Hn : ~ In i ends). { intros H. apply inA_end in H. congruence. } unfold ends in Hn. rewrite in_app_iff in Hn. simpl in Hn.
      split; [tauto|]. split; [tauto|]. intros ->. tauto. }
    assert (NS : forall i, inS i = false -> ~ In i X). { intros i Hi Hx. apply inS_X in Hx. congruence. }
    apply (separated_posterior N HN HA HS inA inS ev e y); auto.
    - apply inA_par.
    - exact inS_sep.
    - apply inS_ev.
    - apply inA_end. unfold ends. apply in_or_app. simpl. auto.
    - apply y_not_S; auto.
    - intros z _ Hz. apply He; auto.
    - intros i v Hi Hn Hv. destruct (NA i Hn) as (N1 & N2 & N3). apply (Hfree i); auto.
    - intros i v Hi Hn Hv. destruct (NA i Hn) as (N1 & N2 & N3). rewrite <- Hoff; auto. apply (Hfree i); auto.
    - intros z v Hz Hze Hv Hne. apply (He z Hze); auto.
  Qed.
End Dsep.
