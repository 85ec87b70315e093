(** Finite sums over assignments. *)
From Verif Require Import Py Spec L_Base.
Open Scope Qc_scope.

Lemma upd_eq a v x : upd a v x v = x.
Proof. unfold upd. rewrite Z.eqb_refl; auto. Qed.
Lemma upd_neq a v x u : u <> v -> upd a v x u = a u.
Proof. unfold upd. intros H. apply Z.eqb_neq in H. rewrite H; auto. Qed.
Lemma upd_same a v u : upd a v (a v) u = a u.
Proof. unfold upd. destruct (Z.eqb_spec u v); subst; auto. Qed.

Lemma dep_mono S T f : incl S T -> dep S f -> dep T f.
Proof. intros Hi Hd a b E. apply Hd; auto. Qed.
Lemma dep_ext S f g : (forall a, f a = g a) -> dep S f -> dep S g.
Proof. intros E Hd a b Hab. rewrite <- !E. auto. Qed.
Lemma dep_const S c : dep S (fun _ => c).
Proof. intros a b _; auto. Qed.
Lemma dep_mult S f g : dep S f -> dep S g -> dep S (fun a => f a * g a).
Proof. intros Hf Hg a b E. rewrite (Hf a b), (Hg a b); auto. Qed.
Lemma dep_qprod {A} S (F : A -> asg -> Qc) l : (forall x, In x l -> dep S (F x)) -> dep S (fun a => qprod (map (fun x => F x a) l)).
Proof. intros H a b E. apply qprod_map_ext. intros x Hx. apply H; auto. Qed.

Definition proper (f : asg -> Qc) : Prop := forall a b, (forall v, a v = b v) -> f a = f b.
Lemma dep_proper S f : dep S f -> proper f.
Proof. intros Hd a b E; apply Hd; auto. Qed.
Lemma proper_mult f g : proper f -> proper g -> proper (fun a => f a * g a).
Proof. intros Hf Hg a b E. rewrite (Hf a b), (Hg a b); auto. Qed.

Section Sums.
  Context (dom : Z -> list string).
  Notation sums := (sums dom).
  Notation okon := (okon dom).

  Lemma okon_mono S T a : incl S T -> okon T a -> okon S a.
  Proof. intros Hi Ho v Hv; auto. Qed.
  Lemma okon_upd S a v x : okon S a -> In x (dom v) -> okon S (upd a v x).
  Proof. intros Ho Hx u Hu. unfold upd. destruct (Z.eqb_spec u v); subst; auto. Qed.
  Lemma okon_app S T a : okon (S ++ T) a <-> okon S a /\ okon T a.
  Proof. unfold Spec.okon. split. intros H; split; intros v Hv; apply H, in_or_app; auto.
    intros [H1 H2] v Hv. apply in_app_or in Hv; destruct Hv; auto. Qed.

  (** extensionality, only on assignments that differ from [a] in [vs], with values in the domains *)
  Lemma sums_ext_gen vs : forall f g a,
    (forall b, (forall u, ~ In u vs -> b u = a u) -> okon vs b -> f b = g b) -> sums vs f a = sums vs g a.
  Proof.
    induction vs as [|v vs IH]; simpl; intros f g a H.
    - apply H; auto. intros v [].
    - apply qsum_map_ext. intros x Hx. apply IH. intros b Hb Ho.
      destruct (in_dec Z.eq_dec v vs) as [Hv|Hv].
      + apply H.
        * intros u Hu. rewrite Hb by tauto. apply upd_neq. intros ->; tauto.
        * intros u [<-|Hu]; auto.
      + apply H.
        * intros u Hu. rewrite Hb by tauto. apply upd_neq. intros ->; tauto.
        * intros u [<-|Hu]; auto. rewrite Hb by auto. rewrite upd_eq; auto.
  Qed.
  Lemma sums_ext vs f g a : (forall b, f b = g b) -> sums vs f a = sums vs g a.
  Proof. intros H; apply sums_ext_gen; auto. Qed.
  Lemma sums_ext_ok S vs f g a : okon S a -> (forall b, okon (vs ++ S) b -> f b = g b) -> sums vs f a = sums vs g a.
  Proof.
    intros Ho H. apply sums_ext_gen. intros b Hb Hv. apply H. intros u Hu. apply in_app_or in Hu.
    destruct (in_dec Z.eq_dec u vs) as [Hi|Hi]; auto. destruct Hu; auto. rewrite Hb; auto.
  Qed.

  Lemma sums_proper vs f : proper f -> proper (sums vs f).
  Proof.
    intros Hf. induction vs as [|v vs IH]; simpl; auto. intros a b E.
    apply qsum_map_ext. intros x _. apply IH. intros u. unfold upd. destruct (Z.eqb u v); auto.
  Qed.

  Lemma sums_app vs ws f a : sums (vs ++ ws) f a = sums vs (sums ws f) a.
  Proof. revert a; induction vs as [|v vs IH]; intros a; simpl; auto. apply qsum_map_ext; auto. Qed.

  Lemma sums_dep S vs f : dep S f -> dep (filter (fun v => negb (mem v vs)) S) (sums vs f).
  Proof.
    revert S; induction vs as [|v vs IH]; intros S Hd; simpl.
    - eapply dep_mono; [|eauto]. intros x Hx. apply filter_In; auto.
    - intros a b E. apply qsum_map_ext. intros x _. apply (IH S Hd). intros u Hu.
      apply filter_In in Hu. destruct Hu as [Hu Hn]. unfold upd. destruct (Z.eqb_spec u v); auto.
      apply E. apply filter_In. split; auto. apply negb_true_iff, mem_false in Hn. apply negb_true_iff, orb_false_iff.
      split; [apply Z.eqb_neq|apply mem_false]; auto.
  Qed.
  Lemma sums_dep' S T vs f : dep S f -> (forall x, In x S -> In x T \/ In x vs) -> dep T (sums vs f).
  Proof.
    intros Hd H. eapply dep_mono; [|apply sums_dep; eauto]. intros x Hx. apply filter_In in Hx.
    destruct Hx as [Hx Hn]. apply negb_true_iff, mem_false in Hn. destruct (H x Hx); tauto.
  Qed.

  Lemma qsum_swap {A B} (F : A -> B -> Qc) la lb :
    qsum (map (fun x => qsum (map (fun y => F x y) lb)) la) = qsum (map (fun y => qsum (map (fun x => F x y) la)) lb).
  Proof.
    induction la as [|x la IH]; simpl.
    - rewrite qsum_nil. symmetry. apply qsum_map_zero. intros; apply qsum_nil.
    - rewrite qsum_cons, IH, <- qsum_map_plus. apply qsum_map_ext. intros y _. rewrite qsum_cons. auto.
  Qed.

  Lemma sums_perm vs ws f a : proper f -> Permutation vs ws -> sums vs f a = sums ws f a.
  Proof.
    intros Hf P. revert a. induction P as [|v vs ws P IH|v w vs|vs ws us P1 IH1 P2 IH2]; intros a; simpl; auto.
    - apply qsum_map_ext; auto.
    - destruct (Z.eq_dec v w) as [->|Hn]; auto. rewrite qsum_swap. apply qsum_map_ext. intros x _.
      apply qsum_map_ext. intros y _. apply sums_proper; auto. intros u. unfold upd.
      destruct (Z.eqb_spec u v), (Z.eqb_spec u w); subst; congruence || auto.
    - rewrite IH1; auto.
  Qed.

  (** a factor that does not depend on the summed variables can be pulled out *)
  Lemma sums_factor S vs f g a : dep S f -> (forall v, In v vs -> ~ In v S) ->
    sums vs (fun b => f b * g b) a = f a * sums vs g a.
  Proof.
    intros Hd. revert a; induction vs as [|v vs IH]; intros a Hn; simpl; auto.
    rewrite <- qsum_map_mult. apply qsum_map_ext. intros x _. rewrite IH.
    - f_equal. apply Hd. intros u Hu. apply upd_neq. intros ->. apply (Hn v); simpl; auto.
    - intros u Hu. apply Hn; simpl; auto.
  Qed.
  Lemma sums_factor_r S vs f g a : dep S f -> (forall v, In v vs -> ~ In v S) ->
    sums vs (fun b => g b * f b) a = sums vs g a * f a.
  Proof.
    intros. rewrite Qcmult_comm. erewrite <- sums_factor by eauto. apply sums_ext. intros; apply Qcmult_comm.
  Qed.

  (** product of two sums over disjoint variables *)
  Lemma sums_prod S T vs ws f g a : dep S f -> dep T g ->
    (forall v, In v vs -> ~ In v T) -> (forall v, In v ws -> ~ In v S) ->
    sums vs f a * sums ws g a = sums (vs ++ ws) (fun b => f b * g b) a.
  Proof.
    intros Hf Hg Hv Hw. rewrite sums_app.
    rewrite <- (sums_factor_r (filter (fun v => negb (mem v ws)) T)).
    - apply sums_ext. intros b. symmetry. apply sums_factor with S; auto.
    - apply sums_dep; auto.
    - intros v Hi Hf'. apply filter_In in Hf'. apply (Hv v); tauto.
  Qed.

  Lemma sums_const vs c a : sums vs (fun _ => 0 * c) a = 0.
  Proof. revert a; induction vs as [|v vs IH]; intros a; simpl. ring. apply qsum_map_zero. auto. Qed.
  Lemma sums_zero vs f a : (forall b, (forall u, ~ In u vs -> b u = a u) -> okon vs b -> f b = 0) -> sums vs f a = 0.
  Proof.
    intros H. rewrite <- (sums_const vs 0 a). apply sums_ext_gen. intros b Hb Ho. rewrite H; auto.
  Qed.

  Lemma sums_mult_const vs c f a : sums vs (fun b => c * f b) a = c * sums vs f a.
  Proof. apply sums_factor with []. apply dep_const. auto. Qed.

  Lemma sums_nonneg vs f a : (forall b, (forall u, ~ In u vs -> b u = a u) -> okon vs b -> 0 <= f b) -> 0 <= sums vs f a.
  Proof.
    revert f a; induction vs as [|v vs IH]; simpl; intros f a H.
    - apply H; auto. intros v [].
    - apply qsum_nonneg. intros y Hy. apply in_map_iff in Hy. destruct Hy as [x [<- Hx]].
      apply IH. intros b Hb Ho. apply H.
      + intros u Hu. rewrite Hb by tauto. apply upd_neq; intros ->; tauto.
      + intros u [<-|Hu]; auto. destruct (in_dec Z.eq_dec v vs); auto. rewrite Hb, upd_eq; auto.
  Qed.

  Lemma sums_nonneg_ok S vs f a : okon S a -> (forall b, okon (vs ++ S) b -> 0 <= f b) -> 0 <= sums vs f a.
  Proof.
    intros Ho H. apply sums_nonneg. intros b Hb Hv. apply H. intros u Hu. apply in_app_or in Hu.
    destruct (in_dec Z.eq_dec u vs) as [Hi|Hi]; auto. destruct Hu; auto. rewrite Hb; auto.
  Qed.

  (** a vanishing sum of non-negative terms has only zero terms *)
  Lemma sums_zero_terms vs f : proper f -> forall a,
    (forall b, (forall u, ~ In u vs -> b u = a u) -> okon vs b -> 0 <= f b) -> sums vs f a = 0 ->
    forall b, (forall u, ~ In u vs -> b u = a u) -> okon vs b -> f b = 0.
  Proof.
    intros Hp. induction vs as [|v vs IH]; simpl; intros a Hn Hz b Hb Ho.
    - rewrite <- Hz. apply Hp. intros u; apply Hb; auto.
    - assert (Hpos : forall x, In x (dom v) -> forall c, (forall u, ~ In u vs -> c u = upd a v x u) -> okon vs c -> 0 <= f c).
      { intros x Hx c Hc Hoc. apply Hn.
        - intros u Hu. rewrite Hc by tauto. apply upd_neq; intros ->; tauto.
        - intros u [<-|Hu]; auto. destruct (in_dec Z.eq_dec v vs); auto. rewrite Hc, upd_eq; auto. }
      set (x := if in_dec Z.eq_dec v vs then hd (b v) (dom v) else b v).
      assert (Hx : In x (dom v)).
      { unfold x. assert (Hbv : In (b v) (dom v)) by (apply Ho; left; auto).
        destruct (in_dec Z.eq_dec v vs); auto. destruct (dom v); simpl in *; auto. }
      apply (IH (upd a v x)).
      + apply Hpos; auto.
      + apply (qsum_zero_nonneg _ ) with (x := sums vs f (upd a v x)) in Hz; auto.
        * intros y Hy. apply in_map_iff in Hy. destruct Hy as [x' [<- Hx']].
          apply sums_nonneg. apply Hpos; auto.
        * apply in_map_iff. exists x; auto.
      + intros u Hu. unfold x, upd. destruct (Z.eqb_spec u v) as [->|Hne].
        * destruct (in_dec Z.eq_dec v vs); tauto.
        * apply Hb. intros [->|]; tauto.
      + intros u Hu. apply Ho; right; auto.
  Qed.

  (** an indicator selects one term *)
  Lemma qsum_select {A} (eq_dec : forall x y : A, {x = y} + {x <> y}) (F : A -> Qc) y l :
    NoDup l -> In y l -> qsum (map (fun x => if eq_dec x y then F x else 0) l) = F y.
  Proof.
    induction l as [|x l IH]; simpl; [tauto|]. intros HN Hi. inv HN. rewrite qsum_cons.
    destruct Hi as [->|Hi].
    - destruct (eq_dec y y); [|congruence].
      rewrite qsum_map_zero. ring. intros z Hz. destruct (eq_dec z y); subst; tauto.
    - destruct (eq_dec x y); subst; [tauto|]. rewrite IH; auto. ring.
  Qed.

  Lemma sums_select v f x a : NoDup (dom v) -> In x (dom v) ->
    sums [v] (fun b => if string_dec (b v) x then f b else 0) a = f (upd a v x).
  Proof.
    intros HN Hx. simpl. rewrite <- (qsum_select string_dec (fun y => f (upd a v y)) x (dom v)); auto.
    apply qsum_map_ext. intros y _. rewrite upd_eq. auto.
  Qed.

  (** sum over [vs] of f restricted to the assignments that agree with [c] on [vs] *)
  Fixpoint updl (a : asg) (vs : list Z) (c : asg) : asg :=
    match vs with [] => a | v :: t => updl (upd a v (c v)) t c end.
  Lemma updl_in a vs c u : In u vs -> updl a vs c u = c u.
  Proof.
    revert a; induction vs as [|v vs IH]; intros a; simpl; [tauto|]. intros [->|Hi]; auto.
    destruct (in_dec Z.eq_dec u vs); auto.
    clear IH. assert (G : forall a, updl a vs c u = a u).
    { induction vs as [|w vs IH]; intros a'; simpl; auto. rewrite IH by (simpl in *; tauto).
      apply upd_neq. intros ->; simpl in *; tauto. }
    rewrite G. apply upd_eq.
  Qed.
  Lemma updl_notin a vs c u : ~ In u vs -> updl a vs c u = a u.
  Proof.
    revert a; induction vs as [|v vs IH]; intros a; simpl; auto. intros Hn. rewrite IH by tauto.
    apply upd_neq. intros ->; tauto.
  Qed.

  Definition agrees (vs : list Z) (a c : asg) : bool := forallb (fun v => String.eqb (a v) (c v)) vs.
  Lemma agrees_spec vs a c : agrees vs a c = true <-> forall v, In v vs -> a v = c v.
  Proof. unfold agrees. rewrite forallb_forall. split; intros H v Hv; specialize (H v Hv); apply String.eqb_eq; auto. Qed.

  Lemma sums_agree vs f c a : NoDup vs -> (forall v, In v vs -> NoDup (dom v)) -> okon vs c -> proper f ->
    sums vs (fun b => if agrees vs b c then f b else 0) a = f (updl a vs c).
  Proof.
    intros HN Hd Ho Hp. revert a. induction vs as [|v vs IH]; intros a; simpl; auto. inv HN.
    rewrite <- (IH H2) by (intros; try apply Hd; try apply Ho; simpl; auto; intros u Hu; apply Ho; simpl; auto).
    rewrite <- (qsum_select string_dec (fun x => sums vs (fun b => if agrees vs b c then f b else 0) (upd a v x)) (c v) (dom v)).
    - apply qsum_map_ext. intros x Hx. destruct (string_dec x (c v)) as [->|Hne].
      + apply sums_ext_gen. intros b Hb Hob. rewrite Hb, upd_eq by auto. rewrite String.eqb_refl. auto.
      + apply sums_zero. intros b Hb Hob. rewrite Hb, upd_eq by auto. apply String.eqb_neq in Hne. rewrite Hne; auto.
    - apply Hd; simpl; auto.
    - apply Ho; simpl; auto.
  Qed.
End Sums.
Close Scope Qc_scope.
