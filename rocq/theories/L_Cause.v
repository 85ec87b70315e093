(** Average causal effects: where nothing can happen, and what adds up. *)
From Verif Require Import Py M_Graph M_Node M_Pptc M_Ace Spec SpecNet SpecEv SpecPot SpecAce SpecSep SpecRow SpecCause L_Base L_PD L_Sums L_Table L_Exact L_Apply L_Net L_P1 L_P4 L_Cut L_Claims L_Door L_Door2 L_P9.
Local Open Scope Qc_scope.

Lemma sums_product dm (f : Z -> string -> Qc) vs : NoDup vs -> forall a, sums dm vs (fun b => qprod (map (fun p => f p (b p)) vs)) a = qprod (map (fun p => qsum (map (f p) (dm p))) vs).
Proof.
  induction 1 as [|v vs Hv HN IH]; intros a; [reflexivity|]. cbn [sums map]. rewrite qprod_cons, <- (IH a), Qcmult_comm, <- qsum_map_mult. apply qsum_map_ext. intros z Hz.
  rewrite Qcmult_comm. transitivity (sums dm vs (fun b => f v z * qprod (map (fun p => f p (b p)) vs)) (upd a v z)).
  - apply sums_ext_gen. intros b Hb _. rewrite qprod_cons, (Hb v), upd_eq by auto. reflexivity.
  - rewrite sums_mult_const, !IH. ring.
Qed.

Section Cause.
  Context (N : net) (HN : nshape N) (HA : acyclic (is_parent N)) (HS : stochastic N).
  Context (x : Z) (Hx : In x (vars N)) (xv : string) (Hxv : In xv (dom N x)).
  Lemma do_unaffected y yv : In y (vars N) -> y <> x -> ~ effect_of N x y -> do_prob N x xv y yv = exact_posterior N no_evidence y yv.
  Proof using HN HA HS Hx Hxv.
    intros Hy Hne Hd.
    assert (Hp : ~ path (is_parent N) x y). { intros P. inversion P as [|u c w P1 P2]; subst; [congruence|]. apply Hd. exists c. auto. }
    assert (E1 : do_prob N x xv y yv = mass_of (Ns N x xv) (seeing [] no_asg) y yv).
    { rewrite (mass_door N HN HS x Hx xv Hxv [] y) by (auto; intros ? []). rewrite (do_door N HN x xv [] y) by (try constructor; intros ? []). reflexivity. }
    pose (a := fun _ : Z => yv).
    assert (E2 : mass_of (Ns N x xv) (seeing [] no_asg) y yv = total (Ns N x xv) (seeing [y] a)).
    { rewrite seeing_marginal; [|apply Ns_shape; auto|intros ? [<-|[]]; auto]. rewrite marginal_one. reflexivity. }
    rewrite E1, E2, (total_door N HN HA HS x xv Hxv [y]).
    - rewrite seeing_marginal by (auto; intros ? [<-|[]]; auto). rewrite marginal_one. unfold a. unfold exact_posterior. rewrite (total_prior N HN HA HS). destruct (Qc_eq_dec 1 0) as [E|E]; [destruct (one_ne E)|]. field; auto.
    - intros ? [<-|[]]; auto.
    - intros [E|[]]; auto.
    - intros z [<-|[]]; auto.
  Qed.
  Lemma priors_product : sums (dom N) (par N x) (fun a => qprod (map (fun p => exact_posterior N no_evidence p (a p)) (par N x))) no_asg = 1.
  Proof using HN HA HS.
    assert (ND : NoDup (par N x)) by (pose proof (ns_par _ HN x) as H; apply NoDup_app_iff in H; tauto).
    rewrite sums_product by auto. rewrite (qprod_map_ext _ (fun _ => 1)).
    - induction (par N x) as [|p l IH]; [reflexivity|]. cbn [map]. rewrite qprod_cons, IH; [ring|]. inversion ND; auto.
    - intros p Hp. apply posterior_sum; auto; [apply (ns_ends _ HN p x Hp)|]. unfold possible. rewrite (total_prior N HN HA HS). apply one_ne.
  Qed.
  Definition given (a : asg) : likelihood := seeing (x :: par N x) (upd a x xv).
  Lemma given_possible a : combinable N x xv -> okon (dom N) (par N x) a -> qprod (map (fun p => exact_posterior N no_evidence p (a p)) (par N x)) <> 0 -> possible N (given a).
  Proof using HN Hx.
    intros HC Ha Hq. unfold possible, given. rewrite seeing_marginal; auto.
    - apply HC; auto. intros p Hp E. apply Hq. revert Hp. induction (par N x) as [|u l IH]; intros Hp; [destruct Hp|]. cbn [map]. rewrite qprod_cons. destruct Hp as [ ->|Hp].
      + unfold exact_posterior at 1. rewrite E. destruct (Qc_eq_dec (total N no_evidence) 0); [ring|]. unfold Qcdiv. ring.
      + rewrite IH; auto. { ring. } { intros v Hv. apply Ha. right; auto. } { intros Z0. apply Hq. cbn [map]. rewrite qprod_cons, Z0. ring. }
    - intros p [<-|Hp]; auto. apply (ns_ends _ HN p x Hp).
  Qed.
  Definition prior (p : Z) (v : string) : Qc := exact_posterior N no_evidence p v.
  Lemma adjusted_sum y : In y (vars N) -> combinable N x xv -> qsum (map (adjusted N x xv y) (dom N y)) = 1.
  Proof using HN HA HS Hx.
    intros Hy HC. unfold adjusted. rewrite (qsum_sums (dom N) (par N x) (fun yv a => exact_posterior N (seeing (x :: par N x) (upd a x xv)) y yv * qprod (map (fun p => exact_posterior N no_evidence p (a p)) (par N x))) (dom N y)).
    etransitivity; [|apply priors_product]. apply sums_ext_gen. intros a _ Ha. set (Q := qprod _).
    rewrite (qsum_map_ext _ (fun yv => Q * exact_posterior N (given a) y yv)) by (intros v _; unfold given; ring). rewrite qsum_map_mult.
    destruct (Qc_eq_dec Q 0) as [E|E]; [rewrite E; ring|]. rewrite posterior_sum; auto; [ring|]. apply given_possible; auto.
  Qed.
  Lemma adjusted_nonneg y yv : 0 <= adjusted N x xv y yv.
  Proof using HN.
    unfold adjusted. apply sums_nonneg. intros a _ Ha. apply Qcle_0_mult.
    - apply posterior_nonneg; auto. intros i v _ _. apply seeing_nonneg.
    - apply qprod_nonneg. intros q Hq. apply in_map_iff in Hq. destruct Hq as (p & <- & _). apply posterior_nonneg; auto. intros i v _ _. unfold no_evidence. discriminate.
  Qed.
  (** a variable among those seen *)
  Lemma given_point a i yv : okon (dom N) (par N x) a -> possible N (given a) -> In i (x :: par N x) -> In yv (dom N i) ->
    exact_posterior N (given a) i yv = if string_dec (upd a x xv i) yv then 1 else 0.
  Proof using HN Hx Hxv.
    intros Ha HP Hi Hy. assert (HV : In i (vars N)). { destruct Hi as [<-|Hp]; auto. apply (ns_ends _ HN i x Hp). }
    assert (Hd : In (upd a x xv i) (dom N i)). { unfold upd. destruct (Z.eqb_spec i x) as [->|Hn]; auto. destruct Hi as [->|Hp]; [congruence|]. apply Ha; auto. }
    destruct (posterior_point N (given a) HN i (upd a x xv i) HV Hd HP) as [P1 P2].
    - intros w _ Hn. unfold given, seeing. rewrite (proj2 (mem_In i (x :: par N x)) Hi). destruct (String.eqb_spec w (upd a x xv i)); [congruence|auto].
    - destruct (string_dec (upd a x xv i) yv) as [E|E]; [rewrite <- E; auto|]. apply P2; auto.
  Qed.
  Lemma adjusted_self yv : combinable N x xv -> In yv (dom N x) -> adjusted N x xv x yv = if string_dec xv yv then 1 else 0.
  Proof using HN HA HS Hx Hxv.
    intros HC Hy. unfold adjusted. transitivity ((if string_dec xv yv then 1 else 0) * sums (dom N) (par N x) (fun a => qprod (map (fun p => exact_posterior N no_evidence p (a p)) (par N x))) no_asg); [|rewrite priors_product; ring]. rewrite <- sums_mult_const. apply sums_ext_gen. intros a _ Ha. set (Q := qprod _).
    destruct (Qc_eq_dec Q 0) as [E|E]; [rewrite E; ring|]. fold (given a). rewrite given_point; auto; [|apply given_possible; auto|left; auto]. rewrite upd_eq. reflexivity.
  Qed.
  Lemma adjusted_parent y yv : combinable N x xv -> In y (par N x) -> In yv (dom N y) -> adjusted N x xv y yv = exact_posterior N no_evidence y yv.
  Proof using HN HA HS Hx Hxv.
    intros HC Hp Hy. assert (ND : NoDup (par N x)) by (pose proof (ns_par _ HN x) as H; apply NoDup_app_iff in H; tauto).
    assert (Hne : y <> x) by (intros ->; apply (x_notin N HN x Hp)).
    pose (f := fun p v => if Z.eqb p y then (if string_dec v yv then prior p v else 0) else prior p v).
    unfold adjusted. transitivity (sums (dom N) (par N x) (fun a => qprod (map (fun p => f p (a p)) (par N x))) no_asg).
    - apply sums_ext_gen. intros a _ Ha. fold (given a).
      assert (K : (if string_dec (a y) yv then 1 else 0) * qprod (map (fun p => exact_posterior N no_evidence p (a p)) (par N x)) = qprod (map (fun p => f p (a p)) (par N x))).
      { clear - ND Hp. induction (par N x) as [|p l IH]; [destruct Hp|]. inversion ND as [|? ? N1 N2]; subst. cbn [map]. rewrite !qprod_cons. destruct Hp as [ ->|Hp].
        - rewrite (qprod_map_ext (fun p => f p (a p)) (fun p => exact_posterior N no_evidence p (a p)) l).
          + unfold f at 1, prior. rewrite Z.eqb_refl. destruct (string_dec (a y) yv); ring.
          + intros p Hp. unfold f. destruct (Z.eqb_spec p y) as [->|]; [contradiction|reflexivity].
        - rewrite <- IH by auto. unfold f, prior. destruct (Z.eqb_spec p y) as [ ->|]; [contradiction|]. ring. }
      rewrite <- K. set (Q := qprod _) in *. destruct (Qc_eq_dec Q 0) as [E|E]; [rewrite E; ring|]. rewrite given_point; auto; [|apply given_possible; auto|right; auto]. rewrite upd_neq by auto. reflexivity.
    - rewrite sums_product by auto.
      assert (G : forall p, In p (par N x) -> qsum (map (f p) (dom N p)) = if Z.eqb p y then prior y yv else 1).
      { intros p Hp'. assert (Vp : In p (vars N)) by apply (ns_ends _ HN p x Hp'). unfold f. destruct (Z.eqb_spec p y) as [ ->|Hn].
        - apply (qsum_select string_dec (fun v => prior y v) yv (dom N y)); auto. apply (ns_dom _ HN y Vp).
        - apply posterior_sum; auto. unfold possible. rewrite (total_prior N HN HA HS). apply one_ne. }
      rewrite (qprod_map_ext _ (fun p => if Z.eqb p y then prior y yv else 1)) by exact G. clear - ND Hp. fold (prior y yv).
      induction (par N x) as [|p l IH]; [destruct Hp|]. inversion ND as [|? ? N1 N2]; subst. cbn [map]. rewrite qprod_cons. destruct (Z.eqb_spec p y) as [ ->|Hn].
      + assert (Z1 : qprod (map (fun p => if Z.eqb p y then prior y yv else 1) l) = 1); [|rewrite Z1; ring]. apply qprod_map_one. intros p Hp'. destruct (Z.eqb_spec p y) as [ ->|]; [contradiction|reflexivity].
      + destruct Hp as [->|Hp]; [congruence|]. rewrite IH by auto. ring.
  Qed.
  Lemma adjusted_root y yv : par N x = [] -> adjusted N x xv y yv = exact_posterior N (seeing [x] (fun _ => xv)) y yv.
  Proof.
    intros E. unfold adjusted. rewrite E. cbn [sums map]. change (qprod []) with 1. rewrite Qcmult_1_r. apply exact_posterior_agree. intros k w. unfold seeing, mem. cbn [existsb].
    unfold upd. destruct (Z.eqb_spec k x) as [ ->|Hn]; [reflexivity|]. change (eqb k x) with (Z.eqb k x). apply Z.eqb_neq in Hn. rewrite Hn. reflexivity.
  Qed.
  Lemma independent_combinable : independent N (par N x) -> overlapping N x -> combinable N x xv.
  Proof using HN HA HS Hx Hxv.
    intros HI HO a Ha Hm E. assert (M : marginal N no_evidence (par N x) a <> 0).
    { rewrite (HI a Ha). intros Z0. clear - Hm Z0. induction (par N x) as [|p l IH]; [apply one_ne; exact Z0|]. cbn [map] in Z0. rewrite qprod_cons in Z0. apply Qcmult_integral in Z0. destruct Z0 as [Z0|Z0].
      - apply (Hm p); auto. left; auto. - apply IH; auto. intros q Hq. apply Hm. right; auto. }
    assert (I : incl (x :: par N x) (vars N)). { intros p [<-|Hp]; auto. apply (ns_ends _ HN p x Hp). }
    rewrite <- seeing_marginal in E by auto. unfold total in E.
    rewrite (sums_ext _ _ _ (fun b => cpt_entry N x (upd a x xv) * (if string_dec (b x) xv then (if same_on (par N x) b a then cut_weight N x b else 0) else 0))) in E by (intros b; apply (seeing_weight N HN x Hx)).
    rewrite sums_mult_const, (cut_total N HN HA HS x Hx xv a Hxv) in E. apply Qcmult_integral in E. destruct E as [E|E]; [|contradiction]. revert E. apply HO.
    - intros v Hv. unfold upd. destruct (Z.eqb_spec v x) as [->|Hn]; auto. apply in_app_or in Hv. destruct Hv as [Hv|[<-|[]]]; [auto|congruence].
    - intros Z0. apply M. rewrite <- Z0. unfold marginal. apply sums_ext. intros b.
      assert (Es : same_on (par N x) b a = same_on (par N x) b (upd a x xv)); [|rewrite Es; reflexivity].
      unfold same_on. pose proof (x_notin N HN x) as Nx. clear - Nx. induction (par N x) as [|v l IH]; auto. cbn [forallb].
      rewrite upd_neq by (intros ->; apply Nx; left; auto). rewrite IH; auto. intros H; apply Nx; right; auto.
  Qed.
End Cause.
