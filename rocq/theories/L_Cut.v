(** Summing out the variables that are not ancestors; the truncated factorisation. *)
From Verif Require Import Py M_Node Spec SpecNet SpecEv SpecPot SpecAce L_Base L_PD L_Sums L_Table L_Dag L_Apply L_P4.
Local Open Scope Qc_scope.

Lemma qsum_sums {A} dm ws (G : A -> asg -> Qc) l : forall c, qsum (map (fun x => sums dm ws (G x) c) l) = sums dm ws (fun b => qsum (map (fun x => G x b) l)) c.
Proof.
  induction ws as [|w ws IH]; intros c; simpl; auto. rewrite qsum_swap. apply qsum_map_ext. intros y _. apply IH.
Qed.
Lemma sums_swap dm vs ws (F : asg -> asg -> Qc) : forall d c,
  sums dm vs (fun a => sums dm ws (fun b => F a b) c) d = sums dm ws (fun b => sums dm vs (fun a => F a b) d) c.
Proof.
  induction vs as [|v vs IH]; intros d c; simpl; auto.
  rewrite <- (qsum_sums dm ws (fun x b => sums dm vs (fun a => F a b) (upd d v x))). apply qsum_map_ext. intros x _. apply IH.
Qed.

Section SumOut.
  Context (dm : Z -> list string) (V : list Z) (P : Z -> list Z) (phi : Z -> asg -> Qc).
  Let R x y := In y V /\ In x (P y).
  Context (HA : acyclic R) (Hdep : forall v, In v V -> dep (P v ++ [v]) (phi v)).
  Context (Hone : forall v a, In v V -> okon dm (P v) a -> qsum (map (fun x => phi v (upd a v x)) (dm v)) = 1).
  Lemma R_dec x y : {R x y} + {~ R x y}.
  Proof. unfold R. destruct (in_dec Z.eq_dec y V); [|right; tauto]. destruct (in_dec Z.eq_dec x (P y)); [left|right]; tauto. Qed.

  Lemma sum_out n : forall L C F a, List.length L = n -> NoDup (C ++ L) -> incl (C ++ L) V -> (forall v, In v C -> incl (P v) C) ->
    (forall v, In v L -> incl (P v) (C ++ L)) -> dep C F ->
    sums dm (C ++ L) (fun b => F b * qprod (map (fun v => phi v b) (C ++ L))) a = sums dm C (fun b => F b * qprod (map (fun v => phi v b) C)) a.
  Proof using HA Hdep Hone.
    induction n as [|n IH]; intros L C F a HL HD HI HC HP HF.
    - destruct L; [|discriminate]. rewrite app_nil_r. auto.
    - destruct (sink R R_dec HA L) as [s [Hs Hsink]]. { intros ->. discriminate. }
      apply in_split in Hs. destruct Hs as [L1 [L2 ->]]. set (L' := L1 ++ L2).
      assert (HPm : Permutation (C ++ L1 ++ s :: L2) ((C ++ L') ++ [s])).
      { unfold L'. rewrite <- app_assoc. apply Permutation_app_head. rewrite <- app_assoc. apply Permutation_app_head. apply Permutation_cons_append. }
      assert (HD' : NoDup ((C ++ L') ++ [s])) by (eapply Permutation_NoDup; eauto).
      assert (HD'' : NoDup (C ++ L') /\ ~ In s (C ++ L')).
      { apply NoDup_app_iff in HD'. destruct HD' as [D1 [_ D3]]. split; auto. intros Hi. apply (D3 s Hi). left; auto. }
      destruct HD'' as [D1 D2].
      assert (Hin : forall v, In v (C ++ L') -> In v (C ++ L1 ++ s :: L2)). { intros v Hv. eapply Permutation_in; [symmetry; exact HPm|]. apply in_or_app; auto. }
      assert (Hsv : In s V). { apply HI. apply in_or_app; right; apply in_or_app; right; left; auto. }
      assert (HP' : forall v, In v (C ++ L') -> incl (P v) (C ++ L')).
      { intros v Hv p Hp. apply in_app_or in Hv. destruct Hv as [Hv|Hv]. { apply in_or_app; left. apply (HC v Hv p Hp). }
        assert (HvL : In v (L1 ++ s :: L2)). { unfold L' in Hv. apply in_app_or in Hv. apply in_or_app. destruct Hv; [left|right; right]; auto. }
        pose proof (HP v HvL p Hp) as Hpi. apply (Permutation_in _ HPm) in Hpi. apply in_app_or in Hpi. destruct Hpi as [Hpi|[<-|[]]]; auto.
        exfalso. apply (Hsink v HvL). split; auto. apply HI, in_or_app; auto. }
      assert (HPs : incl (P s) (C ++ L')).
      { intros p Hp. assert (HsL : In s (L1 ++ s :: L2)) by (apply in_or_app; right; left; auto). pose proof (HP s HsL p Hp) as Hpi.
        apply (Permutation_in _ HPm) in Hpi. apply in_app_or in Hpi. destruct Hpi as [Hpi|[<-|[]]]; auto. exfalso. apply (Hsink s HsL). split; auto. }
      rewrite (sums_perm dm _ ((C ++ L') ++ [s])); auto.
      2:{ apply proper_mult. { eapply dep_proper; eauto. } apply dep_proper with (S := C ++ L1 ++ s :: L2). apply (dep_qprod _ (fun v b => phi v b)). intros v Hv.
          apply dep_mono with (S := P v ++ [v]); [|apply Hdep; auto]. intros u Hu. apply in_app_or in Hu. destruct Hu as [Hu|[<-|[]]]; auto.
          apply in_app_or in Hv. destruct Hv as [Hv|Hv]; [apply in_or_app; left; apply (HC v Hv u Hu)|apply (HP v Hv u Hu)]. }
      rewrite sums_app. rewrite <- (IH L' C F a); auto.
      + apply sums_ext_gen. intros b Hb Hok.
        change (sums dm [s] (fun b0 => F b0 * qprod (map (fun v => phi v b0) (C ++ L1 ++ s :: L2))) b)
          with (qsum (map (fun x => F (upd b s x) * qprod (map (fun v => phi v (upd b s x)) (C ++ L1 ++ s :: L2))) (dm s))).
        transitivity (F b * qprod (map (fun v => phi v b) (C ++ L')) * qsum (map (fun x => phi s (upd b s x)) (dm s))).
        * rewrite <- qsum_map_mult. apply qsum_map_ext. intros x _.
          assert (E : qprod (map (fun v => phi v (upd b s x)) (C ++ L1 ++ s :: L2)) = qprod (map (fun v => phi v (upd b s x)) ((C ++ L') ++ [s]))).
          { apply qprod_perm. apply Permutation_map. auto. }
          rewrite E. rewrite (map_app _ (C ++ L')), qprod_app. simpl (map _ [s]). rewrite qprod_cons, qprod_nil, Qcmult_1_r.
          rewrite (HF (upd b s x) b). 2:{ intros v Hv. apply upd_neq. intros ->. apply D2, in_or_app; auto. }
          rewrite (qprod_map_ext (fun v => phi v (upd b s x)) (fun v => phi v b) (C ++ L')); [ring|].
          intros v Hv. apply Hdep; [apply HI; auto|]. intros u Hu. apply upd_neq. intros ->. apply in_app_or in Hu.
          destruct Hu as [Hu|[<-|[]]]; [|tauto]. apply D2. apply (HP' v Hv); auto.
        * rewrite Hone; auto. ring. intros p Hp. apply Hok. auto.
      + unfold L'. rewrite app_length in *. simpl in HL. lia.
      + intros v Hv. auto.
      + intros v Hv. apply HP'. apply in_or_app; auto.
  Qed.

  (** what comes before [x] in a topological order *)
  Lemma before_of x n : forall W, List.length W = n -> NoDup W -> incl W V -> (forall v, In v W -> incl (P v) W) -> In x W ->
    exists C L, Permutation W (C ++ x :: L) /\ (forall v, In v C -> incl (P v) C) /\ incl (P x) C.
  Proof using HA.
    induction n as [|n IH]; intros W HL HD HI HC Hx. { destruct W; [destruct Hx|discriminate]. }
    destruct (sink R R_dec HA W) as [s [Hs Hsink]]. { intros ->. destruct Hx. }
    apply in_split in Hs. destruct Hs as [W1 [W2 ->]]. set (W' := W1 ++ W2).
    assert (HPm : Permutation (W1 ++ s :: W2) (s :: W')). { symmetry. apply Permutation_middle. }
    assert (HD' : NoDup (s :: W')) by (eapply Permutation_NoDup; eauto). inversion HD' as [|? ? D1 D2]; subst.
    assert (HW : forall v, In v W' -> In v (W1 ++ s :: W2)). { intros v Hv. eapply Permutation_in; [symmetry; exact HPm|]. right; auto. }
    assert (HC' : forall v, In v (W1 ++ s :: W2) -> incl (P v) W').
    { intros v Hv p Hp. pose proof (HC v Hv p Hp) as Hpi. apply (Permutation_in _ HPm) in Hpi. destruct Hpi as [<-|Hpi]; auto. exfalso. apply (Hsink v Hv). split; auto. }
    apply (Permutation_in _ HPm) in Hx. destruct (Z.eq_dec s x) as [->|Hne].
    - exists W', []. split. { rewrite HPm. apply Permutation_cons_append. } split. { intros v Hv. apply HC'; auto. }
      apply HC'. eapply Permutation_in; [symmetry; exact HPm|]. left; auto.
    - destruct Hx as [Hx|Hx]; [congruence|]. destruct (IH W') as [C [L [H1 [H2 H3]]]]; auto.
      + unfold W'. rewrite app_length in *. simpl in HL. lia.
      + intros v Hv. auto.
      + exists C, (s :: L). split; auto. rewrite HPm, H1. rewrite Permutation_middle. apply Permutation_app_head. apply perm_swap.
  Qed.
End SumOut.

Section Cut.
  Context (N : net) (HN : nshape N) (HA : acyclic (is_parent N)) (HS : stochastic N) (x : Z) (Hx : In x (vars N)).
  Let V := vars N.
  Notation dm := (dom N).

  (** sum over everything when only the variables before [x] matter *)
  Lemma parents_closed v : In v V -> incl (par N v) V.
  Proof using HN. intros _ p Hp. apply (ns_ends _ HN p v Hp). Qed.
  Lemma x_notin : ~ In x (par N x).
  Proof using HN. pose proof (ns_par _ HN x) as H. apply NoDup_app_iff in H. destruct H as [_ [_ H]]. intros Hi. apply (H x Hi). left; auto. Qed.

  Definition phi_cut (xv : string) (v : Z) (b : asg) : Qc := if Z.eqb v x then (if string_dec (b x) xv then 1 else 0) else cpt_entry N v b.
  Definition par_cut (v : Z) : list Z := if Z.eqb v x then [] else par N v.

  Lemma cut_acyclic : acyclic (fun a b => In b V /\ In a (par_cut b)).
  Proof using HA.
    intros a b H1 H2. assert (S : forall a b, In b V /\ In a (par_cut b) -> is_parent N a b).
    { intros u v [A B]. unfold par_cut in B. destruct (Z.eqb v x); [destruct B|]. split; auto. }
    apply (HA a b); [apply S; auto|]. clear H1. induction H2; [constructor|]. econstructor; eauto.
  Qed.
  Lemma cut_dep xv v : In v V -> dep (par_cut v ++ [v]) (phi_cut xv v).
  Proof.
    intros _ a b E. unfold phi_cut, par_cut in *. destruct (Z.eqb_spec v x) as [->|Hn]; [|apply cpt_dep; auto]. rewrite (E x); auto. left; auto.
  Qed.
  Lemma cut_one xv v a : In xv (dm x) -> In v V -> okon dm (par_cut v) a -> qsum (map (fun y => phi_cut xv v (upd a v y)) (dm v)) = 1.
  Proof using HN HS.
    intros Hxv Hv Ho. unfold phi_cut, par_cut in *. destruct (Z.eqb_spec v x) as [->|Hn]; [|apply HS; auto].
    etransitivity; [|apply (qsum_select string_dec (fun _ => 1) xv (dm x)); auto; apply (ns_dom _ HN x Hv)].
    apply qsum_map_ext. intros y _. rewrite upd_eq. auto.
  Qed.

  Lemma same_on_dep vs a : dep vs (fun b => if same_on vs b a then 1 else 0).
  Proof.
    intros b c E. unfold same_on. assert (F : forall l, incl l vs -> forallb (fun v => String.eqb (b v) (a v)) l = forallb (fun v => String.eqb (c v) (a v)) l).
    { induction l as [|v l IH]; intros Hl; simpl; auto. rewrite E by (apply Hl; left; auto). rewrite IH; auto. intros u Hu; apply Hl; right; auto. }
    rewrite F; auto. apply incl_refl.
  Qed.
  Lemma cpts_proper : proper (fun b => qprod (map (fun v => cpt_entry N v b) V)).
  Proof using HN.
    apply dep_proper with (S := V). apply (dep_qprod _ (fun v b => cpt_entry N v b)). intros v Hv. apply dep_mono with (S := par N v ++ [v]); [|apply cpt_dep].
    intros u Hu. apply in_app_or in Hu. destruct Hu as [Hu|[<-|[]]]; auto. apply (parents_closed v Hv u Hu).
  Qed.
  Lemma cut_proper : proper (cut_weight N x).
  Proof using HN.
    apply dep_proper with (S := V). apply (dep_qprod _ (fun v b => if Z.eqb v x then 1 else cpt_entry N v b)). intros v Hv. destruct (Z.eqb v x). apply dep_const.
    apply dep_mono with (S := par N v ++ [v]); [|apply cpt_dep].
    intros u Hu. apply in_app_or in Hu. destruct Hu as [Hu|[<-|[]]]; auto. apply (parents_closed v Hv u Hu).
  Qed.
  Lemma cut_phi xv b : qprod (map (fun v => phi_cut xv v b) V) = if string_dec (b x) xv then cut_weight N x b else 0.
  Proof using HN Hx.
    unfold cut_weight. fold V. pose proof (ns_nd _ HN) as Hd. fold V in Hd, Hx. destruct (in_split _ _ Hx) as [V1 [V2 E]]. rewrite E in Hd |- *. rewrite !map_app. simpl. rewrite !qprod_app, !qprod_cons.
    unfold phi_cut at 2. rewrite Z.eqb_refl. apply NoDup_remove_2 in Hd.
    rewrite (qprod_map_ext (fun v => phi_cut xv v b) (fun v => if Z.eqb v x then 1 else cpt_entry N v b) V1), (qprod_map_ext (fun v => phi_cut xv v b) (fun v => if Z.eqb v x then 1 else cpt_entry N v b) V2).
    - destruct (string_dec (b x) xv); ring.
    - intros v Hv. unfold phi_cut. destruct (Z.eqb_spec v x) as [->|]; auto. exfalso. apply Hd, in_or_app; auto.
    - intros v Hv. unfold phi_cut. destruct (Z.eqb_spec v x) as [->|]; auto. exfalso. apply Hd, in_or_app; auto.
  Qed.
  Lemma cut_cpt b : qprod (map (fun v => cpt_entry N v b) V) = cpt_entry N x b * cut_weight N x b.
  Proof using HN Hx.
    unfold cut_weight. fold V. pose proof (ns_nd _ HN) as Hd. fold V in Hd, Hx. destruct (in_split _ _ Hx) as [V1 [V2 E]]. rewrite E in Hd |- *. rewrite !map_app. simpl. rewrite !qprod_app, !qprod_cons.
    rewrite Z.eqb_refl. apply NoDup_remove_2 in Hd.
    rewrite (qprod_map_ext (fun v => cpt_entry N v b) (fun v => if Z.eqb v x then 1 else cpt_entry N v b) V1), (qprod_map_ext (fun v => cpt_entry N v b) (fun v => if Z.eqb v x then 1 else cpt_entry N v b) V2).
    - ring.
    - intros v Hv. destruct (Z.eqb_spec v x) as [->|]; auto. exfalso. apply Hd, in_or_app; auto.
    - intros v Hv. destruct (Z.eqb_spec v x) as [->|]; auto. exfalso. apply Hd, in_or_app; auto.
  Qed.

  Lemma marginal_prior vs a : marginal N no_evidence vs a = sums dm V (fun b => (if same_on vs b a then 1 else 0) * qprod (map (fun v => cpt_entry N v b) V)) no_asg.
  Proof. unfold marginal. apply sums_ext. intros b. rewrite weight_prior. destruct (same_on vs b a); unfold V; ring. Qed.

  (** with x fixed from outside, its parents have the distribution they always had *)
  Lemma cut_total xv a : In xv (dm x) ->
    sums dm V (fun b => if string_dec (b x) xv then (if same_on (par N x) b a then cut_weight N x b else 0) else 0) no_asg = marginal N no_evidence (par N x) a.
  Proof using HN HA HS Hx.
    intros Hxv. rewrite marginal_prior. pose proof (ns_nd _ HN) as Hd. fold V in Hd, Hx.
    destruct (before_of V (par N) HA x (List.length V) V eq_refl Hd (incl_refl _) parents_closed Hx) as [C [L [HP [HC Hpx]]]].
    set (F := fun b => if same_on (par N x) b a then 1 else 0). assert (HF : dep C F). { apply dep_mono with (S := par N x); auto. apply same_on_dep. }
    assert (HD' : NoDup (C ++ x :: L)) by (eapply Permutation_NoDup; eauto).
    assert (HI : incl (C ++ x :: L) V). { intros v Hv. eapply Permutation_in; [symmetry; exact HP|exact Hv]. }
    assert (HxC : ~ In x C). { intros Hi. apply NoDup_app_iff in HD'. destruct HD' as [_ [_ D]]. apply (D x Hi). left; auto. }
    assert (Hclosed : forall v, In v (C ++ x :: L) -> incl (par N v) (C ++ x :: L)).
    { intros v Hv p Hp. eapply Permutation_in; [exact HP|]. apply (parents_closed v (HI v Hv) p Hp). }
    transitivity (sums dm C (fun b => F b * qprod (map (fun v => cpt_entry N v b) C)) no_asg).
    - transitivity (sums dm (C ++ x :: L) (fun b => F b * qprod (map (fun v => phi_cut xv v b) (C ++ x :: L))) no_asg).
      + rewrite <- (sums_perm dm V (C ++ x :: L)); auto.
        * apply sums_ext. intros b. rewrite (qprod_perm _ (map (fun v => phi_cut xv v b) V)) by (apply Permutation_map; symmetry; auto).
          rewrite cut_phi. unfold F. destruct (string_dec (b x) xv), (same_on (par N x) b a); ring.
        * apply proper_mult. eapply dep_proper; eauto. apply dep_proper with (S := V). apply (dep_qprod _ (fun v b => phi_cut xv v b)). intros v Hv.
          apply dep_mono with (S := par_cut v ++ [v]); [|apply cut_dep; auto]. intros u Hu. apply in_app_or in Hu. destruct Hu as [Hu|[<-|[]]]; auto.
          unfold par_cut in Hu. destruct (Z.eqb v x); [destruct Hu|]. apply (parents_closed v (HI v Hv) u Hu).
      + rewrite (sum_out dm V par_cut (phi_cut xv) cut_acyclic (cut_dep xv) (fun v a0 => cut_one xv v a0 Hxv) (List.length (x :: L)) (x :: L) C F no_asg eq_refl HD' HI); auto.
        * apply sums_ext. intros b. f_equal. apply qprod_map_ext. intros v Hv. unfold phi_cut. destruct (Z.eqb_spec v x) as [->|]; [tauto|auto].
        * intros v Hv. unfold par_cut. destruct (Z.eqb v x); [intros u []|auto].
        * intros v Hv. unfold par_cut. destruct (Z.eqb v x); [intros u []|]. apply Hclosed. apply in_or_app; auto.
    - symmetry. rewrite (sums_perm dm V (C ++ x :: L)); auto.
      + rewrite <- (sum_out dm V (par N) (cpt_entry N) HA (fun v _ => cpt_dep N v) HS (List.length (x :: L)) (x :: L) C F no_asg eq_refl HD' HI); auto.
        * apply sums_ext. intros b. f_equal. apply qprod_perm. apply Permutation_map; auto.
        * intros v Hv. apply Hclosed. apply in_or_app; auto.
      + apply proper_mult. eapply dep_proper; eauto. apply cpts_proper.
  Qed.

  (** likelihoods of known values *)
  Lemma seeing_prod S c b : incl S V -> qprod (map (fun v => seeing S c v (b v)) V) = if same_on S b c then 1 else 0.
  Proof.
    intros HI. destruct (same_on S b c) eqn:E.
    - apply qprod_map_one. intros v Hv. unfold seeing. destruct (mem v S) eqn:Em; auto. apply mem_In in Em. unfold same_on in E. rewrite forallb_forall in E. rewrite (E v Em). auto.
    - assert (Hv : exists v, In v S /\ String.eqb (b v) (c v) = false).
      { clear HI. unfold same_on in E. induction S as [|v S IH]; simpl in E; [discriminate|]. destruct (String.eqb (b v) (c v)) eqn:Ev.
        - destruct (IH E) as [u [A B]]. exists u. split; auto. right; auto.
        - exists v. split; auto. left; auto. }
      destruct Hv as [v [Hv Ev]]. destruct (in_split _ _ (HI v Hv)) as [V1 [V2 ->]]. rewrite map_app, qprod_app. simpl. rewrite qprod_cons.
      replace (seeing S c v (b v)) with 0; [ring|]. unfold seeing. rewrite (proj2 (mem_In v S) Hv), Ev. auto.
  Qed.

  Context (xv : string) (Hxv : In xv (dm x)).
  Lemma seeing_weight a b : weight N (seeing (x :: par N x) (upd a x xv)) b =
    cpt_entry N x (upd a x xv) * (if string_dec (b x) xv then (if same_on (par N x) b a then cut_weight N x b else 0) else 0).
  Proof using HN Hx.
    unfold weight. rewrite seeing_prod. 2:{ intros v [<-|Hv]; auto. apply (parents_closed x Hx v Hv). }
    fold V. rewrite cut_cpt. unfold same_on. simpl. rewrite upd_eq. destruct (string_dec (b x) xv) as [Eb|Hb].
    - rewrite Eb, String.eqb_refl. simpl.
      assert (Ef : forallb (fun v => String.eqb (b v) (upd a x xv v)) (par N x) = forallb (fun v => String.eqb (b v) (a v)) (par N x)).
      { assert (G : forall l, ~ In x l -> forallb (fun v => String.eqb (b v) (upd a x xv v)) l = forallb (fun v => String.eqb (b v) (a v)) l).
        { induction l as [|v l IH]; intros Hn; simpl; auto. rewrite upd_neq by (intros ->; apply Hn; left; auto). rewrite IH; auto. intros Hi; apply Hn; right; auto. }
        apply G. apply x_notin. }
      rewrite Ef. destruct (forallb (fun v => String.eqb (b v) (a v)) (par N x)) eqn:E; [|ring].
      rewrite (cpt_dep N x b (upd a x xv)); [ring|]. intros u Hu. unfold upd. destruct (Z.eqb_spec u x) as [->|Hn]; auto.
      apply in_app_or in Hu. destruct Hu as [Hu|[<-|[]]]; [|congruence]. rewrite forallb_forall in E. apply String.eqb_eq. auto.
    - apply String.eqb_neq in Hb. rewrite Hb. simpl. ring.
  Qed.
  Lemma cut_nonneg b : okon dm V b -> 0 <= cut_weight N x b.
  Proof using HN.
    intros Ho. unfold cut_weight. apply qprod_nonneg. intros q Hq. apply in_map_iff in Hq. destruct Hq as [v [<- Hv]]. destruct (Z.eqb v x); [discriminate|].
    unfold cpt_entry. destruct (nth_in_or_default (row_index dm (par N v ++ [v]) b) (cpt N v) 0) as [Hi|E]; [apply (ns_pos _ HN v); auto|rewrite E; apply Qcle_refl].
  Qed.

  (** one term of the adjustment formula *)
  Definition cut_mass (y : Z) (yv : string) (a : asg) : Qc :=
    sums dm V (fun b => if string_dec (b x) xv then (if same_on (par N x) b a then (if string_dec (b y) yv then cut_weight N x b else 0) else 0) else 0) no_asg.
  Lemma adjust_term y yv a : overlapping N x -> okon dm (par N x) a ->
    exact_posterior N (seeing (x :: par N x) (upd a x xv)) y yv * marginal N no_evidence (par N x) a = cut_mass y yv a.
  Proof using HN HA HS Hx Hxv.
    intros Hov Ha. set (th := cpt_entry N x (upd a x xv)). set (m := marginal N no_evidence (par N x) a).
    assert (Et : total N (seeing (x :: par N x) (upd a x xv)) = th * m).
    { unfold total, m. rewrite <- (cut_total xv a Hxv), <- sums_mult_const. apply sums_ext. intros b. apply seeing_weight. }
    assert (Em : mass_of N (seeing (x :: par N x) (upd a x xv)) y yv = th * cut_mass y yv a).
    { unfold mass_of, cut_mass. rewrite <- sums_mult_const. apply sums_ext. intros b. rewrite seeing_weight. fold th.
      destruct (string_dec (b y) yv), (string_dec (b x) xv), (same_on (par N x) b a); ring. }
    unfold exact_posterior. rewrite Et, Em. destruct (Qc_eq_dec m 0) as [E0|E0].
    - (* the parents' values are impossible *)
      rewrite E0, Qcmult_0_r. symmetry. unfold cut_mass. apply sums_zero. intros b Hb Hok.
      assert (Hprop : proper (fun b => if string_dec (b x) xv then (if same_on (par N x) b a then cut_weight N x b else 0) else 0)).
      { intros b1 b2 E. rewrite E. rewrite (cut_proper b1 b2 E). pose proof (same_on_dep (par N x) a b1 b2 (fun v _ => E v)) as Es. simpl in Es.
        destruct (string_dec (b2 x) xv), (same_on (par N x) b1 a), (same_on (par N x) b2 a); auto; discriminate. }
      pose proof (sums_zero_terms dm V _ Hprop no_asg) as Hz.
      assert (Hnn : forall b, (forall u, ~ In u V -> b u = no_asg u) -> okon dm V b -> 0 <= (if string_dec (b x) xv then (if same_on (par N x) b a then cut_weight N x b else 0) else 0)).
      { intros c _ Hc. destruct (string_dec (c x) xv), (same_on (par N x) c a); try apply Qcle_refl. apply cut_nonneg; auto. }
      specialize (Hz Hnn). rewrite (cut_total xv a Hxv) in Hz. specialize (Hz E0 b Hb Hok). simpl in Hz.
      destruct (string_dec (b x) xv), (same_on (par N x) b a), (string_dec (b y) yv); auto.
    - assert (Hth : th <> 0).
      { apply Hov. 2:{ unfold m in E0. intros E1. apply E0. rewrite <- E1. unfold marginal. apply sums_ext. intros b.
          assert (Es : same_on (par N x) b a = same_on (par N x) b (upd a x xv)).
          { unfold same_on. assert (G : forall l, ~ In x l -> forallb (fun v => String.eqb (b v) (a v)) l = forallb (fun v => String.eqb (b v) (upd a x xv v)) l).
            { induction l as [|v l IH]; intros Hn; simpl; auto. rewrite upd_neq by (intros ->; apply Hn; left; auto). rewrite IH; auto. intros Hi; apply Hn; right; auto. }
            apply G, x_notin. }
          rewrite Es. auto. }
        intros v Hv. unfold upd. destruct (Z.eqb_spec v x) as [->|Hn]; auto. apply in_app_or in Hv. destruct Hv as [Hv|[<-|[]]]; [auto|congruence]. }
      destruct (Qc_eq_dec (th * m) 0) as [E1|E1]. { apply Qcmult_integral in E1. tauto. } field. auto.
  Qed.

  Lemma do_split y yv : do_prob N x xv y yv = sums dm (par N x) (cut_mass y yv) no_asg.
  Proof using HN Hx.
    unfold cut_mass. rewrite (sums_swap dm (par N x) V (fun a b => if string_dec (b x) xv then (if same_on (par N x) b a then (if string_dec (b y) yv then cut_weight N x b else 0) else 0) else 0)).
    unfold do_prob. fold V. apply sums_ext_gen. intros b _ Hb. pose proof (ns_par _ HN x) as Hp. apply NoDup_app_iff in Hp.
    set (g := if string_dec (b x) xv then (if string_dec (b y) yv then cut_weight N x b else 0) else 0).
    transitivity (sums dm (par N x) (fun a => if agrees (par N x) a b then g else 0) no_asg).
    - symmetry. apply (sums_agree dm (par N x) (fun _ => g) b no_asg); try tauto.
      + intros v Hv. apply (ns_dom _ HN). apply (parents_closed x Hx v Hv).
      + intros v Hv. apply Hb. apply (parents_closed x Hx v Hv).
      + intros ? ? _. auto.
    - apply sums_ext. intros a. unfold g. assert (Es : agrees (par N x) a b = same_on (par N x) b a).
      { unfold agrees, same_on. generalize (par N x). intros l. induction l as [|v l IH]; simpl; auto. rewrite IH, String.eqb_sym; auto. }
      rewrite Es. destruct (string_dec (b x) xv), (same_on (par N x) b a); auto.
  Qed.
End Cut.

Section Adjust.
  Context (N : net) (HN : nshape N) (HA : acyclic (is_parent N)) (HS : stochastic N) (x : Z) (Hx : In x (vars N)).
  Notation dm := (dom N).

  Lemma adjusted_do xv y yv : In xv (dm x) -> independent N (par N x) -> overlapping N x -> adjusted N x xv y yv = do_prob N x xv y yv.
  Proof using HN HA HS Hx.
    intros Hxv Hi Ho. rewrite (do_split N HN x Hx). unfold adjusted. apply sums_ext_gen. intros a _ Ha.
    rewrite <- (adjust_term N HN HA HS x Hx xv Hxv y yv a Ho Ha). f_equal. rewrite (Hi a Ha). apply qprod_map_ext. intros p _. apply posterior_prior; auto.
  Qed.

  Lemma marginal_one p a : marginal N no_evidence [p] a = mass_of N no_evidence p (a p).
  Proof.
    unfold marginal, mass_of. apply sums_ext. intros b. unfold same_on. simpl. destruct (string_dec (b p) (a p)) as [->|Hn].
    - rewrite String.eqb_refl. auto.
    - apply String.eqb_neq in Hn. rewrite Hn. auto.
  Qed.
  Lemma independent_few vs : (List.length vs <= 1)%nat -> independent N vs.
  Proof using HN HA HS.
    intros Hl a Ha. destruct vs as [|p [|]]; [| |simpl in Hl; lia].
    - simpl. rewrite qprod_nil. rewrite <- (total_prior N HN HA HS). unfold marginal, total. reflexivity.
    - simpl. rewrite qprod_cons, qprod_nil, Qcmult_1_r. apply marginal_one.
  Qed.

  (** variables without parents are independent of each other *)
  Lemma marginal_closed C a : NoDup C -> incl C (vars N) -> (forall v, In v C -> incl (par N v) C) -> okon dm C a ->
    marginal N no_evidence C a = qprod (map (fun v => cpt_entry N v a) C).
  Proof using HN HA HS.
    intros HD HI HC Ha. rewrite marginal_prior.
    assert (HL : exists L, Permutation (vars N) (C ++ L)).
    { pose proof (ns_nd _ HN) as Hd. revert HD HI Hd. generalize (vars N). clear. induction C as [|v C IH]; intros V HD HI Hd. { exists V. reflexivity. }
      inversion HD; subst. destruct (in_split v V) as [V1 [V2 ->]]. { apply HI. left; auto. }
      destruct (IH (V1 ++ V2)) as [L HL]; auto.
      - intros u Hu. assert (Hu' : In u (V1 ++ v :: V2)) by (apply HI; right; auto). apply in_app_or in Hu'. apply in_or_app. destruct Hu' as [A|[A|A]]; [left; auto|exfalso; subst u; contradiction|right; auto].
      - eapply NoDup_remove_1; eauto.
      - exists L. simpl. rewrite <- HL. symmetry. apply Permutation_middle. }
    destruct HL as [L HP]. pose proof (ns_nd _ HN) as Hd.
    assert (HD' : NoDup (C ++ L)) by (eapply Permutation_NoDup; eauto).
    assert (HI' : incl (C ++ L) (vars N)). { intros v Hv. eapply Permutation_in; [symmetry; exact HP|exact Hv]. }
    set (F := fun b => if same_on C b a then 1 else 0). assert (HF : dep C F) by (apply same_on_dep).
    rewrite (sums_perm dm (vars N) (C ++ L)); auto. 2:{ apply proper_mult. eapply dep_proper; eauto. apply cpts_proper; auto. }
    transitivity (sums dm (C ++ L) (fun b => F b * qprod (map (fun v => cpt_entry N v b) (C ++ L))) no_asg).
    { apply sums_ext. intros b. f_equal. apply qprod_perm. apply Permutation_map; auto. }
    rewrite (sum_out dm (vars N) (par N) (cpt_entry N) HA (fun v _ => cpt_dep N v) HS (List.length L) L C F no_asg eq_refl HD' HI'); auto.
    2:{ intros v Hv p Hp. eapply Permutation_in; [exact HP|]. apply (ns_ends _ HN p v Hp). }
    transitivity (sums dm C (fun b => if agrees C b a then qprod (map (fun v => cpt_entry N v b) C) else 0) no_asg).
    { apply sums_ext. intros b. unfold F. change (agrees C b a) with (same_on C b a). destruct (same_on C b a); ring. }
    rewrite sums_agree; auto.
    - apply qprod_map_ext. intros v Hv. apply cpt_dep. intros u Hu. apply (updl_in dm). apply in_app_or in Hu. destruct Hu as [Hu|[<-|[]]]; auto. apply (HC v Hv u Hu).
    - intros v Hv. apply (ns_dom _ HN). auto.
    - apply dep_proper with (S := C). apply (dep_qprod _ (fun v b => cpt_entry N v b)). intros v Hv. apply dep_mono with (S := par N v ++ [v]); [|apply cpt_dep].
      intros u Hu. apply in_app_or in Hu. destruct Hu as [Hu|[<-|[]]]; auto. apply (HC v Hv u Hu).
  Qed.
  Lemma independent_roots vs : NoDup vs -> incl vs (vars N) -> (forall v, In v vs -> par N v = []) -> independent N vs.
  Proof using HN HA HS.
    intros HD HI HR a Ha. rewrite marginal_closed; auto. 2:{ intros v Hv. rewrite HR by auto. intros u []. }
    apply qprod_map_ext. intros v Hv. rewrite <- marginal_one. rewrite (marginal_closed [v]).
    - simpl. rewrite qprod_cons, qprod_nil. ring.
    - constructor; [intros []|constructor].
    - intros u [<-|[]]. auto.
    - intros u [<-|[]]. rewrite HR by auto. intros w [].
    - intros u [<-|[]]. auto.
  Qed.
End Adjust.
