(** What networks learned from data report. *)
From Verif Require Import Py M_Graph M_Node M_Pptc M_Factory Spec SpecNet SpecEv SpecSep SpecPot SpecRow SpecCohere SpecFactory SpecLearn L_Base L_PD L_Sums L_Table L_UG L_Exact L_Apply L_Net L_Claims L_P1 L_P4 L_Hist L_Sep2 L_Cohere L_Left2 L_Row L_Data L_Data2 L_R12 L_Gauss2.
Open Scope nat_scope.

Lemma qconst {A} (e : Qc) (l : list A) : qsum (map (fun _ => e) l) = (qn (List.length l) * e)%Qc.
Proof.
  induction l as [|x l IH]; cbn [map List.length]. - change (qsum []) with 0%Qc. rewrite qn_0. ring.
  - change (S (List.length l)) with (1 + List.length l). rewrite qn_plus. replace (qn 1) with 1%Qc by reflexivity. rewrite qsum_cons, IH. ring.
Qed.
Lemma filter_less {A} (f g : A -> bool) l x : (forall y, f y = true -> g y = true) -> In x l -> g x = true -> f x = false -> List.length (filter f l) < List.length (filter g l).
Proof.
  intros H Hx Gx Fx. assert (LE : forall m, List.length (filter f m) <= List.length (filter g m)).
  { induction m as [|y m IH]; simpl; auto. destruct (f y) eqn:E; [rewrite (H y E)|destruct (g y)]; simpl; lia. }
  induction l as [|y l IH]; [destruct Hx|]. destruct Hx as [->|Hx].
  - simpl. rewrite Gx, Fx. simpl. specialize (LE l). lia.
  - specialize (IH Hx). simpl. destruct (f y) eqn:E; [rewrite (H y E)|destruct (g y)]; simpl; lia.
Qed.
(** from parents to children *)
Lemma parents_ind N (P : Z -> Prop) : nshape N -> acyclic (is_parent N) -> (forall y, In y (vars N) -> (forall p, is_parent N p y -> P p) -> P y) -> forall y, In y (vars N) -> P y.
Proof.
  intros HN HA H. set (m := fun y => List.length (filter (fun z => below N z y) (vars N))).
  assert (G : forall k y, m y < k -> In y (vars N) -> P y).
  { induction k as [|k IH]; intros y Hk Hy; [lia|]. apply H; auto. intros p Hp. assert (Hpv : In p (vars N)) by (apply (ns_ends _ HN p y (proj2 Hp))).
    apply IH; auto. enough (m p < m y) by lia. unfold m.
    assert (E : forall z, In z (vars N) -> below N z p = true -> below N z y = true). { intros z Hz B. apply below_ok in B; auto. apply below_ok; auto. eapply path_trans; eauto. apply path_one; auto. }
    rewrite <- (map_id (filter (fun z => below N z p) (vars N))), map_id.
    assert (F : filter (fun z => below N z p) (vars N) = filter (fun z => below N z p && below N z y) (vars N)).
    { apply filter_ext_in. intros z Hz. destruct (below N z p) eqn:B; auto. rewrite (E z Hz B). reflexivity. }
    rewrite F. apply filter_less with y; auto.
    - intros z B. apply andb_true_iff in B. tauto.
    - apply below_ok; auto. constructor.
    - destruct (below N y p) eqn:B; auto. exfalso. apply below_ok in B; auto. apply (HA p y Hp B). }
  intros y Hy. apply (G (S (m y)) y); auto.
Qed.
Lemma frequency_ext R c ps k a b : (forall x, In x (c :: ps) -> a x = b x) -> frequency R c ps k a = frequency R c ps k b.
Proof. intros H. unfold frequency, count. rewrite (agreeing_ext R ps a b) by (intros; apply H; right; auto). rewrite (agreeing_ext R (c :: ps) a b) by auto. reflexivity. Qed.

Section Learned.
  Context (structure : list (string * list string)) (df : frame) (n : nat) (OK : frame_ok df n) (SO : structure_ok structure df).
  Context (ops : list bop) (id : string -> Z) (vals : string -> list string).
  Notation N := (net_of ops).
  Notation pars := (parents_of structure).
  Notation R := (records df n).
  Context (W : well_shaped ops) (VV : forall c, In c (columns df) -> values_of df c (vals c)).
  Context (D : describes ops (columns df) id vals pars pars (fun c a => frequency R c (pars c) (List.length (vals c)) a)).
  Context (EN : forall c a, In c (columns df) -> okon (net_dom ops) (net_par ops (id c) ++ [id c]) a ->
      cpt_entry N (id c) a = frequency R c (pars c) (List.length (vals c)) (fun x => a (id x))).
  Context (HC : acyclic (cause structure)).
  Let HN : nshape N := net_shape ops W.

  Lemma id_vars c : In c (columns df) -> In (id c) (vars N).
  Proof using D. intros H. apply (Permutation_in _ (Permutation_sym (ds_vars _ _ _ _ _ _ _ D))), in_map, H. Qed.
  Lemma vars_id i : In i (vars N) -> exists c, In c (columns df) /\ i = id c.
  Proof using D. intros H. apply (Permutation_in _ (ds_vars _ _ _ _ _ _ _ D)), in_map_iff in H. destruct H as [c [<- H]]. eauto. Qed.
  Lemma dom_id c : In c (columns df) -> dom N (id c) = vals c.
  Proof using D. apply (ds_dom _ _ _ _ _ _ _ D). Qed.
  Lemma par_id c : In c (columns df) -> par N (id c) = map id (pars c).
  Proof using D. apply (ds_par _ _ _ _ _ _ _ D). Qed.
  Lemma parent_back i j : is_parent N i j -> exists p c, In p (columns df) /\ In c (columns df) /\ i = id p /\ j = id c /\ cause structure p c.
  Proof using D SO.
    intros [Hj Hi]. apply vars_id in Hj. destruct Hj as [c [Hc ->]]. rewrite par_id in Hi by auto. apply in_map_iff in Hi. destruct Hi as [p [<- Hp]]. exists p, c. repeat split; auto.
    destruct (pars_ok structure df SO c Hc) as [_ [I _]]. auto.
  Qed.
  Lemma path_back i j : path (is_parent N) i j -> forall c, In c (columns df) -> i = id c -> exists d, In d (columns df) /\ j = id d /\ path (cause structure) c d.
  Proof using D SO.
    induction 1 as [i|i k j P1 P2 IH]; intros c Hc ->. - exists c. repeat split; auto. constructor.
    - apply parent_back in P1. destruct P1 as (p & e & Hp & He & E1 & E2 & P). apply (ds_id _ _ _ _ _ _ _ D) in E1; auto. subst p. destruct (IH e He E2) as [d [Hd [E Q]]]. exists d. repeat split; auto. econstructor; eauto.
  Qed.
  Lemma net_acyclic : acyclic (is_parent N).
  Proof using D SO HC.
    intros i j P Q. apply parent_back in P. destruct P as (p & c & Hp & Hc & -> & -> & P). destruct (path_back _ _ Q c Hc eq_refl) as [d [Hd [E Q']]]. apply (ds_id _ _ _ _ _ _ _ D) in E; auto. subst d. apply (HC p c P Q').
  Qed.
  Lemma entry_at c a v : In c (columns df) -> In v (vals c) -> (forall p, In p (pars c) -> In (a (id p)) (vals p)) ->
    cpt_entry N (id c) (upd a (id c) v) = frequency R c (pars c) (List.length (vals c)) (with_cell (fun x => a (id x)) c v).
  Proof using D SO EN.
    intros Hc Hv Ha. destruct (pars_ok structure df SO c Hc) as [_ [I Nc]].
    rewrite EN; auto.
    - apply frequency_ext. intros x Hx. unfold with_cell, upd. assert (Hxc : In x (columns df)) by (destruct Hx as [<-|Hx]; auto). destruct (String.eqb_spec x c) as [->|Hne]; [rewrite Z.eqb_refl; auto|].
      destruct (Z.eqb_spec (id x) (id c)) as [E|]; auto. apply (ds_id _ _ _ _ _ _ _ D) in E; auto. contradiction.
    - intros i Hi. apply in_app_or in Hi. destruct Hi as [Hi|[<-|[]]]. 
      + pose proof (par_id c Hc) as E. cbn [net_of par] in E. rewrite E in Hi. apply in_map_iff in Hi. destruct Hi as [p [<- Hp]]. unfold upd. destruct (Z.eqb_spec (id p) (id c)) as [E2|].
        * apply (ds_id _ _ _ _ _ _ _ D) in E2; auto. subst p. contradiction.
        * rewrite (ds_dom _ _ _ _ _ _ _ D) by auto. auto.
      + rewrite upd_eq. rewrite (ds_dom _ _ _ _ _ _ _ D) by auto. auto.
  Qed.
  Lemma same_parents c a v : In c (columns df) -> agreeing R (pars c) (with_cell a c v) = agreeing R (pars c) a.
  Proof using SO. intros Hc. destruct (pars_ok structure df SO c Hc) as [_ [_ Nc]]. apply agreeing_ext. intros x Hx. unfold with_cell. destruct (String.eqb_spec x c) as [->|]; [contradiction|auto]. Qed.
  Lemma cells_in c r : In c (columns df) -> In r R -> In (r c) (vals c).
  Proof using OK VV. intros Hc Hr. destruct (VV c Hc) as [_ [_ V]]. apply V. pose proof (recs_cell df n OK c r Hc Hr) as X. apply cvals_In in X. auto. Qed.
  Lemma net_stochastic : stochastic N.
  Proof using D SO EN OK VV W HN.
    intros i a Hi Ha. apply vars_id in Hi. destruct Hi as [c [Hc ->]]. destruct (pars_ok structure df SO c Hc) as [_ [I Nc]]. destruct (VV c Hc) as [V1 [V2 V3]].
    rewrite dom_id by auto. assert (Ha' : forall p, In p (pars c) -> In (a (id p)) (vals p)).
    { intros p Hp. rewrite <- dom_id by auto. apply Ha. rewrite par_id by auto. apply in_map; auto. }
    rewrite (qsum_map_ext _ (fun v => frequency R c (pars c) (List.length (vals c)) (with_cell (fun x => a (id x)) c v))) by (intros v Hv; apply entry_at; auto).
    set (b := fun x => a (id x)). unfold frequency. destruct (Nat.eqb_spec (List.length (agreeing R (pars c) b)) 0) as [E|E].
    - rewrite (qsum_map_ext _ (fun _ => (1 / qn (List.length (vals c)))%Qc)) by (intros v Hv; rewrite same_parents, E by auto; reflexivity). rewrite qconst. field. apply qn_neq0.
      pose proof (ns_dom _ HN (id c) (id_vars c Hc)) as [_ X]. rewrite dom_id in X by auto. destruct (vals c); [congruence|simpl; lia].
    - rewrite (qsum_map_ext _ (fun v => (qn (List.length (agreeing R (c :: pars c) (with_cell b c v))) * / qn (List.length (agreeing R (pars c) b)))%Qc)).
      2:{ intros v Hv. unfold count. rewrite same_parents by auto. apply Nat.eqb_neq in E. rewrite E. reflexivity. }
      rewrite qsum_map_mult_r. unfold with_cell. rewrite count_partition; auto. + field. apply qn_neq0. lia. + intros r Hr. apply cells_in; auto.
  Qed.

  (** every record is possible *)
  Definition world_of (r : string -> string) : asg := fun i => r (net_name ops i).
  Lemma world_id r c : In c (columns df) -> world_of r (id c) = r c.
  Proof using D. intros H. unfold world_of. rewrite (ds_name _ _ _ _ _ _ _ D) by auto. reflexivity. Qed.
  Lemma agree_self r cs : In r R -> In r (agreeing R cs r).
  Proof. intros H. apply filter_In. split; auto. apply forallb_forall. intros x _. apply String.eqb_refl. Qed.
  Lemma agree_pos r cs : In r R -> 0 < List.length (agreeing R cs r).
  Proof. intros H. apply agree_self with (cs := cs) in H. destruct (agreeing R cs r); [destruct H|simpl; lia]. Qed.
  Lemma world_ok r : In r R -> okon (dom N) (vars N) (world_of r).
  Proof using D OK VV. intros Hr i Hi. apply vars_id in Hi. destruct Hi as [c [Hc ->]]. rewrite dom_id, world_id by auto. apply cells_in; auto. Qed.
  Lemma world_weight r : In r R -> weight N no_evidence (world_of r) <> 0%Qc.
  Proof using D OK VV SO EN W HN.
    intros Hr. rewrite weight_prior. assert (G : forall l, incl l (vars N) -> qprod (map (fun v => cpt_entry N v (world_of r)) l) <> 0%Qc).
    { induction l as [|i l IH]; intros Hl; [discriminate|]. cbn [map]. rewrite qprod_cons. intros E. apply Qcmult_integral in E. destruct E as [E|E]; [|apply IH in E; auto; intros x Hx; apply Hl; right; auto].
      assert (Hi : In i (vars N)) by (apply Hl; left; auto). apply vars_id in Hi. destruct Hi as [c [Hc ->]]. destruct (pars_ok structure df SO c Hc) as [_ [I Nc]]. revert E.
      rewrite EN; auto.
      - rewrite (frequency_ext _ _ _ _ _ r). 2:{ intros x Hx. apply world_id. destruct Hx as [<-|Hx]; auto. }
        unfold frequency, count. pose proof (agree_pos r (pars c) Hr) as P1. pose proof (agree_pos r (c :: pars c) Hr) as P2. destruct (Nat.eqb_spec (List.length (agreeing R (pars c) r)) 0); [lia|].
        intros E. apply (qn_neq0 _ P2). assert (X := qn_neq0 _ P1). transitivity (qn (List.length (agreeing R (c :: pars c) r)) / qn (List.length (agreeing R (pars c) r)) * qn (List.length (agreeing R (pars c) r)))%Qc; [field; auto|]. rewrite E. ring.
      - intros j Hj. apply (world_ok r Hr). apply in_app_or in Hj. destruct Hj as [Hj|[<-|[]]]; [|apply id_vars; auto]. apply (ns_ends _ HN j (id c) Hj). }
    apply G, incl_refl.
  Qed.
  Lemma record_possible L r : (forall i v, In i (vars N) -> In v (dom N i) -> (0 <= L i v)%Qc) -> In r R -> true_of (fun c => L (id c)) (columns df) r -> possible N L.
  Proof using D OK VV SO EN W HN.
    intros HL Hr H. apply (point_possible ops (world_of r) W (world_ok r Hr) (world_weight r Hr) L HL). intros i Hi. apply vars_id in Hi. destruct Hi as [c [Hc ->]]. rewrite world_id by auto. apply H; auto.
  Qed.

  (** ** parents known *)
  Lemma row_known L r c v : (forall i v, In i (vars N) -> In v (dom N i) -> (0 <= L i v)%Qc) -> In r R -> true_of (fun c => L (id c)) (columns df) r -> In c (columns df) -> In v (vals c) ->
    (forall p w, cause structure p c -> In w (vals p) -> w <> r p -> L (id p) w = 0%Qc) ->
    (forall x w, path (cause structure) c x -> In x (columns df) -> In w (vals x) -> L (id x) w = 1%Qc) ->
    exact_posterior N L (id c) v = (count R (c :: pars c) (with_cell r c v) / count R (pars c) r)%Qc.
  Proof using D OK VV SO EN W HN HC.
    intros HL Hr HT Hc Hv H0 H1. destruct (pars_ok structure df SO c Hc) as [_ [I Nc]].
    rewrite (row_posterior N HN net_acyclic net_stochastic L (id c) (world_of r) (id_vars c Hc)).
    - unfold cell. rewrite entry_at; auto. 2:{ intros p Hp. rewrite world_id by auto. apply cells_in; auto. }
      rewrite (frequency_ext _ _ _ _ _ (with_cell r c v)). 2:{ intros x Hx. unfold with_cell. destruct (String.eqb_spec x c) as [->|]; auto. apply world_id. destruct Hx as [<-|Hx]; [congruence|auto]. }
      unfold frequency. rewrite same_parents by auto. pose proof (agree_pos r (pars c) Hr). destruct (Nat.eqb_spec (List.length (agreeing R (pars c) r)) 0); [lia|]. unfold count. rewrite same_parents by auto. reflexivity.
    - intros w Hw. rewrite dom_id in Hw by auto. apply H1; auto. constructor.
    - intros d (k & P1 & P2) w Hw. apply parent_back in P1. destruct P1 as (p & e & Hp & He & E1 & -> & P). apply (ds_id _ _ _ _ _ _ _ D) in E1; auto. subst p.
      destruct (path_back _ _ P2 e He eq_refl) as [x [Hx [-> Q]]]. rewrite dom_id in Hw by auto. apply H1; auto. econstructor; eauto.
    - intros p Hp. rewrite par_id in Hp by auto. apply in_map_iff in Hp. destruct Hp as [q [<- Hq]]. rewrite dom_id, world_id by auto. split; [apply cells_in; auto|]. intros w Hw Hne. apply H0; auto.
    - rewrite dom_id; auto.
    - apply (record_possible L r); auto.
  Qed.

  (** ** trees *)
  Context (H1 : forall c, In c (columns df) -> List.length (pars c) <= 1).
  Lemma value_record c v : In c (columns df) -> In v (vals c) -> exists r, In r R /\ r c = v.
  Proof using OK VV.
    intros Hc Hv. destruct (VV c Hc) as [_ [_ V]]. apply V in Hv. destruct (In_nth _ _ EmptyString Hv) as [i [Hi E]]. exists (row df i). split; [|exact E]. apply in_map, in_seq. rewrite (cells_len df n OK c Hc) in Hi. lia.
  Qed.
  Lemma share_pos c v : In c (columns df) -> In v (vals c) -> 0 < List.length (agreeing R [c] (fun _ => v)).
  Proof using OK VV.
    intros Hc Hv. destruct (value_record c v Hc Hv) as [r [Hr E]]. pose proof (agree_pos r [c] Hr) as P. rewrite (agreeing_ext R [c] r (fun _ => v)) in P; auto. intros x [<-|[]]. auto.
  Qed.
  Lemma n_pos : qn n <> 0%Qc.
  Proof using OK. apply qn_neq0, (fo_some _ _ OK). Qed.
  Lemma all_records : List.length R = n.
  Proof. unfold records. rewrite map_length, seq_length. reflexivity. Qed.
  Lemma agree_none a : agreeing R [] a = R.
  Proof. assert (G : forall l : list (string -> string), filter (fun _ => true) l = l) by (induction l; simpl; congruence). apply G. Qed.
  Lemma tree_prior c : In c (columns df) -> forall v, In v (vals c) -> exact_posterior N no_evidence (id c) v = share df n c v.
  Proof using All.
    intros Hc0. pose proof net_acyclic as HA. pose proof net_stochastic as HS. pose proof n_pos as Hn.
    assert (L0 : forall i v, In i (vars N) -> In v (dom N i) -> (0 <= no_evidence i v)%Qc) by (intros; discriminate).
    set (P := fun i => forall c, In c (columns df) -> i = id c -> forall v, In v (vals c) -> exact_posterior N no_evidence i v = share df n c v).
    enough (G : P (id c)) by (apply (G c Hc0 eq_refl)). apply (parents_ind N P HN HA); [|apply id_vars; auto]. clear c Hc0. intros y Hy IH c Hc -> v Hv.
    destruct (pars_ok structure df SO c Hc) as [_ [I Nc]]. specialize (H1 c Hc). destruct (pars c) as [|p ps] eqn:Ep.
    - rewrite (row_posterior N HN HA HS no_evidence (id c) no_asg Hy).
      + unfold cell. rewrite entry_at; auto; [|rewrite Ep; intros p []]. rewrite Ep. unfold frequency. rewrite agree_none, all_records. pose proof (fo_some _ _ OK). destruct (Nat.eqb_spec n 0); [lia|].
        unfold share, count. rewrite agree_none, all_records. rewrite (agreeing_ext R [c] _ (fun _ => v)); auto. intros x [<-|[]]. unfold with_cell. rewrite String.eqb_refl. auto.
      + intros w _. reflexivity.
      + intros d _ w _. reflexivity.
      + intros q Hq. rewrite par_id, Ep in Hq by auto. destruct Hq.
      + rewrite dom_id; auto.
      + unfold possible. rewrite total_prior; auto. discriminate.
    - destruct ps; [|simpl in H1; lia]. clear H1. assert (Hp : In p (columns df)) by (apply I; left; auto). assert (Hpp : is_parent N (id p) (id c)). { split; auto. rewrite par_id, Ep by auto. left. auto. }
      assert (Hnid : id c <> id p). { intros E. apply (ds_id _ _ _ _ _ _ _ D) in E; auto. subst. apply Nc. left. auto. }
      rewrite <- (total_law N no_evidence HN L0 (id p) (id c) v (id_vars p Hp)) by (intros w _; reflexivity). rewrite dom_id by auto.
      rewrite (qsum_map_ext _ (fun u => (qn (List.length (agreeing R [p; c] (fun x => if String.eqb x p then u else v))) * / qn n)%Qc)).
      { rewrite qsum_map_mult_r. destruct (VV p Hp) as [V1 _]. rewrite (count_partition R p [c] (vals p) (fun _ => v)); auto. - intros r Hr. apply cells_in; auto. - intros [E|[]]. apply Nc. left. auto. }
      intros u Hu. rewrite (IH (id p) Hpp p Hp eq_refl u Hu). pose proof (share_pos p u Hp Hu) as Pos. assert (Pos' := qn_neq0 _ Pos).
      rewrite (row_posterior N HN HA HS (observing no_evidence (id p) u) (id c) (upd no_asg (id p) u) Hy).
      + unfold cell. rewrite entry_at; auto. 2:{ rewrite Ep. intros q [<-|[]]. rewrite upd_eq. auto. }
        rewrite Ep. set (b := with_cell _ c v). assert (Bp : b p = u). { unfold b, with_cell. destruct (String.eqb_spec p c) as [->|]; [exfalso; apply Nc; left; auto|]. apply upd_eq. }
        assert (Bc : b c = v) by (unfold b, with_cell; rewrite String.eqb_refl; auto). clearbody b.
        unfold frequency, count, share, count. rewrite (agreeing_ext R [p] b (fun _ => u)) by (intros x [<-|[]]; auto). destruct (Nat.eqb_spec (List.length (agreeing R [p] (fun _ => u))) 0); [lia|].
        rewrite (agreeing_perm R [p; c] [c; p]) by (apply perm_swap). rewrite (agreeing_ext R [c; p] (fun x => if String.eqb x p then u else v) b).
        * field. auto.
        * intros x [<-|[<-|[]]]; [|rewrite String.eqb_refl; auto]. destruct (String.eqb_spec c p) as [->|]; auto.
      + intros w _. unfold observing. destruct (Z.eqb_spec (id c) (id p)); [contradiction|reflexivity].
      + intros d (k & P1 & P2) w _. unfold observing. destruct (Z.eqb_spec d (id p)) as [->|]; [|reflexivity]. exfalso. apply (HA (id p) (id c) Hpp). econstructor; eauto.
      + intros q Hq. rewrite par_id, Ep in Hq by auto. destruct Hq as [<-|[]]. rewrite upd_eq, dom_id by auto. split; auto. intros w _ Hw. unfold observing. rewrite Z.eqb_refl. apply String.eqb_neq in Hw. rewrite Hw. reflexivity.
      + rewrite dom_id; auto.
      + unfold possible. rewrite total_observing; auto; [|apply id_vars; auto|intros w _; reflexivity]. rewrite <- posterior_prior; auto. rewrite (IH (id p) Hpp p Hp eq_refl u Hu). unfold share, count. intros E. apply Pos'.
        transitivity (qn (List.length (agreeing R [p] (fun _ => u))) / qn n * qn n)%Qc; [field; auto|rewrite E; ring].
  Qed.
  Lemma net_linked : linked structure df -> connected ops.
  Proof using D.
    intros C u v Hu Hv. apply vars_id in Hu, Hv. destruct Hu as [x [Hx ->]], Hv as [y [Hy ->]]. specialize (C x y Hx Hy). clear Hx Hy. induction C as [x|x y z Hxy Hyz IH].
    - constructor.
    - econstructor; [|exact IH]. assert (K : forall p c, In c (columns df) /\ cause structure p c -> is_parent N (id p) (id c)).
      { intros p c [Hc Hp]. split; [apply id_vars; auto|]. rewrite par_id by auto. apply in_map; auto. }
      destruct Hxy as [H|H]; [left|right]; auto.
  Qed.
End Learned.

(** ** theorems *)
Lemma short_by_name l : List.length l <= 1 -> by_name l.
Proof. destruct l as [|x [|y l]]; simpl; intros H; [constructor| |lia]. constructor; constructor. Qed.
Theorem c116_tree structure df n : frame_ok df n -> structure_ok structure df -> acyclic (cell_in df) -> acyclic (cause structure) -> linked structure df ->
  (forall c, In c (columns df) -> List.length (parents_of structure c) <= 1) ->
  exists b, from_data structure df = Ok b /\ forall o, ord_ok o -> exists b2 j t, apply o b = Ok (b2, j) /\ get_posteriors j = Ok t /\
    forall c, In c (columns df) -> exists vs, values_of df c vs /\ dget t c = Some (map (fun v => (v, share df n c v)) vs).
Proof.
  intros OK SO HA HC HL H1. destruct (c37_partial' structure df n OK SO HA (fun c Hc => short_by_name _ (H1 c Hc))) as (ops & id & vals & E & W & VV & D & EN).
  exists (build ops). split; auto. intros o Ho. pose proof (net_linked structure df n ops id vals D HL) as Hcon. destruct (c01 ops o W Hcon Ho) as [b [j [t [E1 [E2 [_ E4]]]]]]. exists b, j, t. split; auto. split; auto.
  intros c Hc. exists (vals c). split; auto. specialize (E4 (id c) (id_vars structure df n ops id vals D c Hc)).
  rewrite (ds_name _ _ _ _ _ _ _ D) in E4 by auto. rewrite E4. f_equal. rewrite (dom_id structure df n ops id vals D c Hc). apply map_ext_in. intros v Hv. f_equal.
  apply (tree_prior structure df n OK SO ops id vals W VV D EN HC H1 c Hc v Hv).
Qed.
Theorem c116_row structure df n : frame_ok df n -> structure_ok structure df -> acyclic (cell_in df) -> acyclic (cause structure) -> linked structure df ->
  (forall c, In c (columns df) -> by_name (parents_of structure c)) ->
  exists ops id vals, from_data structure df = Ok (build ops) /\ (forall c, In c (columns df) -> values_of df c (vals c)) /\
    describes ops (columns df) id vals (parents_of structure) (parents_of structure) (fun c a => frequency (records df n) c (parents_of structure c) (List.length (vals c)) a) /\
    forall o h r, ord_ok o -> valid_history (net_of ops) h -> let L := fun c => shown (net_of ops) (calls h) (id c) in
      In r (records df n) -> true_of L (columns df) r ->
      exists j t, session o ops h = Ok j /\ get_posteriors j = Ok t /\
        (forall c, In c (columns df) -> exists m, dget t c = Some m /\ map fst m = vals c /\ qsum (map snd m) = 1%Qc) /\
        (forall c, In c (columns df) -> (forall p w, cause structure p c -> In w (vals p) -> w <> r p -> L p w = 0%Qc) ->
          (forall x w, path (cause structure) c x -> In x (columns df) -> In w (vals x) -> L x w = 1%Qc) ->
          dget t c = Some (map (fun v => (v, (count (records df n) (c :: parents_of structure c) (with_cell r c v) / count (records df n) (parents_of structure c) r)%Qc)) (vals c))).
Proof.
  intros OK SO HA HC HL HB. destruct (c37_partial' structure df n OK SO HA HB) as (ops & id & vals & E & W & VV & D & EN). exists ops, id, vals. split; auto. split; auto. split; auto.
  intros o h r Ho Hh L Hr HT. pose proof (net_linked structure df n ops id vals D HL) as Hcon. destruct (session_exact ops o h W Hcon Ho Hh) as [j [t [A1 [A2 [_ A4]]]]]. exists j, t. split; auto. split; auto.
  assert (G : forall c, In c (columns df) -> dget t c = Some (map (fun v => (v, exact_posterior (net_of ops) (shown (net_of ops) (calls h)) (id c) v)) (vals c))).
  { intros c Hc. specialize (A4 (id c) (id_vars structure df n ops id vals D c Hc)). rewrite (ds_name _ _ _ _ _ _ _ D) in A4 by auto. rewrite A4. rewrite (dom_id structure df n ops id vals D c Hc). reflexivity. }
  pose proof (record_possible structure df n OK SO ops id vals W VV D EN _ r (shown_pos _ _) Hr HT) as HP. split.
  - intros c Hc. eexists. split; [apply G; auto|]. rewrite !map_map. cbn [fst snd]. split; [apply map_id|].
    pose proof (mass_total (net_of ops) (shown (net_of ops) (calls h)) (net_shape ops W) (id c) (id_vars structure df n ops id vals D c Hc)) as T. rewrite (dom_id structure df n ops id vals D c Hc) in T.
    set (M := total (net_of ops) (shown (net_of ops) (calls h))) in *. rewrite (qsum_map_ext _ (fun v => (mass_of (net_of ops) (shown (net_of ops) (calls h)) (id c) v * / M)%Qc)).
    + rewrite qsum_map_mult_r. fold (mass_of (net_of ops) (shown (net_of ops) (calls h)) (id c)). rewrite T. apply Qcmult_inv_r. exact HP.
    + intros v _. unfold exact_posterior. fold M. destruct (Qc_eq_dec M 0) as [X|X]; [contradiction|reflexivity].
  - intros c Hc H0 H1. rewrite G by auto. f_equal. apply map_ext_in. intros v Hv. f_equal. apply (row_known structure df n OK SO ops id vals W VV D EN HC _ r c v (shown_pos _ _) Hr HT Hc Hv H0 H1).
Qed.

(** ** cases *)
Lemma ranked_cause (s : list (string * list string)) (rank : string -> nat) : forallb (fun kv => forallb (fun p => Nat.ltb (rank p) (rank (fst kv))) (snd kv)) s = true -> acyclic (cause s).
Proof.
  intros H. assert (K : forall p c, cause s p c -> rank p < rank c).
  { intros p c P. unfold cause, parents_of in P. destruct (dget s c) as [ps|] eqn:E; [|destruct P]. apply dget_In in E. rewrite forallb_forall in H. specialize (H _ E). cbn [fst snd] in H. rewrite forallb_forall in H. apply Nat.ltb_lt, H, P. }
  intros p c P Q. apply K in P. assert (rank c <= rank p); [|lia]. clear P. induction Q as [|x y z P _ IH]; auto. apply K in P. lia.
Qed.
Lemma hub_linked s df hub : (forall x, In x (columns df) -> x = hub \/ (In hub (columns df) /\ cause s x hub) \/ cause s hub x) -> linked s df.
Proof.
  intros H x y Hx Hy. set (R := sym (fun p c => In c (columns df) /\ cause s p c)). assert (K : forall z, In z (columns df) -> path R z hub).
  { intros z Hz. destruct (H z Hz) as [->|[[A B]|B]]; [constructor| |]; apply path_one; [left|right]; auto. }
  apply path_trans with hub; auto. apply path_sym; auto. intros u v [P|P]; [right|left]; auto.
Qed.
(** a -> c -> b *)
Definition abc_chain : list (string * list string) := [("a", []); ("c", ["a"]); ("b", ["c"])]%string.
Definition abc_rank (c : string) : nat := if String.eqb c "a" then 0 else if String.eqb c "c" then 1 else 2.
Lemma abc_chain_ok : structure_ok abc_chain abc_frame.
Proof. apply structure_okb_ok. vm_compute. reflexivity. Qed.
Lemma abc_chain_acyclic : acyclic (cause abc_chain).
Proof. apply ranked_cause with abc_rank. vm_compute. reflexivity. Qed.
Lemma abc_chain_linked : linked abc_chain abc_frame.
Proof. apply hub_linked with "c"%string. intros x [<-|[<-|[<-|[]]]]; [left; reflexivity|right; left|right; right]; cbv; tauto. Qed.
Lemma abc_sorted_acyclic : acyclic (cause abc_sorted).
Proof. apply ranked_cause with (fun c => if String.eqb c "c" then 1 else 0). vm_compute. reflexivity. Qed.
Lemma abc_sorted_linked : linked abc_sorted abc_frame.
Proof. apply hub_linked with "c"%string. intros x [<-|[<-|[<-|[]]]]; [left; reflexivity|right; left|right; left]; cbv; tauto. Qed.
(** what is reported after the calls [h] *)
Definition learned_answers (s : list (string * list string)) (h : history) : list (string * list (string * Q)) :=
  match session ord_id (abc_ops s) h with
  | Ok j => match get_posteriors j with Ok t => map (fun p => (fst p, map (fun q => (fst q, this (snd q))) (snd p))) t | Err _ => [] end
  | Err _ => []
  end.
