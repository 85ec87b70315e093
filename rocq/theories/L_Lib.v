(** Importing libpgm dictionaries. *)
From Verif Require Import Py M_Graph M_Node M_Factory Spec SpecNet SpecFactory L_Base L_Table L_Build L_Apply L_Samp L_Samp2 L_P8 L_Plain L_Fac L_Serde.
Open Scope nat_scope.

Lemma cartesian_combination vals ps vs : In vs (cartesian (map vals ps)) <-> combination vals ps vs.
Proof.
  unfold combination. revert vs. induction ps as [|p t IH]; intros vs; cbn [map cartesian].
  - split; [intros [<-|[]]; constructor|intros H; inversion H; left; reflexivity].
  - rewrite in_flat_map. split.
    + intros (x & Hx & H). apply in_map_iff in H. destruct H as (r & <- & Hr). constructor; [exact Hx|]. apply IH, Hr.
    + intros H. inversion H as [|? x ? r Hx Hr]; subst. exists x. split; [exact Hx|]. apply in_map, IH, Hr.
Qed.
Lemma cartesian_some (vals : string -> list string) ps : (forall p, In p ps -> vals p <> []) -> cartesian (map vals ps) <> [].
Proof.
  induction ps as [|p t IH]; intros H; cbn [map cartesian]; [discriminate|]. destruct (vals p) as [|x l] eqn:E; [exfalso; apply (H p); [left; reflexivity|exact E]|].
  destruct (cartesian (map vals t)) as [|c r] eqn:E'; [exfalso; apply IH; [intros; apply H; right; assumption|reflexivity]|]. discriminate.
Qed.

Section Lib.
  Context (bn : libpgm) (OK : libpgm_ok bn).
  Let V := lp_V bn.
  Definition lp_F (c : string) (vs : list string) : list Qc := match lp_row bn c vs with Some l => l | None => [] end.
  Definition lp_node (c : string) : bnode := new_node (lp_ord bn c) c (lp_vals bn c) (flat_map (lp_F c) (cartesian (map (lp_vals bn) (lp_pars bn c)))).

  Lemma lp_get c : In c V -> exists d, dget (lp_data bn) c = Some d.
  Proof using OK.
    intros H. destruct (lo_keys bn OK) as [N K]. apply K in H. destruct (dget (lp_data bn) c) as [d|] eqn:E; [eauto|]. apply dget_None in E. contradiction.
  Qed.
  Lemma lp_domains c : In c V -> get_parent_domains bn c = Ok (map (lp_vals bn) (lp_pars bn c)).
  Proof using OK.
    intros Hc. destruct (lp_get c Hc) as [d Hd]. unfold get_parent_domains, lp_pars, dgetE. rewrite Hd. cbn [rbind]. destruct (vd_parents d) as [ps|] eqn:E; [|reflexivity].
    apply mapM_all. intros p Hp. destruct (lo_pars bn OK c Hc) as (_ & I & _). assert (Hp' : In p V). { apply I. unfold lp_pars. rewrite Hd, E. exact Hp. }
    destruct (lp_get p Hp') as [dp Hdp]. unfold lp_vals. rewrite Hdp. reflexivity.
  Qed.
  Lemma lp_keyed c d m : dget (lp_data bn) c = Some d -> vd_cprob d = Keyed m -> forall l acc, (forall vs, In vs l -> vs <> [] /\ exists r, lp_row bn c vs = Some r) ->
    foldM (fun probs k => match vd_cprob d with Keyed m => cp <- dgetE m k ;; Ok (probs ++ cp) | Plain _ => Err TypeError end) (map stringify l) acc = Ok (acc ++ flat_map (lp_F c) l).
  Proof.
    intros Hd Hm. induction l as [|vs t IH]; intros acc H; cbn [map foldM flat_map]. { rewrite app_nil_r. reflexivity. }
    rewrite Hm. destruct (H vs (or_introl eq_refl)) as (Ne & r & Hr). unfold lp_row in Hr. rewrite Hd, Hm in Hr.
    assert (Hk : dget m (stringify vs) = Some r) by (destruct vs; [congruence|exact Hr]).
    unfold dgetE at 1. rewrite Hk. cbn [rbind]. rewrite Hm in IH. rewrite IH by (intros v Hv; apply H; right; exact Hv). rewrite <- app_assoc. f_equal. f_equal. f_equal. unfold lp_F, lp_row. rewrite Hd, Hm.
    destruct vs; [congruence|]. change (lp_key (s :: vs)) with (stringify (s :: vs)). rewrite Hk. reflexivity.
  Qed.
  Lemma lp_probs c : In c V -> get_cond_probs bn c = Ok (flat_map (lp_F c) (cartesian (map (lp_vals bn) (lp_pars bn c)))).
  Proof using OK.
    intros Hc. destruct (lp_get c Hc) as [d Hd]. unfold get_cond_probs. rewrite lp_domains by exact Hc. unfold dgetE. rewrite Hd. cbn [rbind].
    assert (R : forall vs, In vs (cartesian (map (lp_vals bn) (lp_pars bn c))) -> exists r, lp_row bn c vs = Some r).
    { intros vs Hvs. apply cartesian_combination in Hvs. destruct (lo_rows bn OK c vs Hc Hvs) as (l & Hl & _). eauto. }
    destruct (lp_pars bn c) as [|p ps] eqn:Ep.
    - cbn [map cross_product cartesian flat_map]. destruct (R [] (or_introl eq_refl)) as [l Hl]. unfold lp_F. rewrite Hl. unfold lp_row in Hl. rewrite Hd in Hl. destruct (vd_cprob d); [|discriminate].
      rewrite app_nil_r. congruence.
    - assert (S : cartesian (map (lp_vals bn) (p :: ps)) <> []).
      { apply cartesian_some. intros q Hq. destruct (lo_pars bn OK c Hc) as (_ & I & _). apply (lo_vals bn OK q). apply I. rewrite Ep. exact Hq. }
      assert (R' : forall vs, In vs (cartesian (map (lp_vals bn) (p :: ps))) -> vs <> [] /\ exists r, lp_row bn c vs = Some r).
      { intros vs Hvs. split; [|apply R, Hvs]. apply cartesian_combination in Hvs. unfold combination in Hvs. inversion Hvs. discriminate. }
      change (cross_product (map (lp_vals bn) (p :: ps))) with (cartesian (map (lp_vals bn) (p :: ps))). set (K := cartesian (map (lp_vals bn) (p :: ps))) in *.
      assert (M : exists m, vd_cprob d = Keyed m).
      { destruct K as [|vs t]; [congruence|]. destruct (R' vs (or_introl eq_refl)) as (Ne & r & Hr). unfold lp_row in Hr. rewrite Hd in Hr. destruct (vd_cprob d); [destruct vs; [congruence|discriminate]|eauto]. }
      destruct M as [m Hm]. pose proof (lp_keyed c d m Hd Hm K [] R') as E. cbn [List.app] in E. rewrite <- E. destruct K as [|vs t]; [congruence|]. reflexivity.
  Qed.
  Lemma lp_nodes : libpgm_nodes bn = Ok (map (fun c => (c, lp_node c)) V).
  Proof using OK.
    unfold libpgm_nodes. destruct (lo_V bn OK) as [N _]. fold V.
    assert (G : forall l acc, incl l V -> NoDup (dkeys acc ++ l) -> foldM (fun nodes name => d <- dgetE (lp_data bn) name ;; probs <- get_cond_probs bn name ;;
           Ok (dset nodes name (new_node (vd_ord d) name (vd_vals d) probs))) l acc = Ok (acc ++ map (fun c => (c, lp_node c)) l)).
    { induction l as [|c t IH]; intros acc Hl Hn; cbn [foldM map]. { rewrite app_nil_r. reflexivity. }
      assert (Hc : In c V) by (apply Hl; left; reflexivity). destruct (lp_get c Hc) as [d Hd]. unfold dgetE at 1. rewrite Hd. cbn [rbind]. rewrite lp_probs by exact Hc. cbn [rbind].
      rewrite dkeys_dset_notin. 2:{ apply NoDup_remove_2 in Hn. intros H. apply Hn. apply in_or_app. left. exact H. }
      rewrite IH.
      - rewrite <- app_assoc. cbn [List.app]. assert (Eo : lp_ord bn c = vd_ord d) by (unfold lp_ord; rewrite Hd; reflexivity). assert (Ev : lp_vals bn c = vd_vals d) by (unfold lp_vals; rewrite Hd; reflexivity).
        unfold lp_node at 2. rewrite Eo, Ev. reflexivity.
      - intros x Hx. apply Hl. right. exact Hx.
      - unfold dkeys in *. rewrite map_app, <- app_assoc. exact Hn. }
    apply (G V []); [apply incl_refl|exact N].
  Qed.
  Lemma lp_find c : In c V -> dgetE (map (fun c => (c, lp_node c)) V) c = Ok (lp_node c).
  Proof using OK.
    intros H. unfold dgetE. assert (E : dget (map (fun c => (c, lp_node c)) V) c = Some (lp_node c)); [|rewrite E; reflexivity].
    apply dget_In_NoDup; [unfold dkeys; rewrite map_map, map_id; apply (lo_V bn OK)|]. apply in_map_iff. exists c. auto.
  Qed.
  Lemma lp_edges : libpgm_edges bn (map (fun c => (c, lp_node c)) V) =
    Ok (flat_map (fun c => map (fun p => (lp_node p, lp_node c)) (lp_pars bn c)) (map fst (lp_data bn))).
  Proof using OK.
    unfold libpgm_edges. destruct (lo_keys bn OK) as [N K].
    assert (G : forall l acc, incl l (lp_data bn) -> foldM (fun edges kv => ch <- dgetE (map (fun c => (c, lp_node c)) V) (fst kv) ;;
           match vd_parents (snd kv) with None => Ok edges | Some ps => pas <- mapM (dgetE (map (fun c => (c, lp_node c)) V)) ps ;; Ok (edges ++ map (fun pa => (pa, ch)) pas) end) l acc =
      Ok (acc ++ flat_map (fun c => map (fun p => (lp_node p, lp_node c)) (lp_pars bn c)) (map fst l))).
    { induction l as [|[c d] t IH]; intros acc Hl; cbn [foldM map flat_map fst snd]. { rewrite app_nil_r. reflexivity. }
      assert (Hd : dget (lp_data bn) c = Some d). { apply dget_In_NoDup; [exact N|]. apply Hl. left. reflexivity. }
      assert (Hc : In c V). { apply K. apply in_map_iff. exists (c, d). split; [reflexivity|]. apply Hl. left. reflexivity. }
      rewrite lp_find by exact Hc. cbn [rbind].
      assert (Ep : lp_pars bn c = match vd_parents d with Some ps => ps | None => [] end) by (unfold lp_pars; rewrite Hd; reflexivity). rewrite Ep.
      destruct (vd_parents d) as [ps|] eqn:E.
      - rewrite (mapM_all _ lp_node). { cbn [rbind]. rewrite IH by (intros x Hx; apply Hl; right; exact Hx). rewrite map_map, <- app_assoc. reflexivity. }
        intros p Hp. apply lp_find. destruct (lo_pars bn OK c Hc) as (_ & I & _). apply I. rewrite Ep. exact Hp.
      - cbn [map List.app]. apply IH. intros x Hx. apply Hl. right. exact Hx. }
    apply (G (lp_data bn) []). apply incl_refl.
  Qed.

  Theorem c38 : exists ops, from_libpgm bn = Ok (build ops) /\ well_shaped ops /\
    describes ops V (lp_ord bn) (lp_vals bn) (lp_pars bn) (lp_pars bn) (lp_entry bn).
  Proof using OK.
    set (ns := isort (fun a b => Z.leb (n_id a) (n_id b)) (map lp_node V)).
    set (es := flat_map (fun c => map (fun p => (lp_node p, lp_node c)) (lp_pars bn c)) (map fst (lp_data bn))).
    exists (plain_ops ns es).
    assert (HW : Permutation (map fst (lp_data bn)) V). { destruct (lo_keys bn OK) as [N K]. apply NoDup_Permutation; [exact N|apply (lo_V bn OK)|]. intros c. apply K. }
    assert (Hns : Permutation ns (map lp_node V)) by apply isort_perm.
    assert (HF : forall c vs, In c V -> In vs (cartesian (map (lp_vals bn) (lp_pars bn c))) -> List.length (lp_F c vs) = List.length (lp_vals bn c) /\ forall q, In q (lp_F c vs) -> (0 <= q)%Qc).
    { intros c vs Hc Hvs. apply cartesian_combination in Hvs. destruct (lo_rows bn OK c vs Hc Hvs) as (l & Hl & H). unfold lp_F. rewrite Hl. exact H. }
    split; [|split].
    - unfold from_libpgm. rewrite lp_nodes. cbn [rbind]. rewrite lp_edges. cbn [rbind]. rewrite assemble_build. unfold dvals. rewrite map_map. reflexivity.
    - apply (named_shaped V (map fst (lp_data bn)) (lp_ord bn) (lp_vals bn) (lp_pars bn) (lp_pars bn) lp_F ns); auto; try apply OK.
    - pose proof (named_describes V (map fst (lp_data bn)) (lp_ord bn) (lp_vals bn) (lp_pars bn) (lp_pars bn) lp_F ns (proj1 (lo_V bn OK)) HW Hns (lo_ord bn OK) (lo_pars bn OK) (fun c _ => Permutation_refl _) HF) as D.
      destruct D as [D1 D2 D3 D4 D5 D6 D7 D8]. constructor; auto. intros c a Hc Ha. rewrite D8 by assumption. unfold lp_entry, lp_F.
      destruct (lp_row bn c (map (fun x => a (lp_ord bn x)) (lp_pars bn c))); [reflexivity|]. apply nth_overflow. cbn. lia.
  Qed.
End Lib.
