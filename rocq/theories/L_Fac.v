(** Networks over names, and the import of libpgm dictionaries. *)
From Verif Require Import Py M_Graph M_Node M_Factory Spec SpecNet SpecFactory L_Base L_Table L_Build L_Apply L_Samp L_Samp2 L_P8 L_Plain L_Serde.
Open Scope nat_scope.

Section Named.
  Context (V W : list string) (id : string -> Z) (vals pars rows : string -> list string) (F : string -> list string -> list Qc) (ns : list bnode).
  Let node (c : string) : bnode := new_node (id c) c (vals c) (flat_map (F c) (cartesian (map vals (rows c)))).
  Let es : list (bnode * bnode) := flat_map (fun c => map (fun p => (node p, node c)) (pars c)) W.
  Context (HV : NoDup V) (HV0 : V <> []) (HW : Permutation W V) (Hns : Permutation ns (map node V)).
  Context (Hid : forall x y, In x V -> In y V -> id x = id y -> x = y).
  Context (Hvals : forall c, In c V -> NoDup (vals c) /\ vals c <> []).
  Context (Hpars : forall c, In c V -> NoDup (pars c) /\ incl (pars c) V /\ ~ In c (pars c)).
  Context (Hrows : forall c, In c V -> Permutation (rows c) (pars c)).
  Context (HF : forall c vs, In c V -> In vs (cartesian (map vals (rows c))) -> List.length (F c vs) = List.length (vals c) /\ forall q, In q (F c vs) -> (0 <= q)%Qc).

  Lemma nm_ids : NoDup (map n_id ns).
  Proof using HV Hns Hid.
    eapply Permutation_NoDup; [apply Permutation_map, Permutation_sym, Hns|]. rewrite map_map. apply NoDup_map_inj; [|exact HV]. intros x y Hx Hy E. apply Hid; auto.
  Qed.
  Lemma nm_in c : In c V -> In (node c) ns.
  Proof using Hns. intros H. eapply Permutation_in; [apply Permutation_sym, Hns|]. apply in_map, H. Qed.
  Lemma nm_ends e : In e es -> In (fst e) ns /\ In (snd e) ns.
  Proof using HW Hns Hpars.
    intros H. unfold es in H. apply in_flat_map in H. destruct H as (c & Hc & H). apply in_map_iff in H. destruct H as (p & <- & Hp). cbn [fst snd].
    pose proof (Permutation_in _ HW Hc) as Hc'. destruct (Hpars c Hc') as (_ & H & _). split; apply nm_in; [apply H, Hp|exact Hc'].
  Qed.
  Let ops := plain_ops ns es.
  Lemma nm_node c : In c V -> node_of ops (id c) = Some (node c).
  Proof using HV HW Hns Hid Hpars. intros H. change (id c) with (n_id (node c)). apply plain_node; [apply nm_ids|apply nm_ends|apply nm_in, H]. Qed.
  Lemma nm_vars : Permutation (net_vars ops) (map id V).
  Proof using HV HW Hns Hid Hpars.
    unfold ops. rewrite plain_vars; [|apply nm_ids|apply nm_ends]. eapply Permutation_trans; [apply Permutation_map, Hns|]. rewrite map_map. apply Permutation_refl.
  Qed.
  Lemma nm_dom c : In c V -> net_dom ops (id c) = vals c.
  Proof using HV HW Hns Hid Hpars. intros H. unfold net_dom. rewrite nm_node by exact H. reflexivity. Qed.
  Lemma nm_cpt c : In c V -> net_cpt ops (id c) = flat_map (F c) (cartesian (map vals (rows c))).
  Proof using HV HW Hns Hid Hpars. intros H. unfold net_cpt. rewrite nm_node by exact H. reflexivity. Qed.
  Lemma nm_par c : In c V -> net_par ops (id c) = map id (pars c).
  Proof using HV HW Hns Hid Hpars.
    intros Hc. unfold ops. rewrite plain_par. rewrite <- (firsts_id (map id (pars c))).
    2:{ destruct (Hpars c Hc) as (N & I & _). apply NoDup_map_inj; [|exact N]. intros x y Hx Hy. apply Hid; auto. }
    f_equal. assert (NW : NoDup W) by (eapply Permutation_NoDup; [apply Permutation_sym, HW|exact HV]).
    assert (Hc' : In c W) by (eapply Permutation_in; [apply Permutation_sym, HW|exact Hc]).
    assert (IW : incl W V) by (intros x Hx; apply (Permutation_in _ HW Hx)).
    unfold es. clear - Hid Hc Hc' NW IW. induction W as [|x t IH]; [destruct Hc'|]. inversion NW as [|? ? N1 N2]; subst. cbn [flat_map]. rewrite filter_app, map_app.
    assert (Hx : In x V) by (apply IW; left; reflexivity).
    assert (G : map (fun e => n_id (fst e)) (filter (fun e => Z.eqb (n_id (snd e)) (id c)) (map (fun p => (node p, node x)) (pars x))) = if string_dec x c then map id (pars c) else []).
    { destruct (string_dec x c) as [->|Ne].
      - generalize (pars c). intros l. induction l as [|p l' IHl]; [reflexivity|]. cbn [map filter snd fst]. replace (n_id (node c)) with (id c) by reflexivity. rewrite Z.eqb_refl. cbn [map fst]. f_equal. exact IHl.
      - generalize (pars x). intros l. induction l as [|p l' IHl]; [reflexivity|]. cbn [map filter snd fst]. replace (n_id (node x)) with (id x) by reflexivity. destruct (Z.eqb_spec (id x) (id c)) as [E|_]; [|exact IHl]. exfalso. apply Ne, Hid; auto. }
    rewrite G. destruct (string_dec x c) as [->|Ne].
    - assert (Z0 : map (fun e => n_id (fst e)) (filter (fun e => Z.eqb (n_id (snd e)) (id c)) (flat_map (fun c => map (fun p => (node p, node c)) (pars c)) t)) = []).
      { clear - N1 IW Hid Hc. induction t as [|y t IH]; [reflexivity|]. cbn [flat_map]. rewrite filter_app, map_app. rewrite IH.
        - rewrite app_nil_r. generalize (pars y). intros l. induction l as [|p l' IHl]; [reflexivity|]. cbn [map filter snd fst]. replace (n_id (node y)) with (id y) by reflexivity. destruct (Z.eqb_spec (id y) (id c)) as [E|_]; [|exact IHl].
          exfalso. apply N1. left. apply Hid; auto. apply IW. right. left. reflexivity.
        - intros z [->|Hz]; apply IW; [left; reflexivity|right; right; exact Hz].
        - intros H. apply N1. right. exact H. }
      rewrite Z0, app_nil_r. reflexivity.
    - destruct Hc' as [->|Hc']; [congruence|]. cbn [List.app]. apply IH; auto. intros z Hz. apply IW. right. exact Hz.
  Qed.

  Lemma nm_map c : In c V -> map vals (rows c) = map (net_dom ops) (map id (rows c)).
  Proof using HV HW Hns Hid Hpars Hrows.
    intros Hc. rewrite map_map. apply map_ext_in. intros p Hp. symmetry. apply nm_dom. destruct (Hpars c Hc) as (_ & I & _). apply I. eapply Permutation_in; [apply Hrows, Hc|exact Hp].
  Qed.
  Lemma nm_rows_ok c : In c V -> forall vs, In vs (cartesian (map (net_dom ops) (map id (rows c)))) -> List.length (F c vs) = List.length (net_dom ops (id c)).
  Proof using HV HW Hns Hid Hpars Hrows HF. intros Hc vs Hvs. rewrite <- nm_map in Hvs by exact Hc. rewrite nm_dom by exact Hc. apply HF; auto. Qed.

  Lemma named_describes : describes ops V id vals pars rows (fun c a => nth (pos (a c) (vals c)) (F c (map a (rows c))) 0%Qc).
  Proof using HV HW Hns Hid Hpars Hrows HF.
    constructor; auto.
    - apply nm_vars.
    - intros c Hc. unfold net_name. rewrite nm_node by exact Hc. reflexivity.
    - apply nm_dom.
    - apply nm_par.
    - intros c Hc. rewrite nm_cpt by exact Hc. rewrite nm_map by exact Hc. apply rows_length, nm_rows_ok, Hc.
    - intros c a Hc Ha. rewrite nm_cpt by exact Hc. rewrite nm_map by exact Hc. rewrite rows_entry; [|apply nm_rows_ok, Hc|exact Ha].
      rewrite nm_dom by exact Hc. rewrite map_map. reflexivity.
  Qed.
  Lemma named_shaped : well_shaped ops.
  Proof using HV HV0 HW Hns Hid Hvals Hpars Hrows HF.
    assert (IV : forall i, In i (net_vars ops) -> exists c, In c V /\ i = id c).
    { intros i Hi. pose proof (Permutation_in _ nm_vars Hi) as H. apply in_map_iff in H. destruct H as (c & <- & Hc). eauto. }
    constructor.
    - intros n Hn. unfold ops in Hn. apply plain_in in Hn; [|apply nm_ends]. pose proof (Permutation_in _ Hns Hn) as H. apply in_map_iff in H. destruct H as (c & <- & _). reflexivity.
    - intros E. pose proof nm_vars as P. rewrite E in P. apply Permutation_nil in P. destruct V; [congruence|discriminate].
    - intros i Hi. destruct (IV i Hi) as (c & Hc & ->). rewrite nm_dom by exact Hc. apply Hvals, Hc.
    - intros i Hi. destruct (IV i Hi) as (c & Hc & ->). rewrite (ds_size _ _ _ _ _ _ _ named_describes c Hc). rewrite nm_par by exact Hc. apply Nat.eq_le_incl. apply size_perm.
      apply Permutation_app_tail, Permutation_map, Permutation_sym, Hrows, Hc.
    - intros i q Hi Hq. destruct (IV i Hi) as (c & Hc & ->). rewrite nm_cpt in Hq by exact Hc. apply in_flat_map in Hq. destruct Hq as (vs & Hvs & Hq). destruct (HF c vs Hc Hvs) as [_ H]. apply H, Hq.
    - intros i Hi. destruct (in_dec Z.eq_dec i (net_vars ops)) as [Y|N].
      + destruct (IV i Y) as (c & Hc & ->). rewrite nm_par in Hi by exact Hc. apply in_map_iff in Hi. destruct Hi as (p & E & Hp). destruct (Hpars c Hc) as (_ & I & L). apply Hid in E; [subst; contradiction|apply I, Hp|exact Hc].
      + apply N. apply (bi_ends _ _ (build_inv ops) i i). exact Hi.
    - assert (E : Permutation (map (net_name ops) (net_vars ops)) V).
      { eapply Permutation_trans; [apply Permutation_map, nm_vars|]. rewrite map_map. rewrite (map_ext_in (fun x => net_name ops (id x)) (fun x => x)); [rewrite map_id; apply Permutation_refl|].
        intros c Hc. apply (ds_name _ _ _ _ _ _ _ named_describes c Hc). }
      eapply Permutation_NoDup; [apply Permutation_sym, E|exact HV].
  Qed.
End Named.
