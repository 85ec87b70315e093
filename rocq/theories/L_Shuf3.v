(** Networks read from JSON with the members of objects in any order (after L_P8). *)
From Verif Require Import Py M_Graph M_Node M_Pptc M_Serde Spec SpecNet SpecEv SpecRe SpecSer L_Base L_PD L_Sums L_Table L_Tree L_Walk L_Forest L_Root L_Good L_Prop L_Init L_Post L_Read
  L_Ids L_Trans L_Elim L_UG L_Tri L_Moral L_Build L_Exact L_Apply L_Net L_Evid L_Hist L_Claims L_Shape L_Shown L_P1 L_Reapply L_Rebuild L_Serde L_P8 L_Csv L_R13 M_Json SpecJson SpecShuf L_Json L_Json2 L_Json3 L_Shuf L_Shuf2.
Open Scope nat_scope.

Section Net.
  Context (N : net) (nm : Z -> string) (b : bbn) (HB : bgood N nm b) (HV : NoDup (vars N)) (HP : forall i, NoDup (par N i))
    (HE : forall p i, In p (par N i) -> In p (vars N) /\ In i (vars N)) (HK : NoDup (dkeys (b_parents b))) (V : list Z) (PV : Permutation V (vars N)).
  Lemma V_nd : NoDup V. Proof using PV HV. apply (Permutation_NoDup (Permutation_sym PV) HV). Qed.
  Lemma V_In x : In x (vars N) -> In x V. Proof using PV. apply (Permutation_in _ (Permutation_sym PV)). Qed.

  Let nf (i : Z) : bnode := new_node i (nm i) (dom N i) (cpt N i).
  Let nd (i : Z) : nodedict := mkND (cpt N i) i (nm i) (dom N i).
  Let tag (i : Z) : pykey := KStr (str_of_Z i).
  Let edges := flat_map (fun p => map (fun pa => (pa, fst p)) (snd p)) (b_parents b).
  Definition saved_ops : list bop := map (fun i => AddNode (nf i)) V ++ map (fun e => AddEdge (nf (fst e)) (nf (snd e))) edges.

  Lemma tagged_nd : NoDup (map tag V).
  Proof. apply NoDup_map_inj; [|apply V_nd]. intros x y _ _. unfold tag. intros E; inversion E. apply str_of_Z_inj; auto. Qed.

  Lemma edges_In pa ch : In (pa, ch) edges -> In pa (par N ch).
  Proof.
    intros H. apply in_flat_map in H. destruct H as [[k l] [H1 H2]]. apply in_map_iff in H2. destruct H2 as [q [E Hq]]. simpl in *. inversion E; subst.
    rewrite <- (bg_par _ _ _ HB). unfold dgets. assert (Ed : dget (b_parents b) ch = Some l) by (apply dget_In_NoDup; auto). rewrite Ed. auto.
  Qed.

  Lemma find_saved i : In i V -> get_either (map (fun i => (tag i, nf i)) V) i = Ok (nf i).
  Proof.
    intros Hi. assert (E : dget (map (fun i => (tag i, nf i)) V) (tag i) = Some (nf i)).
    { apply dget_In_NoDup. { unfold dkeys. rewrite map_map. apply tagged_nd. } apply in_map_iff. exists i; auto. }
    unfold get_either. pose proof E as E'. unfold tag in E' at 2. assert (E0 : dget (map (fun i => (tag i, nf i)) V) (KInt i) = None).
    { apply dget_None. unfold dkeys. rewrite map_map. intros H. apply in_map_iff in H. destruct H as [k [E1 _]]. unfold tag in E1. simpl in E1. discriminate. }
      rewrite E0. unfold dgetE. rewrite E'. auto.
  Qed.

  Lemma restored_build : bbn_from_dict (mkBD (map (fun i => (tag i, nd i)) V) edges) = Ok (build saved_ops).
  Proof.
    unfold bbn_from_dict. cbv zeta. cbn [bd_nodes bd_edges].
    assert (En : map (fun p => (fst p, node_from_dict (snd p))) (map (fun i => (tag i, nd i)) V) = map (fun i => (tag i, nf i)) V). { rewrite map_map. reflexivity. }
    rewrite En. clear En. unfold build, saved_ops. rewrite fold_left_app.
    assert (E1 : fold_left bbn_add_node (dvals (map (fun i => (tag i, nf i)) V)) bbn_empty = fold_left bstep (map (fun i => AddNode (nf i)) V) bbn_empty).
    { unfold dvals. rewrite map_map. simpl. generalize bbn_empty. clear. induction V as [|i l IH]; intros b0; simpl; auto. }
    rewrite E1. generalize (fold_left bstep (map (fun i => AddNode (nf i)) V) bbn_empty).
    assert (He : forall e, In e edges -> In (fst e) V /\ In (snd e) V). { intros [pa ch] H. apply edges_In in H. destruct (HE _ _ H); auto using V_In. }
    revert He. generalize edges. intros l. induction l as [|[pa ch] l IH]; intros He b0; auto. cbn [foldM fst snd].
    destruct (He (pa, ch)) as [H1 H2]; [left; auto|]. simpl in H1, H2. rewrite (find_saved pa H1), (find_saved ch H2). cbn [rbind map fold_left]. apply IH. intros e Hi; apply He; right; auto.
  Qed.

  Lemma saved_mentioned : mentioned saved_ops = map nf (V ++ flat_map (fun e => [fst e; snd e]) edges).
  Proof.
    unfold mentioned, saved_ops. rewrite flat_map_app, map_app. f_equal.
    - clear. induction V; simpl; f_equal; auto.
    - generalize edges. clear. intros l. induction l as [|e l IH]; simpl; f_equal; auto. f_equal; auto.
  Qed.
  Lemma saved_vars : net_vars saved_ops = V.
  Proof.
    unfold net_vars. rewrite saved_mentioned, map_map. unfold nf. simpl. rewrite map_id. apply firsts_app_incl; [apply V_nd|].
    intros x Hx. apply in_flat_map in Hx. destruct Hx as [[pa ch] [H1 H2]]. apply edges_In in H1. destruct (HE _ _ H1). destruct H2 as [<-|[<-|[]]]; auto using V_In.
  Qed.
  Lemma saved_node i : node_of saved_ops i = if mem i V then Some (nf i) else None.
  Proof.
    destruct (mem_spec i V) as [H|H].
    - destruct (node_of saved_ops i) as [n|] eqn:E.
      + destruct (node_of_Some _ _ _ E) as [A1 A2]. rewrite saved_mentioned in A1. apply in_map_iff in A1. destruct A1 as [k [A1 _]]. subst n. simpl in A2. subst k. auto.
      + apply node_of_None in E. rewrite saved_vars in E. contradiction.
    - apply node_of_None. rewrite saved_vars. auto.
  Qed.
  Lemma saved_par i : net_par saved_ops i = par N i.
  Proof.
    unfold net_par, saved_ops. rewrite flat_map_app.
    assert (E1 : flat_map (into i) (map (fun i => AddNode (nf i)) V) = []). { clear. induction V; simpl; auto. }
    rewrite E1. simpl. rewrite <- (firsts_id (par N i)) by apply HP. f_equal. rewrite <- (bg_par _ _ _ HB). unfold edges. clear E1.
    assert (G : forall d, NoDup (dkeys d) -> flat_map (into i) (map (fun e => AddEdge (nf (fst e)) (nf (snd e))) (flat_map (fun p => map (fun pa => (pa, fst p)) (snd p)) d)) = dgets d i).
    { clear. induction d as [|[k l] d IH]; intros Hn; auto. inversion Hn as [|? ? N1 N2]; subst. simpl. rewrite map_app, flat_map_app, IH by auto. unfold dgets. simpl. rewrite map_map. simpl.
      change (eqb i k) with (Z.eqb i k). destruct (Z.eqb_spec i k) as [->|Hne].
      - assert (E : dget d k = None) by (apply dget_None; auto). rewrite E, app_nil_r. clear. induction l as [|x l IH]; auto. simpl. rewrite Z.eqb_refl. simpl. f_equal; auto.
      - assert (E : forall l, flat_map (into i) (map (fun x => AddEdge (nf x) (nf k)) l) = []). { clear -Hne. induction l as [|x l IH]; auto. simpl. destruct (Z.eqb_spec k i); [congruence|]. auto. }
        rewrite E. reflexivity. }
    apply G; auto.
  Qed.
End Net.


Lemma reordered_saved ops V : Permutation V (vars (net_of ops)) -> let b := build ops in
  exists ops', bbn_from_dict (mkBD (map (fun i => (KStr (str_of_Z i), mkND (net_cpt ops i) i (net_name ops i) (net_dom ops i))) V) (bd_edges (bbn_to_dict b))) = Ok (build ops') /\ same_but_order ops ops' /\ net_vars ops' = V.
Proof.
  intros PV b. pose proof (build_good ops) as HB. fold b in HB. pose proof (build_inv ops) as BI.
  assert (HV : NoDup (vars (net_of ops))) by apply firsts_NoDup. assert (HP : forall i, NoDup (par (net_of ops) i)) by (intros; apply firsts_NoDup).
  assert (HE : forall p i, In p (par (net_of ops) i) -> In p (vars (net_of ops)) /\ In i (vars (net_of ops))) by apply (bi_ends _ _ BI).
  assert (HK : NoDup (dkeys (b_parents b))) by apply parents_keys.
  exists (saved_ops (net_of ops) (net_name ops) b V). split.
  - apply (restored_build (net_of ops) (net_name ops) b HB HV HE HK V PV).
  - pose proof (saved_node (net_of ops) (net_name ops) b HB HV HE HK V PV) as SN.
    assert (G : forall i, node_of (saved_ops (net_of ops) (net_name ops) b V) i =
       match node_of ops i with Some n => Some (new_node i (n_name n) (n_values n) (n_probs n)) | None => None end).
    { intros i. rewrite SN. destruct (mem_spec i V) as [H|H].
      - apply (Permutation_in _ PV) in H. unfold net_of, net_name, net_dom, net_cpt. simpl. destruct (node_of ops i) eqn:E; auto. apply node_of_None in E. contradiction.
      - assert (H' : ~ In i (vars (net_of ops))) by (intros Q; apply H; apply (Permutation_in _ (Permutation_sym PV) Q)). apply node_of_None in H'. rewrite H'. auto. }
    pose proof (saved_vars (net_of ops) (net_name ops) b HB HV HE HK V PV) as SV. split; auto. constructor.
    + rewrite SV. exact PV.
    + intros i. apply (saved_par (net_of ops) (net_name ops) b HB HP HK V).
    + intros i. unfold net_dom. rewrite G. destruct (node_of ops i); auto.
    + intros i. unfold net_cpt. rewrite G. destruct (node_of ops i); auto.
    + intros i. unfold net_name. rewrite G. destruct (node_of ops i); auto.
    + intros n Hn. rewrite (saved_mentioned (net_of ops) (net_name ops) b V) in Hn. apply in_map_iff in Hn. destruct Hn as [k [<- _]]. eauto 10.
Qed.
