(** Restoring a join tree from a dictionary with its members in another order (after L_Serde). *)
From Coq Require Import DecimalString DecimalZ.
From Verif Require Import Py M_Graph M_Node M_Pptc M_Serde Spec SpecNet SpecEv SpecRe SpecSer L_Base L_PD L_Sums L_Table L_Tree L_Walk L_Forest L_Root L_Good L_Prop L_Init L_Post L_Read
  L_Ids L_Trans L_Elim L_UG L_Tri L_Moral L_Build L_Exact L_Apply L_Net L_Evid L_Hist L_Claims L_Shape L_Shown L_P1 L_Reapply L_Rebuild L_Serde.
Open Scope nat_scope.


Lemma dget_perm {K V} `{EqB K} (d d' : list (K * V)) k : Permutation d d' -> NoDup (dkeys d') -> dget d k = dget d' k.
Proof.
  intros P ND. assert (ND0 : NoDup (dkeys d)) by (unfold dkeys; apply (Permutation_NoDup (Permutation_sym (Permutation_map fst P)) ND)).
  destruct (dget d' k) as [v|] eqn:E.
  - apply dget_In_NoDup; auto. apply (Permutation_in _ (Permutation_sym P)). apply dget_In. exact E.
  - apply dget_None in E. apply dget_None. intros Q. apply E. unfold dkeys in *. apply (Permutation_in _ (Permutation_map fst P) Q).
Qed.
Lemma dgets_perm {K V} `{EqB K} (d d' : list (K * list V)) k : Permutation d d' -> NoDup (dkeys d') -> dgets d k = dgets d' k.
Proof. intros P ND. unfold dgets. rewrite (dget_perm d d' k P ND). auto. Qed.

Section Reload.
  Context (N : net) (nm : Z -> string) (HNs : nshape N) (Hnm : NoDup (map nm (vars N))).
  Context (j : jtree) (R : ready N nm j) (SV : saveable j).
  Context (b : bbn) (Hbk : NoDup (dkeys (b_parents b))) (Hbp : forall i, In i (vars N) -> dgets (b_parents b) i = par N i).
  Context (o o' : Ord) (Ho : ord_ok o) (Ho' : ord_ok o') (w : bool).
  Context (ids' : list Z) (Pi : Permutation ids' (jt_bbn_ids j)) (L : list (string * jnode)) (PL : Permutation L (jt_nodes j))
    (B : list (Z * list Z)) (PB : Permutation B (b_parents b)).

  Let ids := jt_bbn_ids j.
  Let nd (i : Z) : nodedict := mkND (cpt N i) i (nm i) (dom N i).
  Let tag (i : Z) : pykey := if w then KStr (str_of_Z i) else KInt i.
  Let pc (c : clique) : clique := mk_clique (zord o 0 (cl_nodes c)).
  Let ps (s : sepset) : sepset := mk_sepset (pc (ss_left s)) (pc (ss_right s)).
  Let desc (n : jnode) : jnodedict :=
    match n with JS s => DSepset (cl_id (ss_left s)) (cl_id (ss_right s)) | JC c => DClique (zord o 0 (cl_nodes c)) end.
  Let dict : jtdict :=
    mkJD (map (fun i => (tag i, nd i)) ids') (map (fun p => (fst p, desc (snd p))) L) (map ss_id (jt_sepsets j))
         (map (fun p => (str_of_Z (fst p), snd p)) B).

  Lemma ids_nd : NoDup ids. Proof. apply bbn_ids_NoDup. Qed.
  Lemma ids'_nd : NoDup ids'. Proof. apply (Permutation_NoDup (Permutation_sym Pi)), bbn_ids_NoDup. Qed.
  Lemma ids'_In i : In i ids' <-> In i ids. Proof. split; apply Permutation_in; [|symmetry]; exact Pi. Qed.
  Lemma ids_var i : In i ids -> In i (vars N). Proof. intros H. apply (rd_ids _ _ _ R). exact H. Qed.
  Lemma tag_inj a c : tag a = tag c -> a = c.
  Proof. unfold tag. destruct w; intros E; inversion E; auto. apply str_of_Z_inj; auto. Qed.
  Lemma tags_nd : NoDup (map tag ids').
  Proof. apply NoDup_map_inj; [|apply ids'_nd]. intros x y _ _. apply tag_inj. Qed.
  Lemma zpp l : Permutation (zord o 0 l) l. Proof. apply Ho. Qed.

  (** ** restoring *)
  Let nf (i : Z) : bnode := new_node i (nm i) (dom N i) (cpt N i).
  Let nodes := map (fun i => (tag i, nf i)) ids'.

  Lemma find_node i : In i ids -> get_either nodes i = Ok (nf i).
  Proof.
    intros Hi. assert (E : dget nodes (tag i) = Some (nf i)).
    { apply dget_In_NoDup. { unfold nodes, dkeys. rewrite map_map. apply tags_nd. } apply in_map_iff. exists i. split; auto. apply ids'_In; auto. }
    unfold get_either. destruct w eqn:Ew.
    - assert (E0 : dget nodes (KInt i) = None).
      { apply dget_None. unfold nodes, dkeys. rewrite map_map. intros H. apply in_map_iff in H. destruct H as [k [E1 _]]. unfold tag in E1. simpl in E1. discriminate. }
      rewrite E0. unfold dgetE. unfold tag in E. rewrite E. auto.
    - unfold tag in E. rewrite E. auto.
  Qed.

  Lemma pc_id c : cl_ok c -> cl_id (pc c) = cl_id c.
  Proof. intros [_ E]. rewrite E. unfold pc, mk_clique. simpl. f_equal. apply isort_Z_unique. apply zpp. Qed.
  Lemma pc_ok c : cl_ok c -> cl_ok (pc c).
  Proof. intros [H E]. split; auto. simpl. apply (Permutation_NoDup (Permutation_sym (zpp _)) H). Qed.
  Lemma pc_nodes c x : In x (cl_nodes (pc c)) <-> In x (cl_nodes c).
  Proof. simpl. split; apply Permutation_in; [|symmetry]; apply zpp. Qed.
  Lemma pc_inter a c : cl_ok a -> Permutation (inter (pc a) (pc c)) (inter a c).
  Proof.
    intros Ha. apply NoDup_Permutation.
    - apply NoDup_filter. apply (pc_ok a Ha).
    - apply NoDup_filter. apply Ha.
    - intros x. rewrite !inter_In, !pc_nodes. tauto.
  Qed.

  Lemma ps_good s : In s (jt_sepsets j) -> sgood (map pc (jt_cliques j)) (ps s) /\ ss_id (ps s) = ss_id s /\ ends (ps s) = ends s /\ slen (ps s) = slen s.
  Proof.
    intros Hs. destruct (sv_good _ SV s Hs) as [a [c [-> [Ha [Hc [Hn Hi]]]]]]. unfold ps. rewrite mk_sepset_left, mk_sepset_right.
    destruct (sv_cl _ SV a Ha) as [Oa _]. destruct (sv_cl _ SV c Hc) as [Oc _]. pose proof (pc_inter a c Oa) as P.
    assert (Hi' : inter (pc a) (pc c) <> []). { intros E. rewrite E in P. apply Permutation_nil in P. auto. }
    split; [|split; [|split]].
    - exists (pc a), (pc c). split; auto. split; [apply in_map; auto|]. split; [apply in_map; auto|]. split; auto. rewrite !pc_id; auto.
    - rewrite !mk_sepset_id by auto. f_equal. f_equal; [|f_equal]; apply isort_Z_unique; auto; apply zpp.
    - unfold ends. rewrite !mk_sepset_left, !mk_sepset_right, !pc_id; auto.
    - unfold slen. rewrite !mk_sepset_nodes. apply Permutation_length; auto.
  Qed.

  Lemma cids_nd : NoDup (map cl_id (jt_cliques j)).
  Proof. pose proof (jg_ids_NoDup j (rd_JG _ _ _ R)) as H. clear -H. induction (map cl_id (jt_cliques j)); [constructor|]. inversion H; subst. constructor; auto. rewrite in_app_iff in *; tauto. Qed.
  Lemma sids_nd : NoDup (map ss_id (jt_sepsets j)).
  Proof. pose proof (jg_ids_NoDup j (rd_JG _ _ _ R)) as H. clear -H. induction (map cl_id (jt_cliques j)); auto. inversion H; auto. Qed.

  Lemma jn_clique k c : In (k, JC c) (jt_nodes j) -> In c (jt_cliques j). Proof. intros H. apply jt_cliques_In. eauto. Qed.
  Lemma jn_sepset k s : In (k, JS s) (jt_nodes j) -> In s (jt_sepsets j). Proof. intros H. apply jt_sepsets_In. eauto. Qed.

  Let CL := flat_map (fun n => match n with JC c => [c] | JS _ => [] end) (dvals L).
  Let SL := flat_map (fun n => match n with JS s => [s] | JC _ => [] end) (dvals L).
  Lemma CL_perm : Permutation CL (jt_cliques j). Proof. unfold CL, jt_cliques. apply Permutation_flat_map. unfold dvals. apply Permutation_map. exact PL. Qed.
  Lemma SL_perm : Permutation SL (jt_sepsets j). Proof. unfold SL, jt_sepsets. apply Permutation_flat_map. unfold dvals. apply Permutation_map. exact PL. Qed.
  Lemma CL_nd : NoDup (map cl_id CL). Proof. apply (Permutation_NoDup (Permutation_sym (Permutation_map cl_id CL_perm))), cids_nd. Qed.
  Lemma SL_nd : NoDup (map ss_id SL). Proof. apply (Permutation_NoDup (Permutation_sym (Permutation_map ss_id SL_perm))), sids_nd. Qed.
  Let cdict := map (fun c => (cl_id c, pc c)) CL.
  Let sdict := map (fun s => (ss_id s, ps s)) SL.

  Lemma node_list c : In c (jt_cliques j) -> mapM (get_either nodes) (zord o 0 (cl_nodes c)) = Ok (map nf (zord o 0 (cl_nodes c))).
  Proof.
    intros Hc. apply mapM_all. intros i Hi. apply find_node. unfold ids, jt_bbn_ids. apply sof_In. apply in_flat_map. exists c. split; auto. apply (Permutation_in _ (zpp _) Hi).
  Qed.

  Lemma restore_cliques : foldM (fun m p => match snd p with
                               | DClique ids => ns <- mapM (get_either nodes) ids ;; let c := mk_clique (map n_id ns) in Ok (dset m (cl_id c) c)
                               | DSepset _ _ => Ok m end) (map (fun p => (fst p, desc (snd p))) L) [] = Ok cdict.
  Proof.
    rewrite foldM_map. set (pick := fun p : string * jnode => match snd p with JC c => [(cl_id c, pc c)] | JS _ => [] end).
    assert (E : flat_map pick L = cdict).
    { unfold cdict, CL, dvals. clear. induction L as [|[k n] l IH]; auto. simpl. rewrite IH. destruct n; auto. }
    rewrite (foldM_pick _ pick).
    - simpl. rewrite E. auto.
    - intros d [k n] Hn. simpl. unfold pick. simpl. destruct n as [c|s]; simpl; auto. pose proof (jn_clique _ _ (Permutation_in _ PL Hn)) as Hc. rewrite (node_list c Hc). cbn [rbind]. rewrite map_map. unfold nf. simpl. rewrite map_id.
      fold (pc c). rewrite <- (pc_id c) by (apply (sv_cl _ SV c Hc)). reflexivity.
    - intros [k n] _. eexists. split; [reflexivity|]. unfold pick. simpl. destruct n; simpl; auto.
    - simpl. rewrite E. unfold cdict, dkeys. rewrite map_map. simpl. apply CL_nd.
  Qed.

  Lemma find_clique c : In c (jt_cliques j) -> dgetE cdict (cl_id c) = Ok (pc c).
  Proof.
    intros Hc. apply dgetE_Ok. apply dget_In_NoDup. { unfold cdict, dkeys. rewrite map_map. apply CL_nd. } apply in_map_iff. exists c. split; auto. apply (Permutation_in _ (Permutation_sym CL_perm) Hc).
  Qed.
  Lemma restore_seps : foldM (fun m p => match snd p with
                            | DSepset l r => a <- dgetE cdict l ;; c <- dgetE cdict r ;; let s := mk_sepset a c in Ok (dset m (ss_id s) s)
                            | DClique _ => Ok m end) (map (fun p => (fst p, desc (snd p))) L) [] = Ok sdict.
  Proof.
    rewrite foldM_map. set (pick := fun p : string * jnode => match snd p with JS s => [(ss_id s, ps s)] | JC _ => [] end).
    assert (E : flat_map pick L = sdict).
    { unfold sdict, SL, dvals. clear. induction L as [|[k n] l IH]; auto. simpl. rewrite IH. destruct n; auto. }
    rewrite (foldM_pick _ pick).
    - simpl. rewrite E. auto.
    - intros d [k n] Hn. simpl. unfold pick. simpl. destruct n as [c|s]; simpl; auto. pose proof (jn_sepset _ _ (Permutation_in _ PL Hn)) as Hs. destruct (jg_ends _ (rd_JG _ _ _ R) s Hs) as [H1 [H2 _]].
      rewrite !find_clique by auto. cbn [rbind]. fold (ps s). destruct (ps_good s Hs) as [_ [E1 _]]. rewrite E1. reflexivity.
    - intros [k n] _. eexists. split; [reflexivity|]. unfold pick. simpl. destruct n; simpl; auto.
    - simpl. rewrite E. unfold sdict, dkeys. rewrite map_map. simpl. apply SL_nd.
  Qed.

  Lemma restore_edges : mapM (dgetE sdict) (map ss_id (jt_sepsets j)) = Ok (map ps (jt_sepsets j)).
  Proof.
    rewrite mapM_map. apply mapM_all. intros s Hs. apply dgetE_Ok. apply dget_In_NoDup. { unfold sdict, dkeys. rewrite map_map. apply SL_nd. } apply in_map_iff. exists s. split; auto. apply (Permutation_in _ (Permutation_sym SL_perm) Hs).
  Qed.
  Lemma restore_heap : fold_left (fun h p => dset h (n_id (snd p)) (snd p)) nodes [] = map (fun i => (i, nf i)) ids'.
  Proof.
    rewrite (fold_dset_nil (fun p : pykey * bnode => n_id (snd p)) (fun p => snd p)).
    - unfold nodes. rewrite map_map. reflexivity.
    - unfold nodes. rewrite map_map. simpl. rewrite map_id. apply ids'_nd.
  Qed.
  Lemma restore_pinfo : foldM (fun m p => k <- int_of_str (fst p) ;; Ok (dset m k (snd p))) (map (fun p => (str_of_Z (fst p), snd p)) B) [] = Ok B.
  Proof.
    assert (E : flat_map (fun p => [p]) B = B). { clear. induction B; simpl; f_equal; auto. }
    rewrite foldM_map. rewrite (foldM_pick _ (fun p => [p])).
    - simpl. rewrite E. auto.
    - intros d [k v] _. simpl. rewrite int_of_str_of. reflexivity.
    - intros a _. eexists. split; [reflexivity|]. simpl. auto.
    - simpl. rewrite E. unfold dkeys. apply (Permutation_NoDup (Permutation_sym (Permutation_map fst PB)) Hbk).
  Qed.

  Let h' := map (fun i => (i, nf i)) ids'.
  Let cs' := map pc (jt_cliques j).

  Lemma cs_ok : forall c, In c cs' -> cl_ok c.
  Proof. intros c Hc. apply in_map_iff in Hc. destruct Hc as [d [<- Hd]]. apply pc_ok. apply (sv_cl _ SV d Hd). Qed.
  Lemma cs_ids : map cl_id cs' = map cl_id (jt_cliques j).
  Proof. unfold cs'. rewrite map_map. apply map_ext_in. intros c Hc. apply pc_id. apply (sv_cl _ SV c Hc). Qed.
  Lemma cs_nd : NoDup (map cl_id cs'). Proof. rewrite cs_ids. apply cids_nd. Qed.
  Lemma ps_forest : map ends (rev (map ps (jt_sepsets j))) = map ends (rev (jt_sepsets j)).
  Proof. rewrite <- map_rev, map_map. apply map_ext_in. intros s Hs. apply in_rev in Hs. apply (ps_good s Hs). Qed.
  Lemma nodup_id {A0 B0} (f : A0 -> B0) l : NoDup (map f l) -> NoDup l.
  Proof. induction l as [|a l IH]; intros H; [constructor|]. inversion H; subst. constructor; auto. intros Ha. apply H2. apply in_map; auto. Qed.

  Lemma kept_incl c : In c (kept j) -> In c (jt_cliques j).
  Proof. unfold kept. destruct (jt_sepsets j); auto. intros H. apply filter_In in H. apply H. Qed.
  Lemma kept_nd : NoDup (map cl_id (kept j)).
  Proof.
    assert (G : forall (f : clique -> bool) l, NoDup (map cl_id l) -> NoDup (map cl_id (filter f l))).
    { intros f l. induction l as [|a l IH]; intros H; simpl; auto. inversion H; subst. destruct (f a); simpl; auto. constructor; auto. intros Q. apply H2. apply in_map_iff in Q. destruct Q as [z [Ez Hz]].
      apply filter_In in Hz. apply in_map_iff. exists z. split; auto. apply Hz. }
    unfold kept. destruct (jt_sepsets j); [apply cids_nd|apply G, cids_nd].
  Qed.
  Lemma kept_In c : jt_sepsets j <> [] -> In c (kept j) <-> In c (jt_cliques j) /\ exists s, In s (jt_sepsets j) /\ (c = ss_left s \/ c = ss_right s).
  Proof.
    intros Hne. unfold kept. destruct (jt_sepsets j) as [|s0 L0] eqn:Es; [congruence|]. rewrite <- Es. rewrite filter_In, existsb_exists. split; intros [Hc [s [Hs Hx]]]; split; auto; exists s; split; auto; destruct (jg_ends _ (rd_JG _ _ _ R) s Hs) as [H1 [H2 _]].
    - unfold touch in Hx. apply orb_true_iff in Hx. destruct Hx as [Hx|Hx]; apply eqb_true in Hx; [left|right]; apply (id_inj (jt_cliques j)); auto using cids_nd.
    - unfold touch. apply orb_true_iff. destruct Hx as [-> | ->]; [left|right]; apply eqb_refl.
  Qed.
  Lemma kept_covered : covered j -> kept j = jt_cliques j.
  Proof.
    intros [E|C]; [unfold kept; rewrite E; auto|]. 
    assert (G : forall l, incl l (jt_cliques j) -> filter (fun c => existsb (touch c) (jt_sepsets j)) l = l).
    { induction l as [|a l IH]; intros Hl; simpl; auto. destruct (C a) as [s [Hs Hx]]; [apply Hl; left; auto|].
      assert (Q : existsb (touch a) (jt_sepsets j) = true). { apply existsb_exists. exists s. split; auto. unfold touch. apply orb_true_iff. destruct Hx as [-> | ->]; [left|right]; apply eqb_refl. }
      rewrite Q. f_equal. apply IH. intros y Hy; apply Hl; right; auto. }
    unfold kept. pose proof (G _ (incl_refl _)) as Q. destruct (jt_sepsets j); auto.
  Qed.

  Definition restored (j' : jtree) : Prop :=
    JG j' /\ Permutation (jt_cliques j') (map pc (kept j)) /\ jt_sepsets j' = map ps (jt_sepsets j) /\
    jt_edges j' = map (fun s => (jt_edge_key s, s)) (jt_sepsets j') /\ jt_heap j' = h'.

  Lemma rebuilt : exists j', (match map ps (jt_sepsets j) with
       | [] => Ok (set_jnodes (jt_empty h') (map (fun p => (fst p, JC (snd p))) cdict))
       | _ => foldM (jt_add_edge o') (map ps (jt_sepsets j)) (jt_empty h')
       end) = Ok j' /\ restored j'.
  Proof.
    destruct (jt_sepsets j) as [|s0 L0] eqn:Es.
    - eexists. split; [reflexivity|]. unfold restored. set (j' := set_jnodes _ _).
      assert (Ek : dkeys (jt_nodes j') = map cl_id CL). { unfold j', cdict, dkeys. simpl. rewrite !map_map. auto. }
      assert (Ec : jt_cliques j' = map pc CL).
      { assert (G : forall l, flat_map (fun n => match n with JC c => [c] | JS _ => [] end) (map (fun c => JC (pc c)) l) = map pc l). { intros l. induction l as [|a l IH]; auto. simpl. rewrite IH. auto. }
        unfold j'. rewrite <- G. unfold jt_cliques at 1. f_equal. unfold dvals, cdict. cbn [jt_nodes set_jnodes]. rewrite !map_map. reflexivity. }
      assert (Ess : jt_sepsets j' = []). { unfold j', jt_sepsets, dvals, cdict. simpl. rewrite !map_map. simpl. clear. induction CL; simpl; auto. }
      split; [|split; [rewrite Ec; unfold kept; rewrite Es; apply Permutation_map, CL_perm|split; [rewrite Es; exact Ess|split; [rewrite Ess; reflexivity|reflexivity]]]].
      constructor.
      + rewrite Ek. apply CL_nd.
      + intros k n Hn. unfold j', cdict in Hn. simpl in Hn. rewrite map_map in Hn. apply in_map_iff in Hn. destruct Hn as [c [E Hc]]. simpl in E. inversion E; subst. simpl. symmetry. apply (pc_id c). apply (sv_cl _ SV c (Permutation_in _ CL_perm Hc)).
      + intros s Hs. rewrite Ess in Hs. destruct Hs.
      + intros s Hs. rewrite Ess in Hs. destruct Hs.
      + intros c Hc. rewrite Ess. simpl. auto.
      + exists []. rewrite Ess. split; auto. constructor.
      + intros c Hc. rewrite Ec in Hc. apply (cs_ok c). apply (Permutation_in _ (Permutation_map pc CL_perm) Hc).
      + intros s Hs. rewrite Ess in Hs. destruct Hs.
    - rewrite <- Es. assert (Hne : map ps (jt_sepsets j) <> []) by (rewrite Es; discriminate).
      assert (Hg : forall s, In s (map ps (jt_sepsets j)) -> sgood cs' s). { intros s Hs. apply in_map_iff in Hs. destruct Hs as [t [<- Ht]]. apply (ps_good t Ht). }
      assert (Hf : forest (map ends (rev (map ps (jt_sepsets j))))). { rewrite ps_forest. apply (sv_forest _ SV). }
      destruct (rebuild cs' cs_ok cs_nd o' Ho' h' _ Hg Hf) as [j1 [ns [E [T I]]]].
      exists (set_jnodes j1 ns). split. { destruct (map ps (jt_sepsets j)); [congruence|exact E]. }
      destruct (rebuilt_good cs' cs_ok cs_nd h' _ _ _ T I Hf) as [G1 [G2 [G3 G4]]].
      split; auto. split; [|split; [auto|split; [rewrite G2; auto|apply (ti_heap _ _ _ _ T)]]].
      apply NoDup_Permutation.
      + apply (nodup_id cl_id). pose proof (jg_ids_NoDup _ G1) as H. clear -H. induction (map cl_id (jt_cliques (set_jnodes j1 ns))); [constructor|]. inversion H; subst. constructor; auto. rewrite in_app_iff in *; tauto.
      + apply (nodup_id cl_id). rewrite map_map, (map_ext_in _ cl_id). { apply kept_nd. } intros d Hd. apply pc_id, (sv_cl _ SV), kept_incl; auto.
      + intros c. rewrite G4. split.
        * intros [s [Hs Hx]]. apply in_map_iff in Hs. destruct Hs as [t [<- Ht]]. destruct (jg_ends _ (rd_JG _ _ _ R) t Ht) as [H1 [H2 _]]. unfold ps in Hx. rewrite mk_sepset_left, mk_sepset_right in Hx.
          destruct Hx as [-> | ->]; apply in_map; (apply kept_In; [rewrite Es; discriminate|]); split; auto; exists t; auto.
        * intros Hc. apply in_map_iff in Hc. destruct Hc as [d [<- Hd]]. apply kept_In in Hd; [|rewrite Es; discriminate]. destruct Hd as [Hd [s [Hs Hx]]]. exists (ps s). split; [apply in_map; auto|].
          unfold ps. rewrite mk_sepset_left, mk_sepset_right. destruct Hx as [-> | ->]; auto.
  Qed.

  Lemma restored_ready j' : covered j -> restored j' -> ready N nm (set_jpinfo j' B) /\ saveable j' /\ (jconn j -> jconn j').
  Proof.
    intros CV [G1 [G2 [G3 [G4 G5]]]]. rewrite (kept_covered CV) in G2. fold cs' in G2.
    assert (Hc : forall c, In c (jt_cliques j') <-> exists d, In d (jt_cliques j) /\ c = pc d).
    { intros c. split.
      - intros H. apply (Permutation_in _ G2) in H. apply in_map_iff in H. destruct H as [d [<- Hd]]. eauto.
      - intros [d [Hd ->]]. apply (Permutation_in _ (Permutation_sym G2)). apply in_map; auto. }
    assert (Hi : forall i, In i (jt_bbn_ids j') <-> In i ids).
    { intros i. unfold ids, jt_bbn_ids. rewrite !sof_In, !in_flat_map. split.
      - intros [c [H1 H2]]. apply Hc in H1. destruct H1 as [d [Hd ->]]. exists d. split; auto. apply pc_nodes; auto.
      - intros [d [H1 H2]]. exists (pc d). split; [apply Hc; eauto|]. apply pc_nodes; auto. }
    split; [|split].
    - constructor.
      + destruct G1; constructor; auto.
      + change (jcount j'). unfold jcount. rewrite G3. rewrite (Permutation_list_sum _ _ (Permutation_map clen G2)). unfold cs'. rewrite !map_map.
        rewrite (map_ext_in _ slen). 2:{ intros s Hs. apply (ps_good s Hs). }
        rewrite (map_ext (fun x => clen (pc x)) clen). 2:{ intros c. unfold clen. simpl. apply Permutation_length, zpp. }
        rewrite (Permutation_length (l := jt_bbn_ids j') (l' := ids)).
        * apply (rd_cnt _ _ _ R).
        * apply NoDup_Permutation; [apply bbn_ids_NoDup|apply ids_nd|apply Hi].
      + intros i. change (In i (jt_bbn_ids j') <-> In i (vars N)). rewrite Hi. apply (rd_ids _ _ _ R).
      + intros E. change (jt_cliques j' = []) in E. rewrite E in G2. apply Permutation_nil in G2. apply (rd_ne _ _ _ R). unfold cs' in G2. apply map_eq_nil in G2. auto.
      + intros i Hiv. simpl. rewrite <- Hbp by auto. apply dgets_perm; auto.
      + intros i Hiv. exists (nf i). simpl. rewrite G5. split; [|repeat split; auto; discriminate].
        apply dget_In_NoDup. { unfold h', dkeys. rewrite map_map. simpl. rewrite map_id. apply ids'_nd. } apply in_map_iff. exists i. split; auto. apply ids'_In. apply (rd_ids _ _ _ R); auto.
      + intros i Hiv. destruct (rd_fam _ _ _ R i Hiv) as [c [H1 H2]]. exists (pc c). split; [apply Hc; eauto|]. intros x Hx. apply pc_nodes. auto.
    - constructor; auto.
      + intros s Hs. rewrite G3 in Hs. apply in_map_iff in Hs. destruct Hs as [t [<- Ht]]. destruct (ps_good t Ht) as [[a [d [E [Ha [Hd Hx]]]]] _]. exists a, d. split; auto.
        split; [apply (Permutation_in _ (Permutation_sym G2)); auto|]. split; auto. apply (Permutation_in _ (Permutation_sym G2)); auto.
      + intros c H. apply Hc in H. destruct H as [d [Hd ->]]. split; auto. apply pc_ok. apply (sv_cl _ SV d Hd).
      + rewrite G3, ps_forest. apply (sv_forest _ SV).
    - intros J c d H1 H2. apply Hc in H1. apply Hc in H2. destruct H1 as [c' [H1 ->]], H2 as [d' [H2 ->]]. rewrite !pc_id by (apply (sv_cl _ SV); auto).
      assert (Ee : map ends (jt_sepsets j') = map ends (jt_sepsets j)). { rewrite G3, map_map. apply map_ext_in. intros s Hs. apply (ps_good s Hs). }
      rewrite Ee. apply J; auto.
  Qed.


  Theorem shuf_steps : exists j1, jt_from_dict o' dict = Ok (set_jpinfo j1 B) /\ restored j1.
  Proof.
    unfold jt_from_dict. cbv zeta.
    assert (En : map (fun p => (fst p, node_from_dict (snd p))) (jd_bbn dict) = nodes). { unfold dict. cbn [jd_bbn]. rewrite map_map. reflexivity. }
    rewrite En. unfold dict. cbn [jd_nodes jd_edges jd_pinfo].
    pose proof restore_cliques as Q1. cbv zeta in Q1. pose proof restore_seps as Q2. cbv zeta in Q2.
    rewrite Q1. cbn [rbind]. rewrite Q2. cbn [rbind]. rewrite restore_edges. cbn [rbind]. rewrite restore_heap. fold h'.
    destruct rebuilt as [j1 [F1 F2]]. rewrite F1. cbn [rbind]. rewrite restore_pinfo. cbn [rbind]. exists j1. auto.
  Qed.
  Theorem shuf_live : covered j -> exists j', (j1 <- jt_from_dict o' dict ;; apply_from_serde o' j1) = Ok j' /\ live N nm no_evidence j' /\ carries N j' /\ saveable j' /\ (jconn j -> jconn j').
  Proof.
    intros CV. destruct shuf_steps as [j1 [F1 F2]]. rewrite F1. cbn [rbind].
    destruct (restored_ready j1 CV F2) as [R1 [S1 J1]]. destruct (serde_live N nm HNs Hnm o' _ Ho' R1) as [j2 [A1 [A2 [A3 [A4 A5]]]]].
    exists j2. split; auto. split; auto. split; auto. split.
    - apply saveable_ext with j1; auto.
    - intros J. apply jconn_ext with j1; auto.
  Qed.
End Reload.
