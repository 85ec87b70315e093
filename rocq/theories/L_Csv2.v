(** Writing a network and reading it back. *)
From Coq Require Import Ascii.
From Verif Require Import Py M_Graph M_Node M_Pptc M_Serde M_Factory M_Csv Spec SpecNet SpecSer SpecCsv L_Base L_Ids L_UG L_Moral L_Serde L_Build L_Table L_P8 L_Plain L_Csv.
Open Scope nat_scope.


Section Rw.
  Context (show : Qc -> string) (read : string -> option Qc) (HF : number_format show read).

  Definition clean_node (n : bnode) : Prop := clean (n_name n) /\ Forall clean (n_values n).
  Lemma shown_clean ps : Forall clean (map show ps).
  Proof using HF. apply Forall_forall. intros s H. apply in_map_iff in H. destruct H as (q & <- & _). apply (HF q). Qed.
  Lemma read_all ps : mapM (fun s => match read s with Some q => Ok q | None => Err ValueError end) (map show ps) = Ok ps.
  Proof using HF. induction ps as [|q ps IH]; [reflexivity|]. cbn [map mapM]. rewrite (proj1 (HF q)). cbn [rbind]. rewrite IH. reflexivity. Qed.

  Lemma node_line_free c n : c <> comma -> c <> bar -> special c -> clean_node n -> free c (node_line show n).
  Proof using HF.
    intros H1 H2 S [N1 N2]. unfold node_line. rewrite !free_app, !free_cons. change ","%char with comma. change "|"%char with bar.
    assert (G : forall l, Forall clean l -> free c (join "," l)). { intros l Hl. apply join_free; [exact H1|]. eapply Forall_impl; [|exact Hl]. intros s Hs. apply clean_free; assumption. }
    repeat split; auto using free_nil, clean_free, int_clean, shown_clean.
  Qed.
  Lemma edge_line_free c e : c <> comma -> special c -> free c (edge_line e).
  Proof.
    intros H1 S. unfold edge_line. rewrite !free_app, !free_cons. change ","%char with comma. repeat split; auto using free_nil, clean_free, int_clean.
    unfold special in S. cbn [In] in S. intros H. destruct (e_t e); cbn [chars In] in H; repeat (destruct H as [<-|H]; [vm_compute in S; lia|]); exact H.
  Qed.

  Lemma node_read n nodes edges : clean_node n ->
    csv_line read (nodes, edges) (node_line show n ++ String nl EmptyString)%string =
    Ok (dset nodes (n_id n) (new_node (n_id n) (n_name n) (n_values n) (n_probs n)), edges).
  Proof using HF.
    intros [N1 N2]. unfold csv_line.
    set (R := String comma (join "," (map show (n_probs n)) ++ String nl EmptyString)).
    set (L := (str_of_Z (n_id n) ++ String comma (n_name n ++ String comma (join "," (n_values n) ++ String comma EmptyString)))%string).
    assert (EL : (node_line show n ++ String nl EmptyString)%string = (L ++ String bar R)%string).
    { unfold node_line, L, R. repeat (rewrite app_assoc_s; cbn [append]). reflexivity. }
    assert (ES : exists x y l, split comma (node_line show n ++ String nl EmptyString)%string = str_of_Z (n_id n) :: n_name n :: x :: y :: l).
    { unfold node_line. repeat (rewrite app_assoc_s; cbn [append]). change ","%char with comma.
      rewrite split_app, split_free, split_app, split_free by auto using clean_free, int_clean, sp_comma. rewrite split_app.
      destruct (split_some comma (join (String comma EmptyString) (n_values n))) as (h & r & E). rewrite E. destruct r as [|y r]; [|do 3 eexists; reflexivity].
      destruct (split_some comma (String "|" (String comma (join (String comma EmptyString) (map show (n_probs n)) ++ String nl EmptyString)))) as (h' & r' & E'). rewrite E'. do 3 eexists; reflexivity. }
    destruct ES as (x & y & l & ES). rewrite ES. cbv beta iota. clear ES x y l. rewrite EL, split_app.
    assert (FL : free bar L).
    { unfold L. rewrite !free_app, !free_cons, !free_app, !free_cons, !free_app, !free_cons. assert (comma <> bar) by discriminate. repeat split; auto using free_nil, clean_free, int_clean, sp_bar.
      apply join_free; [discriminate|]. eapply Forall_impl; [|exact N2]. intros s Hs. apply clean_free; auto using sp_bar. }
    assert (FR : free bar R).
    { unfold R. rewrite free_cons, free_app, free_cons. repeat split; auto using free_nil; try discriminate.
      apply join_free; [discriminate|]. eapply Forall_impl; [|apply shown_clean]. intros s Hs. apply clean_free; auto using sp_bar. }
    rewrite (split_free bar L FL), (split_free bar R FR). cbn [List.app].
    assert (IL : items L = str_of_Z (n_id n) :: n_name n :: n_values n).
    { unfold L. rewrite !items_app, items_nil, items_join, !items_clean, app_nil_r by auto using int_clean. reflexivity. }
    assert (IR : items R = map show (n_probs n)).
    { unfold R. change (String comma ?a) with (EmptyString ++ String comma a)%string. rewrite items_app, items_nil, items_join_nl by apply shown_clean. reflexivity. }
    rewrite IL, IR, int_of_int. cbn [rbind]. rewrite read_all. reflexivity.
  Qed.
  Lemma edge_read e nodes edges : csv_line read (nodes, edges) (edge_line e ++ String nl EmptyString)%string = Ok (nodes, edges ++ [(n_id (e_i e), n_id (e_j e))]).
  Proof.
    unfold csv_line, edge_line. repeat (rewrite app_assoc_s; cbn [append]). change ","%char with comma.
    rewrite split_app, split_free, split_app, split_free by auto using clean_free, int_clean, sp_comma. rewrite split_free. 2:{ destruct (e_t e); cbn; unfold free; cbn [chars In]; intros H; repeat (destruct H as [H|H]; [discriminate|]); exact H. }
    cbn [List.app]. rewrite !int_of_int. reflexivity.
  Qed.

  Lemma nodes_read ns : Forall clean_node ns -> forall nodes edges,
    foldM (csv_line read) (map ended (map (node_line show) ns)) (nodes, edges) =
    Ok (fold_left (fun d n => dset d (n_id n) (new_node (n_id n) (n_name n) (n_values n) (n_probs n))) ns nodes, edges).
  Proof using HF.
    induction 1 as [|n ns Hn Hs IH]; intros nodes edges; [reflexivity|]. cbn [map foldM fold_left]. rewrite node_read by exact Hn. cbn [rbind]. apply IH.
  Qed.
  Lemma edges_read es : forall nodes edges, foldM (csv_line read) (map ended (map edge_line es)) (nodes, edges) = Ok (nodes, edges ++ map (fun e => (n_id (e_i e), n_id (e_j e))) es).
  Proof.
    induction es as [|e es IH]; intros nodes edges; [simpl; rewrite app_nil_r; reflexivity|]. cbn [map foldM]. rewrite edge_read. cbn [rbind]. rewrite IH, <- app_assoc. reflexivity.
  Qed.
End Rw.

Lemma foldM_app {A B} (f : B -> A -> res B) l1 l2 b : foldM f (l1 ++ l2) b = (x <- foldM f l1 b ;; foldM f l2 x).
Proof. revert b. induction l1 as [|a l1 IH]; intros b; [reflexivity|]. cbn [List.app foldM]. destruct (f b a); cbn [rbind]; auto. Qed.

(** ** the edges of a network list the parents in their order *)
Definition ends_of (e : edge bnode) : Z * Z := (n_id (e_i e), n_id (e_j e)).
Definition pair_dec (p q : Z * Z) : {p = q} + {p <> q}.
Proof. decide equality; apply Z.eq_dec. Defined.
Lemma dset_ends (d : list (string * edge bnode)) e :
  (forall k e', In (k, e') d -> e_t e' = DIRECTED /\ k = edge_key n_id e') -> e_t e = DIRECTED ->
  map ends_of (dvals (dset d (edge_key n_id e) e)) =
  if in_dec pair_dec (ends_of e) (map ends_of (dvals d)) then map ends_of (dvals d) else map ends_of (dvals d) ++ [ends_of e].
Proof.
  intros H He. induction d as [|[k e'] d IH]; [reflexivity|]. destruct (H k e' (or_introl eq_refl)) as [T1 T2].
  assert (Q : edge_key n_id e = k <-> ends_of e = ends_of e').
  { rewrite T2. unfold edge_key, ends_of. rewrite He, T1. split; [intros E; apply key_dir_inj in E; f_equal; tauto|intros E; inversion E as [[E1 E2]]; reflexivity]. }
  cbn [dset]. destruct (eqb_spec (edge_key n_id e) k) as [E|E].
  - apply Q in E. clear IH. destruct (in_dec _ _ _) as [_|N]; [|exfalso; apply N; simpl; left; symmetry; exact E]. cbn [dvals map snd]. rewrite E. reflexivity.
  - cbn [dvals map snd]. fold (dvals (dset d (edge_key n_id e) e)). fold (dvals d). rewrite IH by (intros; apply H; right; assumption). clear IH.
    destruct (in_dec pair_dec (ends_of e) (map ends_of (dvals d))) as [I|I]; destruct (in_dec _ _ _) as [J|J]; try reflexivity.
    + exfalso. apply J. simpl. right. exact I.
    + exfalso. destruct J as [J|J]; [symmetry in J; apply Q in J|]; contradiction.
Qed.
Lemma edges_order ops j : map fst (filter (fun p => Z.eqb (snd p) j) (map ends_of (get_edges (b_g (build ops))))) = net_par ops j.
Proof.
  induction ops as [|op ops IH] using rev_ind; [reflexivity|]. rewrite net_par_snoc. unfold build. rewrite fold_left_app. cbn [fold_left]. fold (build ops). pose proof (build_inv ops) as BI.
  destruct op as [n|x y]; cbn [bstep bbn_add_node bbn_add_edge b_g].
  - unfold get_edges. rewrite add_node_edges. exact IH.
  - unfold get_edges, put_edge, add_ends. cbn [g_edges]. rewrite !add_node_edges. rewrite dset_ends; [|apply (bi_key _ _ BI)|reflexivity].
    change (dvals (g_edges (b_g (build ops)))) with (get_edges (b_g (build ops))).
    assert (Hm : In (n_id x, n_id y) (map ends_of (get_edges (b_g (build ops)))) <-> In (n_id x) (net_par ops (n_id y))).
    { split.
      - intros H. apply in_map_iff in H. destruct H as (e & E & H). unfold ends_of in E. inversion E as [[E1 E2]]. apply (bi_edge _ _ BI e H).
      - intros H. destruct (bi_edge2 _ _ BI _ _ H) as (e & H1 & H2 & H3). apply in_map_iff. exists e. unfold ends_of. split; [congruence|exact H1]. }
    unfold vars_add. destruct (in_dec _ _ _) as [H|H]; unfold ends_of at 1 in H; cbn [e_i e_j] in H.
    + rewrite IH. destruct (Z.eqb_spec (n_id y) j) as [<-|]; [|reflexivity]. apply Hm in H. rewrite (proj2 (mem_In _ _) H). reflexivity.
    + rewrite filter_app, map_app, IH. unfold ends_of. cbn [filter snd e_i e_j]. destruct (Z.eqb_spec (n_id y) j) as [<-|]; [|apply app_nil_r].
      rewrite Hm in H. rewrite (proj2 (mem_false _ _) H). reflexivity.
Qed.
Lemma edges_ends ops p : In p (map ends_of (get_edges (b_g (build ops)))) -> In (fst p) (net_vars ops) /\ In (snd p) (net_vars ops).
Proof.
  intros H. apply in_map_iff in H. destruct H as (e & <- & H). apply (bi_ends _ _ (build_inv ops)). apply (bi_edge _ _ (build_inv ops) e H).
Qed.

(** ** the round trip *)
Theorem c21 show read ops : number_format show read -> clean_texts ops ->
  exists ops', from_csv read (to_csv show (build ops)) = Ok (build ops') /\ same_network ops ops'.
Proof.
  intros HF HC. pose proof (build_inv ops) as BI. set (b := build ops) in *.
  assert (Hid : map n_id (get_nodes (b_g b)) = net_vars ops).
  { rewrite <- (bi_ids _ _ BI). unfold get_nodes, dvals, ids, dkeys. rewrite map_map. apply map_ext_in. intros [k n] H. apply (bi_kid _ _ BI k n H). }
  assert (Hof : forall n, In n (get_nodes (b_g b)) -> node_of ops (n_id n) = Some n).
  { intros n H. rewrite <- (bi_get _ _ BI). unfold get_nodes, dvals in H. apply in_map_iff in H. destruct H as ([k m] & E & H). cbn [snd] in E. subst m.
    rewrite (bi_kid _ _ BI k n H). apply dget_In_NoDup; [|exact H]. change (NoDup (ids (b_g b))). rewrite (bi_ids _ _ BI). apply firsts_NoDup. }
  set (fresh := fun n => new_node (n_id n) (n_name n) (n_values n) (n_probs n)).
  set (ns := map fresh (get_nodes (b_g b))).
  assert (Ens : map n_id ns = net_vars ops) by (unfold ns; rewrite map_map; exact Hid).
  assert (ND : NoDup (map n_id ns)) by (rewrite Ens; apply firsts_NoDup).
  assert (Hcl : Forall clean_node (get_nodes (b_g b))).
  { apply Forall_forall. intros n H. assert (Hv : In (n_id n) (net_vars ops)) by (rewrite <- Hid; apply in_map, H). specialize (HC _ Hv). specialize (Hof n H).
    unfold net_name, net_dom in HC. rewrite Hof in HC. destruct HC as [C1 C2]. split; [exact C1|]. apply Forall_forall. exact C2. }
  set (dict := map (fun n => (n_id n, fresh n)) (get_nodes (b_g b))).
  assert (Edv : dvals dict = ns). { unfold dict, dvals, ns. rewrite map_map. reflexivity. }
  assert (Eget : forall i, In i (net_vars ops) -> exists n, dgetE dict i = Ok n /\ In n ns /\ n_id n = i).
  { intros i H. rewrite <- Hid in H. apply in_map_iff in H. destruct H as (n & <- & H). exists (fresh n). split; [|split; [apply in_map, H|reflexivity]].
    assert (G : dget dict (n_id n) = Some (fresh n)); [apply dget_In_NoDup|unfold dgetE; rewrite G; reflexivity].
    - unfold dkeys, dict. rewrite map_map. change (NoDup (map n_id (get_nodes (b_g b)))). rewrite Hid. apply firsts_NoDup.
    - unfold dict. apply in_map_iff. exists n. auto. }
  set (ps := map ends_of (get_edges (b_g b))).
  assert (Ees : forall l, (forall p, In p l -> In (fst p) (net_vars ops) /\ In (snd p) (net_vars ops)) ->
    exists es, mapM (fun e => pa <- dgetE dict (fst e) ;; ch <- dgetE dict (snd e) ;; Ok (pa, ch)) l = Ok es /\
      map (fun e => (n_id (fst e), n_id (snd e))) es = l /\ forall e, In e es -> In (fst e) ns /\ In (snd e) ns).
  { induction l as [|[i k] l IH]; intros Hl; [exists []; repeat split; auto; destruct H|]. destruct (Hl (i, k) (or_introl eq_refl)) as [H1 H2]. cbn [fst snd] in H1, H2.
    destruct (Eget i H1) as (m & M1 & M2 & M3). destruct (Eget k H2) as (m' & M1' & M2' & M3'). destruct IH as (es & I1 & I2 & I3); [intros; apply Hl; right; assumption|].
    exists ((m, m') :: es). cbn [mapM fst snd]. rewrite M1, M1'. cbn [rbind]. rewrite I1. cbn [rbind]. split; [reflexivity|]. split; [cbn [map fst snd]; congruence|].
    intros e [<-|H]; [auto|apply I3, H]. }
  destruct (Ees ps (edges_ends ops)) as (es & E1 & E2 & E3).
  exists (plain_ops ns es). split.
  - unfold from_csv, to_csv.
    assert (Hall : forall c, c <> comma -> c <> bar -> special c -> Forall (free c) (map (node_line show) (get_nodes (b_g b)) ++ map edge_line (get_edges (b_g b)))).
    { intros c C1 C2 S. apply Forall_app. split; apply Forall_forall; intros s Hs; apply in_map_iff in Hs; destruct Hs as (x & <- & Hx).
      - apply (node_line_free show read HF); auto. apply (proj1 (Forall_forall _ _) Hcl x Hx).
      - apply edge_line_free; auto. }
    rewrite universal_id by (apply concat_free; [discriminate|apply Hall; [discriminate|discriminate|apply sp_cr]]).
    rewrite lines_all by (apply Hall; [discriminate|discriminate|apply sp_nl]).
    rewrite map_app, foldM_app, (nodes_read show read HF) by exact Hcl. cbn [rbind]. rewrite edges_read. cbn [rbind List.app fst snd].
    rewrite (fold_dset_nil n_id fresh) by (rewrite Hid; apply firsts_NoDup). fold dict. change (map (fun e => (n_id (e_i e), n_id (e_j e))) (get_edges (b_g b))) with ps.
    rewrite E1. cbn [rbind]. rewrite Edv, assemble_build. reflexivity.
  - assert (Hn : forall i, node_of (plain_ops ns es) i = match node_of ops i with Some n => Some (fresh n) | None => None end).
    { intros i. destruct (node_of ops i) as [n|] eqn:E.
      - assert (Hi : In i (net_vars ops)). { destruct (mem_spec i (net_vars ops)) as [H|H]; [exact H|]. apply node_of_None in H. congruence. }
        rewrite <- Hid in Hi. apply in_map_iff in Hi. destruct Hi as (m & <- & Hm). rewrite (Hof m Hm) in E. inversion E; subst m.
        apply (plain_node ns es ND E3 (fresh n)). apply in_map, Hm.
      - apply node_of_None. rewrite (plain_vars ns es ND E3), Ens. apply node_of_None, E. }
    constructor.
    + rewrite (plain_vars ns es ND E3). exact Ens.
    + intros i. rewrite plain_par, <- (edges_order ops i). fold b ps. rewrite <- E2.
      assert (F : forall l : list (bnode * bnode), map (fun e => n_id (fst e)) (filter (fun e => Z.eqb (n_id (snd e)) i) l) =
        map fst (filter (fun p => Z.eqb (snd p) i) (map (fun e => (n_id (fst e), n_id (snd e))) l))).
      { clear. induction l as [|e l IH]; [reflexivity|]. cbn [filter map snd fst]. destruct (Z.eqb (n_id (snd e)) i); cbn [map fst]; rewrite IH; reflexivity. }
      rewrite F, E2. apply firsts_id. unfold ps, b. rewrite edges_order. apply firsts_NoDup.
    + intros i. unfold net_dom. rewrite Hn. destruct (node_of ops i); reflexivity.
    + intros i. unfold net_cpt. rewrite Hn. destruct (node_of ops i); reflexivity.
    + intros i. unfold net_name. rewrite Hn. destruct (node_of ops i); reflexivity.
    + intros n H. apply (plain_in ns es E3) in H. unfold ns in H. apply in_map_iff in H. destruct H as (m & <- & _). unfold fresh. eauto 10.
Qed.
