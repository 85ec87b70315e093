(** What the samples contain. *)
From Verif Require Import Py M_Graph M_Node M_Sampling Spec SpecNet SpecPot SpecSamp SpecRun SpecWhole L_Base L_Sums L_Table L_Net L_Build L_P4 L_Samp L_Samp2 L_P5 L_Samp3 L_Kept.
Open Scope nat_scope.

Lemma nthE_In {A} (l : list A) k x : nthE l k = Ok x -> In x l.
Proof. unfold nthE. destruct (nth_error l k) eqn:E; [|discriminate]. intros H; injection H as <-. eapply nth_error_In; eauto. Qed.
Lemma get_value_In t u d x : get_value t u d = Ok x -> In x (n_values (tb_node t)).
Proof.
  unfold get_value. destruct (tb_probs t) as [l|k].
  - destruct (bisect l u); [|discriminate]. cbn [rbind]. apply nthE_In.
  - destruct (mapM _ _); [|discriminate]. cbn [rbind]. destruct (dgetE k _) as [l|]; [|discriminate]. cbn [rbind]. destruct (bisect l u); [|discriminate]. cbn [rbind]. apply nthE_In.
Qed.
Lemma mk_table_node n ps t : mk_table n ps = Ok t -> tb_node t = n /\ tb_pids t = map n_id ps.
Proof.
  unfold mk_table. destruct ps as [|p ps]. { intros E. injection E as <-. auto. }
  destruct (Nat.eqb (List.length (n_values n)) 0); [discriminate|]. intros E. injection E as <-. auto.
Qed.
Lemma get_tables_node b d : get_tables b = Ok d -> forall v t, dget d v = Some t -> In (tb_node t) (get_nodes (b_g b)) /\ n_id (tb_node t) = v.
Proof.
  unfold get_tables. intros E. set (P := fun d : list (Z * table) => forall v t, dget d v = Some t -> In (tb_node t) (get_nodes (b_g b)) /\ n_id (tb_node t) = v).
  assert (G : forall l d0 d, incl l (get_nodes (b_g b)) -> P d0 -> foldM (fun d n => ps <- mapM (get_node (b_g b)) (get_parents_ordered b (n_id n)) ;; t <- mk_table n ps ;; Ok (dset d (n_id n) t)) l d0 = Ok d -> P d).
  { clear E. induction l as [|n l IH]; intros d0 d1 Hi H0 E; cbn [foldM] in E. { injection E as <-; auto. }
    destruct (mapM _ _) as [ps|]; cbn [rbind] in E; [|discriminate]. destruct (mk_table n ps) as [t|] eqn:Et; cbn [rbind] in E; [|discriminate].
    eapply IH; [| |exact E]. { intros x Hx; apply Hi; right; auto. } intros v t' Hv. rewrite dget_dset in Hv. destruct (eqb_spec v (n_id n)) as [->|]; [injection Hv as <-|eapply H0; eauto].
    rewrite (proj1 (mk_table_node _ _ _ Et)). split; auto. apply Hi; left; auto. }
  eapply G; [apply incl_refl| |exact E]. intros v t Hv; discriminate.
Qed.

Lemma walk_values tables ev (dm : Z -> list string) l : (forall v t, dget tables v = Some t -> n_values (tb_node t) = dm v) ->
  forall d r, sample_walk tables ev d l = Ok r -> (forall i x, dget d i = Some x -> In x (dm i)) -> (forall i x, dget ev i = Some x -> dget d i = Some x) ->
    (forall i x, dget r i = Some x -> In x (dm i)) /\ (forall i x, dget ev i = Some x -> dget r i = Some x).
Proof.
  intros HT. induction l as [|[u v] l IH]; intros d r E Hd He. { injection E as <-. auto. }
  cbn [sample_walk] in E. destruct (dgetE tables v) as [t|] eqn:Et; [|discriminate]. cbn [rbind] in E. destruct (get_value t u d) as [x|] eqn:Ex; [|discriminate]. cbn [rbind] in E.
  assert (Hx : In x (dm v)). { rewrite <- (HT v t). eapply get_value_In; eauto. unfold dgetE in Et. destruct (dget tables v); congruence. }
  assert (Go : (forall e, dget ev v = Some e -> x = e) -> sample_walk tables ev (dset d v x) l = Ok r ->
    (forall i x, dget r i = Some x -> In x (dm i)) /\ (forall i x, dget ev i = Some x -> dget r i = Some x)).
  { intros Hxe E'. apply (IH _ _ E').
    - intros i y Hy. rewrite dget_dset in Hy. destruct (eqb_spec i v) as [->|]; [injection Hy as <-; auto|eauto].
    - intros i y Hy. rewrite dget_dset. destruct (eqb_spec i v) as [->|]; [rewrite (Hxe y Hy); auto|eauto]. }
  destruct (dget ev v) as [e|] eqn:Ee; [|apply Go; auto; discriminate]. destruct (eqb_spec x e) as [->|]; [apply Go; auto; congruence|]. injection E as <-. auto.
Qed.

Lemma loop_all s ev n (P : sample -> Prop) draws : (forall us d, sample_once s ev us = Ok d -> List.length d = List.length (sp_nodes s) -> P d) ->
  forall acc l, Forall P acc -> samples_loop s ev n draws acc = Ok l -> Forall P l /\ List.length l = n.
Proof.
  intros H. induction draws as [|us draws IH]; intros acc l Ha E; [discriminate|]. cbn [samples_loop] in E. destruct (sample_once s ev us) as [d|] eqn:Ed; [|discriminate]. cbn [rbind] in E.
  assert (Ha' : Forall P (if Nat.eqb (List.length d) (List.length (sp_nodes s)) then acc ++ [d] else acc)).
  { destruct (Nat.eqb_spec (List.length d) (List.length (sp_nodes s))); auto. apply Forall_app. split; auto. constructor; eauto. }
  match type of E with context [Nat.eqb (List.length ?x) n] => set (acc' := x) in * end. destruct (Nat.eqb_spec (List.length acc') n) as [En|]; [|eauto]. injection E as <-. auto.
Qed.

Lemma tables_dom srt ops s : logic_sampler srt (build ops) = Ok s -> forall v t, dget (sp_tables s) v = Some t -> n_values (tb_node t) = net_dom ops v.
Proof.
  intros E v t Ht. unfold logic_sampler in E. destruct (get_tables (build ops)) as [d|] eqn:Ed; [|discriminate]. cbn [rbind] in E. injection E as <-. simpl in Ht.
  destruct (get_tables_node _ _ Ed v t Ht) as [H1 <-]. unfold get_nodes, dvals in H1. apply in_map_iff in H1 as ([k n] & Ek & Hk). simpl in Ek. subst n.
  assert (Hg : dget (g_nodes (b_g (build ops))) k = Some (tb_node t)). { apply In_dget; auto. pose proof (bi_ids _ _ (build_inv ops)) as Hids; unfold L_UG.ids in Hids; rewrite Hids; apply firsts_NoDup. }
  rewrite (bi_get _ _ (build_inv ops)) in Hg. unfold net_dom. destruct (node_of_Some _ _ _ Hg) as [_ Hid]. rewrite Hid, Hg. auto.
Qed.

Lemma c88 : forall srt ops s, sorter_ok srt -> let N := net_of ops in logic_sampler srt (build ops) = Ok s ->
  forall ev n draws l, evidence_on N ev -> possible_values N ev -> get_samples s ev n draws = Ok l ->
    List.length l = n /\ Forall (fun d => whole N d /\ fits ev d) l.
Proof.
  intros srt ops s K N E ev n draws l [E1 E2] Hp El. unfold N in *. clear N.
  destruct (loop_all s ev n (fun d => whole (net_of ops) d /\ fits ev d) draws) with (acc := @nil sample) (l := l) as [H1 H2]; auto.
  intros us d Ed Hl. unfold sample_once in Ed. destruct (walk_keys _ _ _ _ _ Ed E1) as (K1 & K2 & _).
  destruct (walk_values _ _ _ _ (tables_dom srt ops s E) _ _ Ed) as [V1 V2]; auto.
  assert (Hi : incl (dkeys d) (sp_nodes s)).
  { intros v Hv. apply K2, in_app_or in Hv as [Hv|Hv]; [eapply Permutation_in; [symmetry; apply (sampler_perm srt ops s K E)|apply E2; auto]|].
    apply in_map_iff in Hv as ([u w] & <- & Hw). eapply in_combine_r; eauto. }
  split; [|exact V2]. split; auto. split; auto. intros i. split.
  - intros H. eapply Permutation_in; [apply (sampler_perm srt ops s K E)|auto].
  - intros H. apply (proj1 (full_length srt ops s K E d K1 Hi) Hl). eapply Permutation_in; [symmetry; apply (sampler_perm srt ops s K E)|auto].
Qed.

(** ** evidence on what is no variable of the network *)
Lemma walk_unknown tables ev l (vs : list Z) : (forall v t, In v vs -> dget tables v = Some t -> incl (tb_pids t) vs) -> incl (map snd l) vs -> (forall v, In v vs -> dget ev v = None) ->
  forall d d', (forall v, In v vs -> dget d v = dget d' v) ->
  match sample_walk tables [] d' l with
  | Ok r' => exists r, sample_walk tables ev d l = Ok r /\ (forall v, In v vs -> dget r v = dget r' v)
  | Err x => sample_walk tables ev d l = Err x
  end.
Proof.
  intros HT Hl He. induction l as [|[u v] l IH]; intros d d' Hd. { simpl. eauto. }
  assert (Hv : In v vs) by (apply Hl; simpl; auto). cbn [sample_walk]. unfold dgetE. destruct (dget tables v) as [t|] eqn:Et; cbn [rbind]; [|auto].
  assert (Eq : get_value t u d = get_value t u d').
  { unfold get_value. destruct (tb_probs t); auto. assert (G : forall ps, incl ps vs -> mapM (fun i => v0 <- dgetE d i ;; Ok (get_kv i v0)) ps = mapM (fun i => v0 <- dgetE d' i ;; Ok (get_kv i v0)) ps).
    { induction ps as [|p ps IHp]; intros Hp; auto. cbn [mapM]. unfold dgetE at 1 3. rewrite (Hd p) by (apply Hp; left; auto). rewrite IHp by (intros x Hx; apply Hp; right; auto). reflexivity. }
    rewrite G; auto. eapply HT; eauto. }
  rewrite Eq. destruct (get_value t u d') as [x|]; cbn [rbind]; auto. rewrite (He v Hv). simpl (dget [] v). apply IH. { intros w Hw; apply Hl; right; auto. }
  intros w Hw. rewrite !dget_dset. destruct (eqb w v); auto.
Qed.

Lemma more_keys (vs : list Z) (r : sample) k : NoDup vs -> incl vs (dkeys r) -> In k (dkeys r) -> ~ In k vs -> List.length vs < List.length r.
Proof.
  intros Hn Hi Hk Hv. assert (H : List.length (k :: vs) <= List.length (dkeys r)). { apply NoDup_incl_length. constructor; auto. intros x [<-|Hx]; auto. }
  simpl in H. unfold dkeys in H. rewrite map_length in H. lia.
Qed.

Lemma walk_grows tables ev l : forall d r, sample_walk tables ev d l = Ok r -> incl (dkeys d) (dkeys r).
Proof.
  induction l as [|[u v] l IH]; intros d r E. { injection E as <-. apply incl_refl. }
  cbn [sample_walk] in E. destruct (dgetE tables v) as [t|]; [|discriminate]. cbn [rbind] in E. destruct (get_value t u d) as [x|]; [|discriminate]. cbn [rbind] in E.
  assert (Go : sample_walk tables ev (dset d v x) l = Ok r -> incl (dkeys d) (dkeys r)).
  { intros E'. intros k Hk. apply (IH _ _ E'). apply dkeys_dget in Hk as [y Hy]. destruct (Z.eq_dec k v) as [->|Hne].
    - apply dget_Some_key with x. rewrite dget_dset, eqb_refl. auto.
    - apply dget_Some_key with y. rewrite dget_dset_neq; auto. }
  destruct (dget ev v) as [e|]; auto. destruct (eqb x e); auto. injection E as <-. apply incl_refl.
Qed.

Lemma c88_unknown : forall srt ops s, sorter_ok srt -> well_shaped ops -> clean ops -> let N := net_of ops in stochastic N ->
  logic_sampler srt (build ops) = Ok s -> topological N (sp_nodes s) ->
  forall ev n f, ev <> [] -> (forall i, In i (dkeys ev) -> ~ In i (vars N)) -> 1 <= n -> (forall k, draw_for N (f k)) -> runs_for_ever s ev n f.
Proof.
  intros srt ops s K W C N St E T ev n f Hne Hev Hn Hf k. unfold get_samples. generalize (seq 0 k) as ks.
  assert (Once : forall us, draw_for N us -> exists d, sample_once s ev us = Ok d /\ List.length (sp_nodes s) < List.length d).
  { intros us Hu. destruct (plain srt ops s K W C E T St us Hu) as (a & Ha & Ea & _). unfold sample_once in *.
    assert (HI : forall v, In v (sp_nodes s) -> In v (net_vars ops)) by (intros v Hv; apply (nodes_In srt ops s K E); auto).
    pose proof (walk_unknown (sp_tables s) ev (combine us (sp_nodes s)) (sp_nodes s)) as H. destruct ev as [|[i x] ev']; [congruence|]. set (ev := (i, x) :: ev') in *.
    assert (He : forall v, In v (sp_nodes s) -> dget ev v = None).
    { intros v Hv. destruct (dget ev v) as [y|] eqn:Ey; auto. exfalso. apply (Hev v); [eapply dget_Some_key; eauto|apply HI; auto]. }
    specialize (H ltac:(intros v t Hv Ht; destruct (H_tab srt ops s K W C E v Hv) as (t' & Et' & Hp & _); rewrite Ht in Et'; injection Et' as <-; rewrite Hp; intros p Hpp; apply (node_par srt ops s K E v Hv p Hpp))
                  ltac:(intros v Hv; apply in_map_iff in Hv as ([u w] & <- & Hw); eapply in_combine_r; eauto) He ev [] He).
    rewrite Ea in H. destruct H as (r & Er & Hr). exists r. split; auto. apply more_keys with i.
    - apply (H_nodup srt ops s K E).
    - intros v Hv. apply dget_Some_key with (a v). rewrite Hr by auto. apply (dget_full srt ops s K E). auto.
    - apply (walk_grows _ _ _ _ _ Er). left; auto.
    - intros Hi. apply (Hev i). left; auto. apply HI; auto. }
  assert (G : forall ks (acc : list sample), List.length acc < n -> samples_loop s ev n (map f ks) acc = Err OutOfFuel).
  { induction ks as [|k0 ks IH]; intros acc Ha; auto. cbn [map samples_loop]. destruct (Once (f k0) (Hf k0)) as (d & Ed & Hd). rewrite Ed. cbn [rbind].
    destruct (Nat.eqb_spec (List.length d) (List.length (sp_nodes s))); [lia|]. destruct (Nat.eqb_spec (List.length acc) n); [lia|]. auto. }
  intros ks. apply G. simpl. lia.
Qed.
