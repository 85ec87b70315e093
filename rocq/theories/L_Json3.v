(** Join trees as JSON text. *)
From Verif Require Import Py M_Graph M_Node M_Pptc M_Serde M_Json M_Json2 SpecNet SpecSer SpecJson L_Base L_Table L_Serde L_Ids L_Json L_Json2.
Local Open Scope string_scope.
Local Open Scope list_scope.

Lemma fold_dset_NoDup {A K V} `{EqB K} (f : A -> K) (g : A -> V) l : NoDup (map fst (fold_left (fun d a => dset d (f a) (g a)) l [])).
Proof.
  assert (G : forall d : list (K * V), NoDup (dkeys d) -> NoDup (dkeys (fold_left (fun d a => dset d (f a) (g a)) l d))). { induction l as [|a l IH]; intros d A0; simpl; auto. apply IH. apply dset_NoDup; auto. }
  apply G. constructor.
Qed.
Lemma tree_keys o j b d : jt_to_dict o j b = Ok d -> NoDup (map fst (jd_bbn d)) /\ Forall (fun p => exists z, fst p = KInt z) (jd_bbn d) /\ NoDup (map fst (jd_nodes d)) /\ NoDup (map fst (jd_pinfo d)).
Proof.
  unfold jt_to_dict. destruct (mapM (dgetE (jt_heap j)) (jt_bbn_ids j)) as [ns|e]; [|discriminate]. cbn [rbind]. intros E. injection E as <-. cbn [jd_bbn jd_nodes jd_pinfo].
  split; [apply fold_dset_NoDup|]. split; [|split; apply fold_dset_NoDup].
  assert (G : forall d, Forall (fun p => exists z, fst p = KInt z) d -> Forall (fun p => exists z, fst p = KInt z) (fold_left (fun d n => dset d (KInt (n_id n)) (node_to_dict n)) ns d)).
  { clear. induction ns as [|n ns IH]; intros d H; simpl; auto. apply IH. apply dset_KInt. auto. }
  apply G. constructor.
Qed.
Lemma ints_uniq l : Forall uniq (map JsInt l). Proof. induction l; simpl; constructor; auto. constructor. Qed.
Ltac keys := repeat constructor; simpl; intuition discriminate.
Lemma jnode_uniq n : uniq (jnode_json n).
Proof.
  destruct n as [ids|l r]; (constructor; [keys|]).
  - constructor. { simpl. constructor. apply ints_uniq. } repeat constructor.
  - repeat constructor.
Qed.
Lemma tree_uniq o j b d : jt_to_dict o j b = Ok d -> uniq (jt_json d).
Proof.
  intros E. destruct (tree_keys _ _ _ _ E) as [A [B [C D]]]. unfold jt_json. constructor; [keys|]. constructor; cbn [snd].
  { constructor. { rewrite map_map. apply text_NoDup; auto. } apply Forall_forall. intros kv Hk. apply in_map_iff in Hk. destruct Hk as [p [<- _]]. apply node_uniq. }
  constructor; [|constructor]. cbn [snd]. constructor; [keys|]. constructor; cbn [snd].
  { constructor. { rewrite map_map. exact C. } apply Forall_forall. intros kv Hk. apply in_map_iff in Hk. destruct Hk as [p [<- _]]. apply jnode_uniq. }
  constructor; cbn [snd].
  { constructor. apply Forall_forall. intros kv Hk. apply in_map_iff in Hk. destruct Hk as [p [<- _]]. constructor. }
  constructor; [|constructor]. cbn [snd]. constructor. { rewrite map_map. exact D. }
  apply Forall_forall. intros kv Hk. apply in_map_iff in Hk. destruct Hk as [p [<- _]]. cbn [snd]. constructor. apply ints_uniq.
Qed.
Lemma ints_back l : mapM as_int (map JsInt l) = Ok l. Proof. induction l as [|x l IH]; simpl; auto. rewrite IH. auto. Qed.
Lemma strs_back l : mapM as_str (map JsStr l) = Ok l. Proof. induction l as [|x l IH]; simpl; auto. rewrite IH. auto. Qed.
Lemma jnode_back p : json_jnode (fst p, jnode_json (snd p)) = Ok [p].
Proof. destruct p as [k [ids|l r]]; unfold json_jnode; simpl; [rewrite ints_back|]; reflexivity. Qed.
Lemma tree_back o j b d : jt_to_dict o j b = Ok d -> json_tree (jt_json d) = Ok (json_jt d).
Proof.
  intros E. destruct (tree_keys _ _ _ _ E) as [A [B [C D]]]. clear E. unfold json_tree, jt_json, json_jt. destruct d as [ns js es ps]. cbn [jd_bbn jd_nodes jd_edges jd_pinfo] in *.
  assert (E1 : mapM (fun p => d <- json_node (snd p) ;; Ok (KStr (fst p), d)) (map (fun p => (key_text (fst p), node_json (snd p))) ns) = Ok (fold_left (fun m p => dset m (json_key (fst p)) (snd p)) ns [])).
  { rewrite json_keys_fold by auto. apply json_nodes_back. auto. }
  assert (E2 : mapM json_jnode (map (fun p => (fst p, jnode_json (snd p))) js) = Ok (map (fun p => [p]) js)).
  { clear. induction js as [|p js IH]; auto. cbn [map mapM]. rewrite jnode_back. cbn [rbind]. rewrite IH. auto. }
  assert (E3 : List.concat (map (fun p : string * jnodedict => [p]) js) = js). { clear. induction js as [|p js IH]; simpl; congruence. }
  assert (E4 : mapM (fun p => l <- as_list (snd p) ;; l <- mapM as_int l ;; Ok (fst p, l)) (map (fun p : string * list Z => (fst p, JsList (map JsInt (snd p)))) ps) = Ok ps).
  { clear. induction ps as [|[k l] ps IH]; auto. cbn [map mapM fst snd as_list rbind]. rewrite ints_back. cbn [rbind]. rewrite IH. auto. }
  change (member _ "bbn_nodes") with (Ok (JsObj (map (fun p => (key_text (fst p), node_json (snd p))) ns))). cbn [rbind as_obj]. rewrite E1. cbn [rbind].
  set (t := JsObj [("nodes", _); _; _]). change (member _ "jt") with (Ok t). cbn [rbind]. unfold t. clear t.
  change (member _ "nodes") with (Ok (JsObj (map (fun p => (fst p, jnode_json (snd p))) js))). cbn [rbind as_obj]. rewrite E2. cbn [rbind].
  change (member _ "edges") with (Ok (JsList (map JsStr es))). cbn [rbind as_list]. rewrite strs_back. cbn [rbind].
  change (member _ "parent_info") with (Ok (JsObj (map (fun p : string * list Z => (fst p, JsList (map JsInt (snd p)))) ps))). cbn [rbind as_obj]. rewrite E4. cbn [rbind]. rewrite E3. reflexivity.
Qed.
Theorem c112_tree show read ind : float_format show read -> forall o o' b j,
  (s <- save_tree show ind o j b ;; j' <- load_tree read o' s ;; apply_from_serde o' j') = reload o o' true b j.
Proof.
  intros FF o o' b j. unfold save_tree, reload, load_tree. destruct (jt_to_dict o j b) as [d|e] eqn:E; [|reflexivity]. cbn [rbind]. rewrite (c112_text show read FF) by (eapply tree_uniq; eauto). cbn [rbind]. rewrite (tree_back _ _ _ _ E). reflexivity.
Qed.
