(** Networks as JSON text. *)
From Verif Require Import Py M_Graph M_Node M_Pptc M_Serde M_Json SpecNet SpecSer SpecJson L_Base L_Table L_Serde L_Ids L_Json.
Open Scope nat_scope.
Local Open Scope char_scope.
Local Open Scope list_scope.

Lemma plain_nl : plain newline. Proof. left. auto. Qed.
Lemma plain_c c : plainb c = true -> plain c.
Proof. intros H. assert (F : Forall plain [c]) by (apply plainb_ok; simpl; rewrite H; auto). inversion F; auto. Qed.
Lemma line_plain ind lvl : Forall plain (line ind lvl).
Proof. unfold line. destruct ind; constructor; [apply plain_nl|]. apply Forall_forall. intros c Hc. apply repeat_spec in Hc. subst. apply plain_c. reflexivity. Qed.
Lemma between_plain ind lvl : Forall plain (between ind lvl).
Proof. unfold between. destruct ind as [k|]; (constructor; [apply plain_c; reflexivity|]); [apply line_plain|]. constructor; [apply plain_c; reflexivity|constructor]. Qed.
Lemma quoted_plain s : Forall plain (quoted s).
Proof. unfold quoted. constructor; [apply plain_c; reflexivity|]. apply Forall_app. split; [|constructor; [apply plain_c; reflexivity|constructor]]. apply Forall_flat_map. apply Forall_forall. intros c _. apply esc_plain. Qed.
Lemma numeric_plain t : Forall (fun c => numeric c = true) t -> Forall plain t.
Proof. apply Forall_impl. intros c H. apply plain_c. apply numeric_first in H. apply H. Qed.

Section Codec.
  Context (show : Qc -> string) (read : string -> option Qc) (FF : float_format show read).
  Lemma need_len ind v : forall lvl, need v <= List.length (dump show ind lvl v).
  Proof using FF.
    induction v as [z|q|s|b| |l IH|l IH] using json_rec2; intros lvl.
    - destruct (int_chars z) as [_ [_ N]]. simpl. destruct (chars (str_of_Z z)); [congruence|]. simpl. lia.
    - pose proof (show_some show read FF q) as N. simpl. destruct (chars (show q)); [congruence|]. simpl. lia.
    - simpl. lia.
    - destruct b; simpl; lia.
    - simpl. lia.
    - destruct l as [|x l]; [simpl; lia|]. inversion IH as [|? ? Hx Hl]; subst. specialize (Hx (S lvl)).
      assert (G : fold_right (fun x n => S (need x + n)) 0 l <= List.length (flat_map (fun y => between ind (S lvl) ++ dump show ind (S lvl) y) l)).
      { clear - Hl. induction Hl as [|y l Hy Fl IH]; simpl; [lia|]. rewrite !app_length. specialize (Hy (S lvl)). destruct (between_ok ind (S lvl)) as [w [E _]]. rewrite E at 1. simpl. lia. }
      cbn [need fold_right dump]. cbn [List.length]. rewrite !app_length. cbn [List.length]. lia.
    - destruct l as [|[k x] l]; [simpl; lia|]. inversion IH as [|? ? Hx Hl]; subst. specialize (Hx (S lvl)). cbn [snd] in Hx.
      assert (G : fold_right (fun (kx : string * json) n => S (match kx with (_, x) => need x end + n)) 0 l <= List.length (flat_map (fun y => match y with (k, y) => between ind (S lvl) ++ quoted k ++ ":" :: " " :: dump show ind (S lvl) y end) l)).
      { clear - Hl. induction Hl as [|[k y] l Hy Fl IH]; [simpl; lia|]. cbn [fold_right flat_map]. rewrite !app_length. cbn [snd List.length] in *. specialize (Hy (S lvl)). lia. }
      cbn [need fold_right dump]. cbn [List.length]. rewrite !app_length. cbn [List.length]. rewrite !app_length. cbn [List.length]. lia.
  Qed.
  Lemma dump_plain ind v : forall lvl, Forall plain (dump show ind lvl v).
  Proof using FF.
    induction v as [z|q|s|b| |l IH|l IH] using json_rec2; intros lvl.
    - apply numeric_plain. apply int_chars.
    - apply numeric_plain. apply FF.
    - apply quoted_plain.
    - apply plainb_ok. destruct b; reflexivity.
    - apply plainb_ok. reflexivity.
    - destruct l as [|x l]; cbn [dump]; (constructor; [apply plain_c; reflexivity|]); [constructor; [apply plain_c; reflexivity|constructor]|]. inversion IH as [|? ? Hx Hl]; subst.
      rewrite !Forall_app. repeat split; auto using line_plain. 2:{ constructor; [apply plain_c; reflexivity|constructor]. }
      apply Forall_flat_map. revert Hl. apply Forall_impl. intros y Hy. rewrite Forall_app. auto using between_plain.
    - destruct l as [|[k x] l]; cbn [dump]; (constructor; [apply plain_c; reflexivity|]); [constructor; [apply plain_c; reflexivity|constructor]|]. inversion IH as [|? ? Hx Hl]; subst. cbn [snd] in Hx.
      rewrite !Forall_app. split; [apply line_plain|]. split; [apply quoted_plain|]. repeat (constructor; [apply plain_c; reflexivity|]). rewrite !Forall_app. split; auto. split; [|split; [apply line_plain|constructor; [apply plain_c; reflexivity|constructor]]].
      apply Forall_flat_map. revert Hl. apply Forall_impl. intros [k' y] Hy. cbn [snd] in Hy. rewrite !Forall_app. split; [apply between_plain|]. split; [apply quoted_plain|]. repeat (constructor; [apply plain_c; reflexivity|]). auto.
  Qed.
  Theorem c112_text ind v : uniq v -> loads read (dumps show ind v) = Ok v.
  Proof using FF.
    intros U. unfold loads, dumps. assert (L : String.length (string_of_list_ascii (dump show ind 0 v)) = List.length (dump show ind 0 v)). { generalize (dump show ind 0 v). intros l. induction l; simpl; auto. }
    rewrite L. unfold chars. rewrite list_ascii_of_string_of_list_ascii. pose proof (reads_all show read FF ind v U (S (List.length (dump show ind 0 v))) 0 []) as R. rewrite app_nil_r in R. rewrite R; auto. { pose proof (need_len ind v 0). lia. } exact I.
  Qed.
  Theorem c112_ascii ind v : Forall plain (chars (dumps show ind v)).
  Proof using FF. unfold dumps, chars. rewrite list_ascii_of_string_of_list_ascii. apply dump_plain. Qed.
  (** ** networks *)
  Lemma dset_KInt {V} d k (v : V) : Forall (fun p => exists z, fst p = KInt z) d -> Forall (fun p => exists z, fst p = KInt z) (dset d (KInt k) v).
  Proof using. clear. induction 1 as [|[k' v'] d [z Hz] F IH]; cbn [dset]. { constructor; [simpl; eauto|constructor]. } cbn [fst] in Hz. subst. destruct (eqb (KInt k) (KInt z)); constructor; simpl; eauto. Qed.
  Lemma to_dict_keys b : NoDup (map fst (bd_nodes (bbn_to_dict b))) /\ Forall (fun p => exists z, fst p = KInt z) (bd_nodes (bbn_to_dict b)).
  Proof using.
    clear. unfold bbn_to_dict. cbn [bd_nodes]. set (l := get_nodes (b_g b)). clearbody l.
    assert (G : forall d, NoDup (dkeys d) /\ Forall (fun p => exists z, fst p = KInt z) d ->
      NoDup (dkeys (fold_left (fun d n => dset d (KInt (n_id n)) (node_to_dict n)) l d)) /\ Forall (fun p => exists z, fst p = KInt z) (fold_left (fun d n => dset d (KInt (n_id n)) (node_to_dict n)) l d)).
    { induction l as [|n l IH]; intros d [A B]; simpl; auto. apply IH. split; [apply dset_NoDup; auto|apply dset_KInt; auto]. }
    apply G. split; constructor.
  Qed.
  Lemma node_uniq d : uniq (node_json d).
  Proof using.
    clear. assert (G : forall A (f : A -> json), (forall a, uniq (f a)) -> forall l, Forall uniq (map f l)). { intros A f H l. induction l; simpl; constructor; auto. }
    unfold node_json. constructor. { repeat constructor; simpl; intuition discriminate. } constructor. { simpl. constructor. apply G. constructor. } constructor; [|constructor]. simpl. constructor. { repeat constructor; simpl; intuition discriminate. }
    repeat constructor. simpl. apply G. constructor.
  Qed.
  Lemma text_NoDup {V} (d : list (pykey * V)) : NoDup (map fst d) -> Forall (fun p => exists z, fst p = KInt z) d -> NoDup (map (fun p => key_text (fst p)) d).
  Proof using.
    clear. intros HN HF. rewrite <- map_map. rewrite Forall_forall in HF. assert (H : forall k, In k (map fst d) -> exists z, k = KInt z). { intros k Hk. apply in_map_iff in Hk. destruct Hk as [p [<- Hp]]. auto. }
    clear HF. induction (map fst d) as [|k l IH]; simpl; constructor; inversion HN; subst.
    - intros Hi. apply in_map_iff in Hi. destruct Hi as [k' [E Hk']]. destruct (H k) as [z ->]; [left; auto|]. destruct (H k') as [z' ->]; [right; auto|]. simpl in E. apply str_of_Z_inj in E. subst. contradiction.
    - apply IH; auto. intros k' Hk'. apply H. right. auto.
  Qed.
  Lemma bbn_uniq b : uniq (bbn_json (bbn_to_dict b)).
  Proof using.
    clear. destruct (to_dict_keys b) as [A B]. unfold bbn_json. constructor. { repeat constructor; simpl; intuition discriminate. }
    constructor; simpl. { constructor. - rewrite map_map. apply text_NoDup; auto. - apply Forall_forall. intros kv Hk. apply in_map_iff in Hk. destruct Hk as [p [<- _]]. apply node_uniq. }
    constructor; [|constructor]. simpl. constructor. clear. induction (flat_map (fun p => map (fun pa => (pa, fst p)) (snd p)) (b_parents b)); simpl; constructor; auto. constructor. { repeat constructor; simpl; intuition discriminate. } repeat constructor.
  Qed.
  Lemma node_back d : json_node (node_json d) = Ok d.
  Proof using.
    clear. assert (S : forall l, mapM as_str (map JsStr l) = Ok l). { induction l as [|x l IH]; simpl; auto. rewrite IH. auto. }
    assert (F : forall l, mapM as_num (map JsFloat l) = Ok l). { induction l as [|x l IH]; simpl; auto. rewrite IH. auto. }
    unfold json_node, node_json. simpl. rewrite S. simpl. rewrite F. simpl. destruct d; auto.
  Qed.
  Lemma json_nodes_back ns : Forall (fun p => exists z, fst p = KInt z) ns ->
    mapM (fun p => d <- json_node (snd p) ;; Ok (KStr (fst p), d)) (map (fun p => (key_text (fst p), node_json (snd p))) ns) = Ok (map (fun p => (json_key (fst p), snd p)) ns).
  Proof using. clear. induction 1 as [|[k d] ns [z Hz] F IH]; auto. cbn [map mapM fst snd] in *. rewrite node_back. cbn [rbind]. rewrite IH. subst. reflexivity. Qed.
  Lemma json_keys_fold (ns : list (pykey * nodedict)) : NoDup (map fst ns) -> Forall (fun p => exists z, fst p = KInt z) ns ->
    fold_left (fun m p => dset m (json_key (fst p)) (snd p)) ns [] = map (fun p => (json_key (fst p), snd p)) ns.
  Proof using.
    clear. intros A B. transitivity (fold_left (fun d kv => dset d (fst kv) (snd kv)) (map (fun p => (json_key (fst p), snd p)) ns) []).
    - clear. generalize (@nil (pykey * nodedict)). induction ns as [|p ns IH]; intros d; simpl; auto.
    - apply fold_dset_id. rewrite map_map. cbn [fst]. pose proof (text_NoDup _ A B) as T. clear - T B.
      induction B as [|[k d] ns [z Hz] F IH]; simpl in *; [constructor|]. inversion T as [|? ? T1 T2]; subst. constructor; auto. intros Hi. apply T1. apply in_map_iff in Hi. destruct Hi as [p [E Hp]]. apply in_map_iff. exists p. split; auto.
      rewrite Forall_forall in F. destruct (F p Hp) as [z' E']. rewrite E' in *. simpl in *. congruence.
  Qed.
  Lemma dict_back b : json_dict (bbn_json (bbn_to_dict b)) = Ok (json_bbn (bbn_to_dict b)).
  Proof using.
    clear. destruct (to_dict_keys b) as [A B]. unfold json_dict, bbn_json, json_bbn. set (D := bbn_to_dict b) in *. clearbody D. destruct D as [ns es]. cbn [bd_nodes bd_edges] in *.
    pose proof (json_nodes_back ns B) as E1.
    assert (E2 : mapM (fun e => pa <- member e "pa" ;; pa <- as_int pa ;; ch <- member e "ch" ;; ch <- as_int ch ;; Ok (pa, ch)) (map (fun e : Z * Z => JsObj [("pa"%string, JsInt (fst e)); ("ch"%string, JsInt (snd e))]) es) = Ok es).
    { clear. induction es as [|[p c] es IH]; auto. cbn [map mapM]. rewrite IH. reflexivity. }
    pose proof (json_keys_fold ns A B) as E3.
    rewrite E3. change (member _ "nodes") with (Ok (JsObj (map (fun p => (key_text (fst p), node_json (snd p))) ns))). cbn [rbind as_obj]. rewrite E1. cbn [rbind].
    change (member _ "edges") with (Ok (JsList (map (fun e : Z * Z => JsObj [("pa"%string, JsInt (fst e)); ("ch"%string, JsInt (snd e))]) es))). cbn [rbind as_list]. rewrite E2. reflexivity.
  Qed.
  Theorem c112_file b : from_json read (to_json show b) = reload_bbn true b.
  Proof using FF. unfold from_json, to_json. rewrite c112_text by apply bbn_uniq. cbn [rbind]. rewrite dict_back. reflexivity. Qed.
End Codec.
