(** Witnesses about evidence. *)
From Verif Require Import Py M_Graph M_Node M_Pptc Spec SpecNet SpecEv L_Base L_Evid L_Check L_P1 L_P2 Ex L_R1.
Open Scope nat_scope.
Local Open Scope string_scope.
Local Open Scope list_scope.

Lemma e_c_on_known : known (net_of diamond) e_c_on. Proof. apply knownb_ok. vm_compute. reflexivity. Qed.
Lemma e_c_on_observes : observes e_c_on "on". Proof. split; reflexivity. Qed.
Definition bothb (ops : list bop) (L L' : likelihood) (i : Z) (y : string) : bool := negb (qeqb (exact_posterior (net_of ops) L i y) (exact_posterior (net_of ops) L' i y)).
Lemma bothb_ok ops L L' i y t : mem i (vars (net_of ops)) = true -> mem y (dom (net_of ops) i) = true -> bothb ops L L' i y = true ->
  exact_table (net_of ops) (net_name ops) L t -> ~ exact_table (net_of ops) (net_name ops) L' t.
Proof.
  intros Hi Hy Hb [_ H1] [_ H2]. apply mem_In in Hi. apply mem_In in Hy. specialize (H1 i Hi). rewrite (H2 i Hi) in H1. apply Some_inj in H1. symmetry in H1. revert H1. apply tables_differ with y; auto.
  unfold bothb in Hb. destruct (qeqb _ _); auto; discriminate.
Qed.

Lemma only_oneb N (f : string -> Qc) i y : NoDup (dom N i) -> (match filter (fun v => qeqb 1%Qc (f v)) (dom N i) with [x] => String.eqb x y | _ => false end) = true -> only_one N f i y.
Proof.
  intros Hd E. apply only_one_ones; auto. unfold ones. destruct (filter _ _) as [|x [|]]; try discriminate. apply String.eqb_eq in E. subst; auto.
Qed.
Lemma not_only_oneb N (f : string -> Qc) i y : NoDup (dom N i) -> (match filter (fun v => qeqb 1%Qc (f v)) (dom N i) with [x] => String.eqb x y | _ => false end) = false -> ~ only_one N f i y.
Proof.
  intros Hd E H. apply only_one_ones in H; auto. unfold ones in H. rewrite H, String.eqb_refl in E. discriminate.
Qed.

Lemma c15_refuted : exists ops o h e y j1 j2 t1 t2, well_shaped ops /\ connected ops /\ ord_ok o /\ valid_history (net_of ops) h /\ known (net_of ops) e /\ observes e y /\
  session o ops (h ++ [(o, SetObservation e)]) = Ok j1 /\ get_posteriors j1 = Ok t1 /\
  session o ops ((h ++ [(o, SetObservation e)]) ++ [(o, SetObservation e)]) = Ok j2 /\ get_posteriors j2 = Ok t2 /\
  let L := observing (in_force (net_of ops) (calls h)) (ev_node e) y in
  exact_table (net_of ops) (net_name ops) L t1 /\ ~ exact_table (net_of ops) (net_name ops) L t2.
Proof.
  assert (V0 : valid_history (net_of diamond) []) by (split; constructor).
  assert (V1 : valid_history (net_of diamond) ([] ++ [(ord_id, SetObservation e_c_on)])).
  { apply valid_one. apply ord_id_ok. split. apply e_c_on_known. vm_compute. discriminate. }
  assert (HD : NoDup (dom (net_of diamond) (ev_node e_c_on))) by (apply nodupb_ok; vm_compute; reflexivity).
  destruct (c15_part diamond ord_id [] ord_id e_c_on "on" diamond_ok diamond_connected ord_id_ok ord_id_ok V0 (Forall_nil _) e_c_on_known e_c_on_observes) as [j1 [t1 [A1 [A2 [_ A3]]]]].
  destruct (c15_part diamond ord_id _ ord_id e_c_on "on" diamond_ok diamond_connected ord_id_ok ord_id_ok V1 (hard_calls_ok [SetObservation e_c_on] eq_refl) e_c_on_known e_c_on_observes) as [j2 [t2 [B1 [B2 [B3 _]]]]].
  exists diamond, ord_id, [], e_c_on, "on", j1, j2, t1, t2.
  split; [apply diamond_ok|]. split; [apply diamond_connected|]. split; [apply ord_id_ok|]. split; [exact V0|]. split; [apply e_c_on_known|]. split; [apply e_c_on_observes|].
  split; [exact A1|]. split; [exact A2|]. split; [exact B1|]. split; [exact B2|]. cbv zeta. split.
  - apply A3. apply not_only_oneb; [exact HD|]. vm_compute. reflexivity.
  - eapply (bothb_ok diamond _ _ 1%Z "on"); [vm_compute; reflexivity|vm_compute; reflexivity| |apply B3; apply only_oneb; [exact HD|vm_compute; reflexivity]]. vm_compute. reflexivity.
Qed.

(** an observation given with likelihood 9/10 *)
Definition e_c_nearly := build_evidence n_c OBSERVATION [("off", qfrac 9 10)].
Definition raisesb (ops : list bop) (o : Ord) (h : history) (e : evidence) : bool :=
  match session o ops h with
  | Ok j => match set_observation o j e with (_, Some IndexError) => true | _ => false end
  | Err _ => false
  end.
Lemma raisesb_ok ops o h e : raisesb ops o h e = true -> exists j j', session o ops h = Ok j /\ set_observation o j e = (j', Some IndexError).
Proof.
  unfold raisesb. destruct (session o ops h) as [j|]; [|discriminate]. destruct (set_observation o j e) as [j' [[]|]] eqn:E; try discriminate. eauto.
Qed.
Lemma c15_raises : exists ops o h e j j', well_shaped ops /\ connected ops /\ ord_ok o /\ valid_history (net_of ops) h /\ known (net_of ops) e /\ ev_type e = OBSERVATION /\
  session o ops h = Ok j /\ set_observation o j e = (j', Some IndexError).
Proof.
  destruct (raisesb_ok diamond ord_id [(ord_id, Update [e_c_on])] e_c_nearly) as [j [j' [H1 H2]]]; [vm_compute; reflexivity|].
  exists diamond, ord_id, [(ord_id, Update [e_c_on])], e_c_nearly, j, j'. split; [apply diamond_ok|]. split; [apply diamond_connected|]. split; [apply ord_id_ok|].
  split. { apply valid_one. apply ord_id_ok. constructor; [apply e_c_on_known|constructor]. }
  split. { apply knownb_ok. vm_compute. reflexivity. } split; [reflexivity|]. split; auto.
Qed.

(** ** change detection *)
Definition qdiff (a b : option Qc) : bool := match a, b with Some x, Some y => negb (qeqb x y) | None, None => false | _, _ => true end.
Lemma qdiff_ok a b : qdiff a b = true -> a <> b.
Proof. intros E ->. destruct b as [x|]; simpl in E; [|discriminate]. rewrite (proj2 (qeqb_true x x) eq_refl) in E. discriminate. Qed.
Definition unnoticedb (ops : list bop) (o : Ord) (h : history) (es : list evidence) (i : Z) (v : string) : bool :=
  match session o ops h with
  | Ok j => match mapM validate es with
            | Ok es' => match get_change_type j es' with
                        | Ok CNone => match update_evidences o j es with
                                      | (j', None) => qdiff (stored_likelihood j' i v) (stored_likelihood j i v)
                                      | _ => false end
                        | _ => false end
            | _ => false end
  | Err _ => false end.
Lemma unnoticedb_ok ops o h es i v : unnoticedb ops o h es i v = true -> exists j es' j', session o ops h = Ok j /\ mapM validate es = Ok es' /\ get_change_type j es' = Ok CNone /\
  update_evidences o j es = (j', None) /\ stored_likelihood j' i v <> stored_likelihood j i v.
Proof.
  unfold unnoticedb. destruct (session o ops h) as [j|]; [|discriminate]. destruct (mapM validate es) as [es'|]; [|discriminate].
  destruct (get_change_type j es') as [[]|] eqn:E; try discriminate. destruct (update_evidences o j es) as [j' [|]] eqn:E2; try discriminate. intros H. exists j, es', j'. repeat split; auto. apply qdiff_ok; auto.
Qed.
Definition es_first := [build_evidence n_d VIRTUAL [("t", 1%Qc); ("f", qfrac 1 2)]].
Definition es_second := [build_evidence n_d VIRTUAL [("t", 1%Qc); ("f", qfrac 1 10)]].
Lemma known_all N es : forallb (knownb N) es = true -> Forall (known N) es.
Proof. rewrite forallb_forall, Forall_forall. intros H e He. apply knownb_ok; auto. Qed.
Lemma c16_refuted : exists ops o h es j es' j' i v, well_shaped ops /\ connected ops /\ ord_ok o /\ valid_history (net_of ops) h /\ Forall (known (net_of ops)) es /\
  session o ops h = Ok j /\ mapM validate es = Ok es' /\ get_change_type j es' = Ok CNone /\
  update_evidences o j es = (j', None) /\ stored_likelihood j' i v <> stored_likelihood j i v.
Proof.
  destruct (unnoticedb_ok diamond ord_id [(ord_id, Update es_first)] es_second 30%Z "f") as [j [es' [j' H]]]; [vm_compute; reflexivity|].
  exists diamond, ord_id, [(ord_id, Update es_first)], es_second, j, es', j', 30%Z, "f". split; [apply diamond_ok|]. split; [apply diamond_connected|]. split; [apply ord_id_ok|].
  split. { apply valid_one. apply ord_id_ok. apply known_all. vm_compute. reflexivity. } split. { apply known_all. vm_compute. reflexivity. } exact H.
Qed.

(** ** rejected evidence *)
Definition e_d_bad := build_evidence n_d OBSERVATION [("maybe", 1%Qc)].
Definition halfb (ops : list bop) (o : Ord) (h : history) (es : list evidence) (i : Z) (v : string) : bool :=
  match session o ops h with
  | Ok j => match update_evidences o j es with
            | (j', Some KeyError) => qdiff (stored_likelihood j' i v) (stored_likelihood j i v)
            | _ => false end
  | Err _ => false end.
Lemma halfb_ok ops o h es i v : halfb ops o h es i v = true -> exists j j', session o ops h = Ok j /\
  update_evidences o j es = (j', Some KeyError) /\ stored_likelihood j' i v <> stored_likelihood j i v.
Proof.
  unfold halfb. destruct (session o ops h) as [j|]; [|discriminate]. destruct (update_evidences o j es) as [j' [[]|]] eqn:E2; try discriminate. intros H. exists j, j'. repeat split; auto. apply qdiff_ok; auto.
Qed.
Lemma c17_refuted : exists ops o h es j j' i v, well_shaped ops /\ connected ops /\ ord_ok o /\ valid_history (net_of ops) h /\ session o ops h = Ok j /\
  update_evidences o j es = (j', Some KeyError) /\ stored_likelihood j' i v <> stored_likelihood j i v.
Proof.
  destruct (halfb_ok diamond ord_id [] [e_c_on; e_d_bad] 1%Z "off") as [j [j' H]]; [vm_compute; reflexivity|].
  exists diamond, ord_id, [], [e_c_on; e_d_bad], j, j', 1%Z, "off". split; [apply diamond_ok|]. split; [apply diamond_connected|]. split; [apply ord_id_ok|]. split; [split; constructor|]. exact H.
Qed.
