(** Witnesses: claims about inference that the code does not meet, and hypotheses of the theorems on concrete networks. *)
From Verif Require Import Py M_Graph M_Node M_Pptc Spec SpecNet SpecEv L_Base L_Evid L_Check L_P1 Ex.
Open Scope nat_scope.

Lemma Some_inj {A} (x y : A) : Some x = Some y -> x = y. Proof. congruence. Qed.
Lemma qneqb x y : qeqb x y = false -> x <> y.
Proof. intros E H. apply qeqb_true in H. congruence. Qed.
Lemma possibleb_ok N L : possibleb N L = true -> possible N L.
Proof. unfold possibleb, possible. intros E H. apply qeqb_true in H. rewrite H in E. discriminate. Qed.
Lemma impossibleb_ok N L : possibleb N L = false -> ~ possible N L.
Proof. unfold possibleb, possible. intros E H. apply H. apply qeqb_true. destruct (qeqb (total N L) 0%Qc); [auto|discriminate]. Qed.

Definition orders_ok (h : history) : Prop := Forall (fun p => ord_ok (fst p)) h.
Ltac orders := repeat (constructor; [first [apply ord_id_ok|apply ord_rev_ok]|]); constructor.

Lemma diamond_ok : well_shaped diamond. Proof. apply well_shapedb_ok. vm_compute. reflexivity. Qed.
Lemma diamond_connected : connected diamond. Proof. apply connectedb_ok. vm_compute. reflexivity. Qed.
Lemma two_chains_ok : well_shaped two_chains. Proof. apply well_shapedb_ok. vm_compute. reflexivity. Qed.
Lemma hard_history_ok : valid_history (net_of diamond) hard_history.
Proof. split; [orders|]. apply valid_calls_ok. vm_compute. reflexivity. Qed.
Lemma hard_history_hard : Forall hard_call (calls hard_history).
Proof. apply hard_calls_ok. vm_compute. reflexivity. Qed.
Lemma impossible_history_ok : valid_history (net_of diamond) impossible_history.
Proof. split; [orders|]. apply valid_calls_ok. vm_compute. reflexivity. Qed.
Lemma virtual_history_ok : valid_history (net_of diamond) virtual_history.
Proof. split; [orders|]. apply valid_calls_ok. vm_compute. reflexivity. Qed.
Lemma stale_history_ok : valid_history (net_of diamond) stale_history.
Proof. split; [orders|]. apply valid_calls_ok. vm_compute. reflexivity. Qed.

(** deciding [noticed] *)
Definition overlookedb (N : net) (L : likelihood) (e : evidence) : bool :=
  let i := ev_node e in
  match filter (fun v => qeqb 1%Qc (L i v)) (dom N i), filter (fun v => qeqb 1%Qc (like_of e v)) (dom N i) with
  | [y], [z] => String.eqb y z
  | _, _ => false
  end.
Lemma overlookedb_ok N L e : NoDup (dom N (ev_node e)) -> overlookedb N L e = false -> ~ overlooked N L e.
Proof.
  intros Hd E [y [H1 [H2 _]]]. apply only_one_ones in H1; auto. apply only_one_ones in H2; auto. unfold ones in *. unfold overlookedb in E. rewrite H1, H2, String.eqb_refl in E. discriminate.
Qed.
Definition noticedb (N : net) (L : likelihood) (c : call) : bool :=
  match c with Update es => forallb (fun e => negb (overlookedb N L e)) es | SetObservation e => negb (overlookedb N L e) | _ => true end.
Fixpoint all_noticedb (N : net) (L : likelihood) (h : list call) : bool :=
  match h with [] => true | c :: t => noticedb N L c && all_noticedb N (effect N L c) t end.
Lemma all_noticedb_ok N h : (forall i, In i (vars N) -> NoDup (dom N i)) -> Forall (valid_call N) h -> forall L, all_noticedb N L h = true -> all_noticed N L h.
Proof.
  intros HD. induction 1 as [|c h V1 V2 IH]; intros L E; simpl in *; auto. apply andb_true_iff in E. destruct E as [E1 E2]. split; auto.
  destruct c as [es|ns| |e]; simpl in *; auto.
  - intros e He. rewrite forallb_forall in E1. rewrite Forall_forall in V1. apply overlookedb_ok. apply HD, V1; auto. specialize (E1 e He). destruct (overlookedb N L e); auto; discriminate.
  - intros _. apply overlookedb_ok. apply HD, V1. destruct (overlookedb N L e); auto; discriminate.
Qed.
Lemma virtual_history_noticed : all_noticed (net_of diamond) no_evidence (calls virtual_history).
Proof. apply all_noticedb_ok. intros i Hi. apply (ws_dom _ diamond_ok i Hi). apply virtual_history_ok. vm_compute. reflexivity. Qed.

Lemma table_entry (f : string -> Qc) d y : In y d -> dget (map (fun y => (y, f y)) d) y = Some (f y).
Proof.
  induction d as [|x d IH]; intros H; [destruct H|]. cbn [map dget]. destruct (eqb_spec y x) as [->|Hn]; auto. apply IH. destruct H; congruence.
Qed.
Lemma tables_differ (f g : string -> Qc) d y : In y d -> qeqb (f y) (g y) = false -> map (fun y => (y, f y)) d <> map (fun y => (y, g y)) d.
Proof.
  intros Hy Hq E. apply (f_equal (fun m => dget m y)) in E. rewrite !table_entry in E by auto. injection E as E. apply qneqb in Hq. auto.
Qed.

(** ** virtual evidence can go unnoticed *)
Lemma c03_refuted : exists ops o h j t, well_shaped ops /\ connected ops /\ ord_ok o /\ valid_history (net_of ops) h /\
  session o ops h = Ok j /\ get_posteriors j = Ok t /\ ~ exact_table (net_of ops) (net_name ops) (in_force (net_of ops) (calls h)) t.
Proof.
  destruct (session_exact diamond ord_id stale_history diamond_ok diamond_connected ord_id_ok stale_history_ok) as [j [t [A1 [A2 [A3 A4]]]]].
  exists diamond, ord_id, stale_history, j, t. split; [apply diamond_ok|]. split; [apply diamond_connected|]. split; [apply ord_id_ok|]. split; [apply stale_history_ok|]. split; auto. split; auto.
  intros [_ B]. assert (Hi : In 30%Z (vars (net_of diamond))) by (apply mem_In; vm_compute; reflexivity).
  specialize (B 30%Z Hi). rewrite (A4 30%Z Hi) in B. apply Some_inj in B. revert B. apply tables_differ with "t"%string.
  - apply mem_In. vm_compute. reflexivity.
  - vm_compute. reflexivity.
Qed.

(** ** networks in several parts *)
(** does the code's posterior of [y] differ from the exact one? *)
Definition wrongb (ops : list bop) (o : Ord) (i : Z) (y : string) : bool :=
  match apply o (build ops) with
  | Ok (_, j) => match get_posteriors j with
                 | Ok t => match dget t (net_name ops i) with
                           | Some m => match dget m y with Some q => negb (qeqb q (exact_posterior (net_of ops) no_evidence i y)) | None => false end
                           | None => false
                           end
                 | Err _ => false
                 end
  | Err _ => false
  end.
Lemma wrongb_ok ops o i y : mem y (dom (net_of ops) i) = true -> wrongb ops o i y = true ->
  exists b j t, apply o (build ops) = Ok (b, j) /\ get_posteriors j = Ok t /\
    dget t (net_name ops i) <> Some (map (fun y => (y, exact_posterior (net_of ops) no_evidence i y)) (dom (net_of ops) i)).
Proof.
  intros Hy E. apply mem_In in Hy. unfold wrongb in E. destruct (apply o (build ops)) as [[b j]|]; [|discriminate]. destruct (get_posteriors j) as [t|] eqn:E2; [|discriminate].
  exists b, j, t. split; auto. split; auto. destruct (dget t (net_name ops i)) as [m|]; try discriminate. destruct (dget m y) as [q|] eqn:E4; try discriminate.
  intros B. apply Some_inj in B. rewrite B, table_entry in E4 by auto. injection E4 as <-. rewrite (proj2 (qeqb_true _ _) eq_refl) in E. discriminate.
Qed.

Lemma c04_refuted : exists ops o b j t i, well_shaped ops /\ ord_ok o /\ apply o (build ops) = Ok (b, j) /\ get_posteriors j = Ok t /\ In i (vars (net_of ops)) /\
  dget t (net_name ops i) <> Some (map (fun y => (y, exact_posterior (net_of ops) no_evidence i y)) (dom (net_of ops) i)).
Proof.
  destruct (wrongb_ok two_chains ord_id 6 "on") as [b [j [t [H1 [H2 H3]]]]]; [vm_compute; reflexivity|vm_compute; reflexivity|].
  exists two_chains, ord_id, b, j, t, 6%Z. split; [apply two_chains_ok|]. split; [apply ord_id_ok|]. split; [exact H1|]. split; [exact H2|]. split; [|exact H3].
  apply mem_In; vm_compute; reflexivity.
Qed.
