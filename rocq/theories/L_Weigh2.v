(** Evidence weighs the answers to observations; order of evidence: sessions. *)
From Verif Require Import Py M_Graph M_Node M_Pptc Spec SpecNet SpecEv SpecSep L_Base L_Sums L_Table L_Exact L_Apply L_Net L_Evid L_Hist L_Claims L_P1 L_P2 SpecCohere L_Cohere L_Virt L_Left L_Left2 L_Weigh.
Open Scope Qc_scope.

Lemma noticed_answers ops o h k y : well_shaped ops -> connected ops -> ord_ok o -> valid_history (net_of ops) h -> all_noticed (net_of ops) no_evidence (calls h) ->
  In k (vars (net_of ops)) -> In y (dom (net_of ops) k) -> answers o ops h (net_name ops k) y (exact_posterior (net_of ops) (in_force (net_of ops) (calls h)) k y).
Proof. intros HW Hc Ho Hh Hn Hk Hy. destruct (c03_noticed ops o h HW Hc Ho Hh Hn) as (j & t & A1 & A2 & A3). exists j. split; auto. eapply table_reported; eauto. Qed.
Lemma more_answers ops o h oe e k y : well_shaped ops -> connected ops -> ord_ok o -> ord_ok oe -> valid_history (net_of ops) h -> all_noticed (net_of ops) no_evidence (calls h) ->
  known (net_of ops) e -> free (net_of ops) (in_force (net_of ops) (calls h)) (ev_node e) -> In k (vars (net_of ops)) -> In y (dom (net_of ops) k) ->
  answers o ops (h ++ [(oe, Update [e])]) (net_name ops k) y (exact_posterior (net_of ops) (assimilate (in_force (net_of ops) (calls h)) e) k y).
Proof.
  intros HW Hc Ho Hoe Hh Hn K F Hk Hy. pose proof (noticed_answers ops o (h ++ [(oe, Update [e])]) k y HW Hc Ho) as A. rewrite app_calls in A. change (calls [(oe, Update [e])]) with [Update [e]] in A. rewrite in_force_snoc in A. apply A; auto.
  - apply valid_app. split; auto. apply valid_one; auto. simpl. constructor; auto.
  - apply all_noticed_snoc. split; auto. cbn [noticed]. intros e' [<-|[]]. apply free_noticed. exact F.
Qed.
Lemma value_answers ops o h ov i v k y : well_shaped ops -> connected ops -> ord_ok o -> ord_ok ov -> valid_history (net_of ops) h -> all_noticed (net_of ops) no_evidence (calls h) ->
  In i (vars (net_of ops)) -> In v (dom (net_of ops) i) -> free (net_of ops) (in_force (net_of ops) (calls h)) i -> In k (vars (net_of ops)) -> In y (dom (net_of ops) k) ->
  answers o ops (h ++ [(ov, observe (net_of ops) i v)]) (net_name ops k) y (exact_posterior (net_of ops) (observing (in_force (net_of ops) (calls h)) i v) k y).
Proof.
  intros HW Hc Ho Hov Hh Hn Hi Hv F Hk Hy. set (e := mkEv i (dom (net_of ops) i) OBSERVATION [(v, 1)]).
  assert (K : known (net_of ops) e). { split; [exact Hi|]. split; [reflexivity|]. split; [repeat constructor; intros []|]. intros z [<-|[]]. exact Hv. }
  pose proof (more_answers ops o h ov e k y HW Hc Ho Hov Hh Hn K F Hk Hy) as A.
  replace (exact_posterior (net_of ops) (observing (in_force (net_of ops) (calls h)) i v) k y) with (exact_posterior (net_of ops) (assimilate (in_force (net_of ops) (calls h)) e) k y); [exact A|].
  apply posterior_agree. intros x z Hx Hz. unfold assimilate, observing. change (ev_node e) with i. destruct (Z.eqb_spec x i) as [->|]; auto. apply (like_observes (net_of ops) e v K); auto. split; reflexivity.
Qed.

Theorem c106_weighs ops o h oe (os : string -> Ord) e k y : well_shaped ops -> connected ops -> ord_ok o -> ord_ok oe -> (forall v, ord_ok (os v)) ->
  let N := net_of ops in let i := ev_node e in valid_history N h -> all_noticed N no_evidence (calls h) -> known N e -> free N (in_force N (calls h)) i -> In k (vars N) -> In y (dom N k) ->
  exists p r q, (forall v, In v (dom N i) -> answers o ops h (net_name ops i) v (p v) /\ answers o ops (h ++ [(os v, observe N i v)]) (net_name ops k) y (r v)) /\
    answers o ops (h ++ [(oe, Update [e])]) (net_name ops k) y q /\
    q * qsum (map (fun v => like_of e v * p v) (dom N i)) = qsum (map (fun v => like_of e v * p v * r v) (dom N i)) /\
    (qsum (map (fun v => like_of e v * p v) (dom N i)) = 0 -> q = 0).
Proof.
  intros HW Hc Ho Hoe Hos N i Hh Hn K F Hk Hy. pose proof (net_shape ops HW) as HN. fold N in HN. pose proof (force_pos ops h Hh) as HL. fold N in HL. assert (Hi : In i (vars N)) by apply K. set (L := in_force N (calls h)) in *.
  exists (exact_posterior N L i), (fun v => exact_posterior N (observing L i v) k y), (exact_posterior N (assimilate L e) k y).
  split; [|split; [|split]].
  - intros v Hv. split; [apply noticed_answers; auto|apply value_answers; auto].
  - apply more_answers; auto.
  - apply weighs; auto.
  - apply weighs_none; auto.
Qed.
Theorem c106_odds ops o h oe e v w : well_shaped ops -> connected ops -> ord_ok o -> ord_ok oe ->
  let N := net_of ops in let i := ev_node e in valid_history N h -> all_noticed N no_evidence (calls h) -> known N e -> free N (in_force N (calls h)) i -> In v (dom N i) -> In w (dom N i) ->
  exists pv pw qv qw, answers o ops h (net_name ops i) v pv /\ answers o ops h (net_name ops i) w pw /\
    answers o ops (h ++ [(oe, Update [e])]) (net_name ops i) v qv /\ answers o ops (h ++ [(oe, Update [e])]) (net_name ops i) w qw /\
    qv * (like_of e w * pw) = qw * (like_of e v * pv).
Proof.
  intros HW Hc Ho Hoe N i Hh Hn K F Hv Hw. pose proof (net_shape ops HW) as HN. fold N in HN. assert (Hi : In i (vars N)) by apply K.
  do 4 eexists. split; [apply noticed_answers; auto|]. split; [apply noticed_answers; auto|]. split; [apply more_answers; auto|]. split; [apply more_answers; auto|]. apply odds; auto.
Qed.

(** ** order *)
Definition same (L L' : likelihood) : Prop := forall i v, L i v = L' i v.
Lemma same_assim L L' e : same L L' -> same (assimilate L e) (assimilate L' e).
Proof. intros H i v. unfold assimilate. rewrite H. reflexivity. Qed.
Lemma same_toggles N L L' e : same L L' -> toggles N L e = toggles N L' e.
Proof. intros H. unfold toggles. replace (filter (fun v => qeqb 1 (L (ev_node e) v)) (dom N (ev_node e))) with (filter (fun v => qeqb 1 (L' (ev_node e) v)) (dom N (ev_node e))); auto. apply filter_ext. intros v. rewrite H. reflexivity. Qed.
Lemma same_effect N L L' c : same L L' -> same (effect N L c) (effect N L' c).
Proof.
  intros H. destruct c as [es|ns| |e]; cbn [effect].
  - revert L L' H. induction es as [|e es IH]; intros L L' H; cbn [fold_left]; auto. apply IH. apply same_assim; auto.
  - intros i v. unfold withdraw. rewrite H. reflexivity.
  - intros i v. reflexivity.
  - rewrite (same_toggles N L L' e H). destruct (toggles N L' e); [intros i v; unfold withdraw; rewrite H; reflexivity|apply same_assim; auto].
Qed.
Lemma same_overlooked N L L' e : (forall v, L (ev_node e) v = L' (ev_node e) v) -> overlooked N L e -> overlooked N L' e.
Proof.
  intros H (y & (A1 & A2 & A3) & B & v & C1 & C2). exists y. split; [|split; auto].
  - split; auto. split; [rewrite <- H; auto|]. intros w Hw Ew. apply A3; auto. rewrite H. auto.
  - exists v. split; auto. rewrite <- H. auto.
Qed.
Lemma same_noticed N L L' c : same L L' -> noticed N L c -> noticed N L' c.
Proof.
  intros H. assert (H' : same L' L) by (intros i v; symmetry; apply H). destruct c as [es|ns| |e]; cbn [noticed]; auto.
  - intros K e He O. apply (K e He). apply (same_overlooked N L' L); [intros v; apply H'|auto].
  - intros K T O. rewrite <- (same_toggles N L L' e H) in T. apply (K T). apply (same_overlooked N L' L); [intros v; apply H'|auto].
Qed.
Lemma same_all N cs : forall L L', same L L' -> all_noticed N L cs -> all_noticed N L' cs /\ same (fold_left (effect N) cs L) (fold_left (effect N) cs L').
Proof.
  induction cs as [|c cs IH]; intros L L' H; cbn [all_noticed fold_left]; [tauto|]. intros [A B]. destruct (IH _ _ (same_effect N L L' c H) B) as [C D]. split; auto. split; auto. apply (same_noticed N L); auto.
Qed.
Lemma noticed_app N cs1 cs2 : forall L, all_noticed N L (cs1 ++ cs2) <-> all_noticed N L cs1 /\ all_noticed N (fold_left (effect N) cs1 L) cs2.
Proof. induction cs1 as [|c cs1 IH]; intros L; cbn [List.app all_noticed fold_left]; [tauto|]. rewrite IH. tauto. Qed.

(** two middles of a history that say the same *)
Lemma exchange ops o h1 m m' h2 k y p : well_shaped ops -> connected ops -> ord_ok o -> let N := net_of ops in
  valid_history N (h1 ++ m ++ h2) -> valid_history N m' -> all_noticed N no_evidence (calls (h1 ++ m ++ h2)) ->
  let L := in_force N (calls h1) in all_noticed N L (calls m') -> same (fold_left (effect N) (calls m) L) (fold_left (effect N) (calls m') L) ->
  In k (vars N) -> In y (dom N k) -> (answers o ops (h1 ++ m ++ h2) (net_name ops k) y p <-> answers o ops (h1 ++ m' ++ h2) (net_name ops k) y p).
Proof.
  intros HW Hc Ho N Hh Hm' Hn L Hn' S Hk Hy. rewrite !valid_app in Hh. destruct Hh as (V1 & V2 & V3).
  pose proof (noticed_answers ops o (h1 ++ m ++ h2) k y HW Hc Ho) as A. fold N in A. specialize (A (proj2 (valid_app N h1 (m ++ h2)) (conj V1 (proj2 (valid_app N m h2) (conj V2 V3)))) Hn Hk Hy).
  rewrite !app_calls, !noticed_app in Hn. change (fold_left (effect N) (calls h1) no_evidence) with L in Hn. destruct Hn as (N1 & N2 & N3). destruct (same_all N (calls h2) _ _ S N3) as [N4 S4].
  pose proof (noticed_answers ops o (h1 ++ m' ++ h2) k y HW Hc Ho) as B. fold N in B. specialize (B (proj2 (valid_app N h1 (m' ++ h2)) (conj V1 (proj2 (valid_app N m' h2) (conj Hm' V3))))).
  assert (B' := fun q => B q Hk Hy). clear B. rewrite !app_calls in B'. specialize (B' (proj2 (noticed_app N (calls h1) (calls m' ++ calls h2) no_evidence) (conj N1 (proj2 (noticed_app N (calls m') (calls h2) L) (conj Hn' N4))))).
  rewrite !app_calls in A. replace (exact_posterior N (in_force N (calls h1 ++ calls m' ++ calls h2)) k y) with (exact_posterior N (in_force N (calls h1 ++ calls m ++ calls h2)) k y) in B'.
  - split; intros C; [rewrite (answers_eq _ _ _ _ _ _ _ C A); exact B'|rewrite (answers_eq _ _ _ _ _ _ _ C B'); exact A].
  - apply posterior_agree. intros x z _ _. unfold in_force. rewrite !fold_left_app. apply S4.
Qed.
Theorem c107_order ops o h1 h2 o1 o2 o3 o4 es es' k y p : well_shaped ops -> connected ops -> ord_ok o -> ord_ok o3 -> ord_ok o4 -> let N := net_of ops in
  valid_history N (h1 ++ [(o1, Update es); (o2, Update es')] ++ h2) -> all_noticed N no_evidence (calls (h1 ++ [(o1, Update es); (o2, Update es')] ++ h2)) ->
  (forall e e', In e es -> In e' es' -> ev_node e <> ev_node e') -> In k (vars N) -> In y (dom N k) ->
  (answers o ops (h1 ++ [(o1, Update es); (o2, Update es')] ++ h2) (net_name ops k) y p <-> answers o ops (h1 ++ [(o3, Update es'); (o4, Update es)] ++ h2) (net_name ops k) y p).
Proof.
  intros HW Hc Ho Ho3 Ho4 N Hh Hn D Hk Hy.
  assert (Hh' := Hh). rewrite !valid_app in Hh'. destruct Hh' as (V1 & [_ V2] & V3). inversion V2 as [|c cs W1 W2]; subst. inversion W2 as [|c' cs' W3 _]; subst.
  assert (Hn' := Hn). rewrite !app_calls, !noticed_app in Hn'. destruct Hn' as (_ & (N1 & N2 & _) & _). cbn [effect] in *.
  set (L := fold_left (effect N) (calls h1) no_evidence) in *.
  assert (Fold : forall es L i v, (forall e, In e es -> ev_node e <> i) -> fold_left assimilate es L i v = L i v).
  { clear. induction es as [|e es IH]; intros L i v H; auto. cbn [fold_left]. rewrite IH by (intros e' He'; apply H; right; auto). unfold assimilate. destruct (Z.eqb_spec i (ev_node e)) as [E|]; auto. exfalso. apply (H e); [left; auto|auto]. }
  assert (Touch : forall es L L' i v, (exists e, In e es /\ ev_node e = i) -> fold_left assimilate es L i v = fold_left assimilate es L' i v).
  { clear. induction es as [|e es IH]; intros L L' i v (a & Ha & E); [destruct Ha|]. cbn [fold_left]. destruct (existsb (fun a => Z.eqb (ev_node a) i) es) eqn:X.
    - apply existsb_exists in X. destruct X as (b & Hb & Eb). apply Z.eqb_eq in Eb. apply IH. exists b. auto.
    - assert (Nn : forall b, In b es -> ev_node b <> i). { intros b Hb Q. assert (existsb (fun a => Z.eqb (ev_node a) i) es = true) by (apply existsb_exists; exists b; split; auto; apply Z.eqb_eq; auto). congruence. }
      destruct Ha as [->|Ha]; [|exfalso; apply (Nn a Ha E)].
      assert (Fold' : forall es L i v, (forall e, In e es -> ev_node e <> i) -> fold_left assimilate es L i v = L i v).
      { clear. induction es as [|e es IH]; intros L i v H; auto. cbn [fold_left]. rewrite IH by (intros e' He'; apply H; right; auto). unfold assimilate. destruct (Z.eqb_spec i (ev_node e)) as [E|]; auto. exfalso. apply (H e); [left; auto|auto]. }
      rewrite !Fold' by exact Nn. unfold assimilate. rewrite E, Z.eqb_refl. reflexivity. }
  apply (exchange ops o h1 [(o1, Update es); (o2, Update es')] [(o3, Update es'); (o4, Update es)] h2 k y p); auto.
  - split; [repeat apply Forall_cons; auto|]. cbn [calls map snd]. constructor; [exact W3|constructor; [exact W1|constructor]].
  - cbn [calls map snd all_noticed effect noticed]. split; [|split; [|exact I]].
    + intros e' He' O. apply (N2 e' He'). eapply same_overlooked; [|exact O]. intros v. symmetry. apply Fold. intros e He. apply D; auto.
    + intros e He O. apply (N1 e He). eapply same_overlooked; [|exact O]. intros v. apply Fold. intros e' He' Q. apply (D e e'); auto.
  - cbn [calls map snd fold_left effect]. intros i v. destruct (existsb (fun a => Z.eqb (ev_node a) i) es) eqn:X.
    + apply existsb_exists in X. destruct X as (b & Hb & Eb). apply Z.eqb_eq in Eb. rewrite Fold. { apply Touch. exists b. auto. }
      intros e' He' Q. apply (D b e'); auto. congruence.
    + rewrite (Fold es (fold_left assimilate es' _) i v). 2: { intros b Hb Q. assert (existsb (fun a => Z.eqb (ev_node a) i) es = true) by (apply existsb_exists; exists b; split; auto; apply Z.eqb_eq; auto). congruence. }
      destruct (existsb (fun a => Z.eqb (ev_node a) i) es') eqn:X'.
      * apply existsb_exists in X'. destruct X' as (b & Hb & Eb). apply Z.eqb_eq in Eb. apply Touch. exists b. auto.
      * assert (Q' : forall b, In b es' -> ev_node b <> i). { intros b Hb Q. assert (existsb (fun a => Z.eqb (ev_node a) i) es' = true) by (apply existsb_exists; exists b; split; auto; apply Z.eqb_eq; auto). congruence. }
        rewrite !Fold; auto. intros b Hb Q. assert (existsb (fun a => Z.eqb (ev_node a) i) es = true) by (apply existsb_exists; exists b; split; auto; apply Z.eqb_eq; auto). congruence.
Qed.
Theorem c107_together ops o h1 h2 o1 o2 o3 es es' k y p : well_shaped ops -> connected ops -> ord_ok o -> ord_ok o3 -> let N := net_of ops in
  valid_history N (h1 ++ [(o1, Update es); (o2, Update es')] ++ h2) -> all_noticed N no_evidence (calls (h1 ++ [(o1, Update es); (o2, Update es')] ++ h2)) ->
  (forall e e', In e es -> In e' es' -> ev_node e <> ev_node e') -> In k (vars N) -> In y (dom N k) ->
  (answers o ops (h1 ++ [(o1, Update es); (o2, Update es')] ++ h2) (net_name ops k) y p <-> answers o ops (h1 ++ [(o3, Update (es ++ es'))] ++ h2) (net_name ops k) y p).
Proof.
  intros HW Hc Ho Ho3 N Hh Hn D Hk Hy.
  assert (Hh' := Hh). rewrite !valid_app in Hh'. destruct Hh' as (V1 & [_ V2] & V3). inversion V2 as [|c cs W1 W2]; subst. inversion W2 as [|c' cs' W3 _]; subst.
  assert (Hn' := Hn). rewrite !app_calls, !noticed_app in Hn'. destruct Hn' as (_ & (N1 & N2 & _) & _). cbn [effect] in *. set (L := fold_left (effect N) (calls h1) no_evidence) in *.
  assert (Fold : forall es L i v, (forall e, In e es -> ev_node e <> i) -> fold_left assimilate es L i v = L i v).
  { clear. induction es as [|e es IH]; intros L i v H; auto. cbn [fold_left]. rewrite IH by (intros e' He'; apply H; right; auto). unfold assimilate. destruct (Z.eqb_spec i (ev_node e)) as [E|]; auto. exfalso. apply (H e); [left; auto|auto]. }
  apply (exchange ops o h1 [(o1, Update es); (o2, Update es')] [(o3, Update (es ++ es'))] h2 k y p); auto.
  - split; [repeat apply Forall_cons; auto|]. cbn [calls map snd]. constructor; [|constructor]. simpl in *. apply Forall_app. auto.
  - cbn [calls map snd all_noticed effect noticed]. split; [|exact I]. intros e He O. apply in_app_or in He. destruct He as [He|He].
    + apply (N1 e He). exact O.
    + apply (N2 e He). eapply same_overlooked; [|exact O]. intros v. symmetry. apply Fold. intros e' He'. apply D; auto.
  - cbn [calls map snd fold_left effect]. intros i v. rewrite fold_left_app. reflexivity.
Qed.
Theorem c107_last ops o h1 h2 o1 o2 o3 e e' k y p : well_shaped ops -> connected ops -> ord_ok o -> ord_ok o3 -> let N := net_of ops in
  valid_history N (h1 ++ [(o1, Update [e]); (o2, Update [e'])] ++ h2) -> all_noticed N no_evidence (calls (h1 ++ [(o1, Update [e]); (o2, Update [e'])] ++ h2)) ->
  ev_node e = ev_node e' -> noticed N (in_force N (calls h1)) (Update [e']) -> In k (vars N) -> In y (dom N k) ->
  (answers o ops (h1 ++ [(o1, Update [e]); (o2, Update [e'])] ++ h2) (net_name ops k) y p <-> answers o ops (h1 ++ [(o3, Update [e'])] ++ h2) (net_name ops k) y p).
Proof.
  intros HW Hc Ho Ho3 N Hh Hn D Hl Hk Hy.
  assert (Hh' := Hh). rewrite !valid_app in Hh'. destruct Hh' as (V1 & [_ V2] & V3). inversion V2 as [|c cs W1 W2]; subst. inversion W2 as [|c' cs' W3 _]; subst.
  apply (exchange ops o h1 [(o1, Update [e]); (o2, Update [e'])] [(o3, Update [e'])] h2 k y p); auto.
  - split; [repeat apply Forall_cons; auto|]. cbn [calls map snd]. constructor; [exact W3|constructor].
  - cbn [calls map snd all_noticed]. auto.
  - cbn [calls map snd fold_left effect]. intros i v. unfold assimilate. rewrite D. destruct (Z.eqb i (ev_node e')); reflexivity.
Qed.
Theorem c107_withdrawn ops o h1 h2 o1 o2 e n k y p : well_shaped ops -> connected ops -> ord_ok o -> let N := net_of ops in
  valid_history N (h1 ++ [(o1, Update [e]); (o2, Unobserve [n])] ++ h2) -> all_noticed N no_evidence (calls (h1 ++ h2)) ->
  n_id n = ev_node e -> (forall v, in_force N (calls h1) (ev_node e) v = 1) -> In k (vars N) -> In y (dom N k) ->
  (answers o ops (h1 ++ [(o1, Update [e]); (o2, Unobserve [n])] ++ h2) (net_name ops k) y p <-> answers o ops (h1 ++ h2) (net_name ops k) y p).
Proof.
  intros HW Hc Ho N Hh Hn D F Hk Hy. rewrite !valid_app in Hh. destruct Hh as (V1 & V2 & V3). symmetry.
  apply (exchange ops o h1 [] [(o1, Update [e]); (o2, Unobserve [n])] h2 k y p); auto.
  - simpl. apply valid_app. auto.
  - cbn [calls map snd all_noticed noticed]. split; [|auto]. intros e' [<-|[]]. apply free_noticed. intros v _. apply F.
  - cbn [calls map snd fold_left effect]. intros i v. unfold withdraw, assimilate. cbn [mem map]. rewrite D. unfold mem. cbn [existsb]. rewrite Bool.orb_false_r. cbn. destruct (Z.eqb_spec i (ev_node e)) as [->|]; [apply F|reflexivity].
Qed.
