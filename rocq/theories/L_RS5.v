(** When a table with rounded sums has a value for every draw. *)
From Verif Require Import Py M_Graph M_Node M_Pptc M_Round M_Sampling M_RoundSamp Spec SpecNet SpecPot SpecSamp SpecRound SpecStored L_Base L_P5 L_Round L_Samp L_RS L_RS2 L_RS3.
Open Scope nat_scope.

Theorem c109_complete r rnd dm n ps : steady r rnd -> proper_nodes dm (ps ++ [n]) -> ascending (map n_id ps) ->
  (2 <= List.length ps -> forall p x, In p ps -> In x (n_values p) -> no_comma x) -> n_values n <> [] ->
  size dm (map n_id ps ++ [n_id n]) <= List.length (n_probs n) -> Forall (stored rnd) (n_probs n) ->
  exists t', mk_table_r rnd n ps = Ok t' /\
    forall a s u, okon dm (map n_id ps) a -> records s (map n_id ps) a -> (0 <= u)%Qc ->
    let row := row_for dm (n_probs n) (map n_id ps) (n_id n) a in let k := List.length (n_probs n) in
    ((u * r ^ k < qsum row)%Qc -> exists i x, nth_error (n_values n) i = Some x /\ get_value t' u s = Ok x /\ (0 < nth i row 0)%Qc) /\
    (forall i x, nth_error (n_values n) i = Some x -> get_value t' u s = Ok x -> (below row i <= u * r ^ k)%Qc /\ (u < below row (S i) * r ^ k)%Qc /\ (0 < nth i row 0)%Qc) /\
    (get_value t' u s = Err IndexError -> (qsum row <= u * r ^ k)%Qc).
Proof.
  intros ST HP HA HC HV HS HF. assert (NN : forall q, In q (n_probs n) -> (0 <= q)%Qc). { intros q Hq. rewrite Forall_forall in HF. apply (stored_nn r rnd ST). auto. }
  destruct (c28 dm n ps HP HA HC HV HS NN) as (t & Et & T). pose proof (mk_pair rnd (List.length (n_probs n)) n ps HF (le_n _)) as M. rewrite Et in M. unfold both in M. destruct (mk_table_r rnd n ps) as [t'|]; [|destruct M].
  exists t'. split; [reflexivity|]. intros a s u Ha Hs Hu row k. destruct (value_back r rnd ST k t t' s u M Hu) as (u' & W & E). destruct W as (W1 & W2 & W3 & W4).
  destruct (T a s u' Ha Hs W2) as (T1 & T2). fold row in T1, T2.
  assert (RL : List.length row = List.length (n_values n)). { unfold row, row_for. rewrite map_length. destruct HP as [_ HP]. destruct (HP n ltac:(apply in_or_app; right; left; auto)) as [HP1 _]. congruence. }
  assert (RN : nonneg row). { intros q Hq. unfold row, row_for in Hq. apply in_map_iff in Hq. destruct Hq as (x & <- & _). destruct (nth_in_or_default (row_index dm (map n_id ps ++ [n_id n]) (upd a (n_id n) x)) (n_probs n) 0%Qc) as [G| ->]; [auto|apply Qcle_refl]. }
  split; [|split].
  - intros Hlt. destruct (row_hit row u' RN W2) as (i & Hi & B1 & B2). { eapply Qcle_lt_trans; eauto. }
    rewrite RL in Hi. destruct (nth_error (n_values n) i) as [x|] eqn:Ex; [|apply nth_error_None in Ex; lia]. exists i, x. split; [exact Ex|]. destruct (T1 i x Ex) as [V D]. split; [rewrite <- E; apply V; auto|].
    rewrite <- D. unfold Qcminus. apply (proj1 (Qclt_minus_iff (below row i) (below row (S i)))). eapply Qcle_lt_trans; eauto.
  - intros i x Ex Hx. destruct (T1 i x Ex) as [V D]. rewrite <- E in Hx. apply V in Hx. destruct Hx as [B1 B2]. split; [eapply Qcle_trans; eauto|]. split; [|rewrite <- D; unfold Qcminus; apply (proj1 (Qclt_minus_iff (below row i) (below row (S i)))); eapply Qcle_lt_trans; eauto]. eapply Qcle_lt_trans; [exact W3|].
    assert (P : (0 < r ^ k)%Qc). { eapply Qclt_le_trans; [|apply (pow_ge1 r k); apply ST]. reflexivity. } apply Qcmult_lt_compat_r; auto.
  - intros Hx. destruct (Qclt_le_dec (u * r ^ k) (qsum row)) as [C|C]; auto. exfalso. destruct (row_hit row u' RN W2) as (i & Hi & B1 & B2). { eapply Qcle_lt_trans; eauto. }
    rewrite RL in Hi. destruct (nth_error (n_values n) i) as [x|] eqn:Ex; [|apply nth_error_None in Ex; lia]. destruct (T1 i x Ex) as [V _]. assert (G : get_value t u' s = Ok x) by (apply V; auto). rewrite E in G. congruence.
Qed.
