(** What is drawn from rounded sums is drawn from exact ones for a number nearby. *)
From Verif Require Import Py M_Graph M_Node M_Pptc M_Round M_Sampling M_RoundSamp Spec SpecSamp SpecRound SpecStored L_Base L_Round L_Round5 L_Samp L_RS.
Open Scope nat_scope.
Open Scope Qc_scope.

Lemma bisect_exact l u k : nonneg l -> (k <= List.length l)%nat -> below l k <= u -> ((k < List.length l)%nat -> u < below l (S k)) -> bisect (cumsum l) u = Ok k.
Proof.
  intros Hn Hk Hb Hu. destruct (bisect_ok (cumsum l) u) as (k' & E & Hk' & Hlo & Hhi).
  { intros i j y z Hij Ey Ez.
    assert (i < List.length l)%nat by (rewrite <- cumsum_length; apply nth_error_Some; congruence).
    assert (j < List.length l)%nat by (rewrite <- cumsum_length; apply nth_error_Some; congruence).
    rewrite cumsum_nth in Ey, Ez by auto. injection Ey as <-; injection Ez as <-. apply below_mono; auto. lia. }
  rewrite cumsum_length in Hk'. rewrite E. f_equal. destruct (Nat.lt_trichotomy k' k) as [C|[C|C]]; auto; exfalso.
  - apply (Qclt_not_le u (below l (S k'))).
    + apply (Hhi k'); [lia|]. apply cumsum_nth; lia.
    + eapply Qcle_trans; [apply (below_mono l (S k') k); auto|exact Hb].
  - apply (Qclt_not_le u (below l (S k))); [apply Hu; lia|]. apply (Hlo k); auto. apply cumsum_nth; lia.
Qed.

Section Row.
  Context (r : Qc) (rnd : Qc -> Qc) (ST : steady r rnd).
  Let R1 : 1 <= r := st_one _ _ ST.

  Lemma within_up k x y : 0 <= x -> x <= y -> y <= x * r ^ k -> within r k x y.
  Proof.
    intros H0 H1 H2. split; auto. split; [eapply Qcle_trans; eauto|]. split; auto. eapply Qcle_trans; [exact H1|]. rewrite <- (Qcmult_1_r y) at 1. rewrite (Qcmult_comm y 1), (Qcmult_comm y). apply qle_mul; [apply pow_ge1; auto|eapply Qcle_trans; eauto].
  Qed.
  Lemma within_sym k x y : within r k x y -> within r k y x.
  Proof. intros (A & B & C & D). repeat split; auto. Qed.

  Lemma row_back l u : Forall (stored rnd) l -> 0 <= u -> exists u', within r (List.length l) u u' /\ bisect (cumsum l) u' = bisect (cumsum_r rnd l) u.
  Proof.
    intros F Hu. assert (Hn : nonneg l). { intros q Hq. rewrite Forall_forall in F. apply (stored_nn r rnd ST). auto. }
    destruct (bisect_ok (cumsum_r rnd l) u) as (k & E & Hk & Hlo & Hhi).
    { intros i j y z Hij Ey Ez. assert (i < List.length l)%nat by (rewrite <- (cumsum_r_length rnd); apply nth_error_Some; congruence).
      assert (j < List.length l)%nat by (rewrite <- (cumsum_r_length rnd); apply nth_error_Some; congruence). rewrite cs_nth in Ey, Ez by auto. injection Ey as <-. injection Ez as <-. apply (cs_mono r rnd ST); auto; lia. }
    rewrite cumsum_r_length in Hk. rewrite E. assert (C1 : cs rnd l k <= u). { destruct k as [|k]; [exact Hu|]. apply (Hlo k); [lia|]. apply cs_nth; lia. }
    assert (C2 : (k < List.length l)%nat -> u < cs rnd l (S k)). { intros H. apply (Hhi k); auto. apply cs_nth; auto. }
    pose proof (cs_within r rnd ST l k F Hk) as (W1 & W2 & W3 & W4).
    assert (B1 : below l k <= u * r ^ k). { eapply Qcle_trans; [exact W3|]. apply qle_mul; auto. apply pow_nn; auto. }
    destruct (Nat.eq_dec k (List.length l)) as [Ek|Ek].
    - destruct (Qclt_le_dec u (below l k)) as [C|C].
      + exists (below l k). split; [apply within_le with k; auto; apply within_up; auto; apply Qclt_le_weak; auto|]. apply bisect_exact; auto; [apply Qcle_refl|lia].
      + exists u. split; [apply within_le with O; [auto|lia|apply within_refl; auto]|]. apply bisect_exact; auto. lia.
    - assert (Hk' : (k < List.length l)%nat) by lia. specialize (C2 Hk'). destruct (cs_ok r rnd ST l k F Hk') as ((V1 & V2 & V3 & V4) & Mo & Ze).
      assert (Hx : nth_error l k = Some (nth k l 0)) by (apply nth_error_nth'; auto).
      assert (Bp : below l k < below l (S k)).
      { rewrite (below_S l k _ Hx). assert (P : 0 < nth k l 0). { destruct (Qcle_lt_or_eq 0 (nth k l 0)) as [P|P]; auto. { apply Hn. apply nth_In; auto. }
          exfalso. symmetry in P. apply Ze in P. apply (Qclt_not_le _ _ C2). rewrite P. auto. }
        rewrite <- (Qcplus_0_r (below l k)) at 1. apply qlt_add; auto. }
      assert (B2 : u < below l (S k) * r ^ S k) by (eapply Qclt_le_trans; eauto).
      destruct (Qclt_le_dec u (below l k)) as [C|C].
      + exists (below l k). split; [apply within_le with k; auto; apply within_up; auto; apply Qclt_le_weak; auto|]. apply bisect_exact; auto. apply Qcle_refl.
      + destruct (Qclt_le_dec u (below l (S k))) as [D|D].
        * exists u. split; [apply within_le with O; [auto|lia|apply within_refl; auto]|]. apply bisect_exact; auto.
        * assert (Pp : 0 < r ^ S k). { eapply Qclt_le_trans; [|apply (pow_ge1 r (S k)); auto]. reflexivity. }
          assert (Pn : r ^ S k <> 0) by (intros Z; rewrite Z in Pp; apply (Qclt_not_eq _ _ Pp); auto).
          set (w := u / r ^ S k). assert (Ew : w * r ^ S k = u) by (unfold w; field; auto).
          assert (Hw : w < below l (S k)). { apply Qcnot_le_lt. intros H. apply (Qclt_not_le _ _ B2). rewrite <- Ew. apply qle_mul; auto. apply Qclt_le_weak; auto. }
          assert (Hw0 : 0 <= w). { unfold w. apply qdiv_nonneg; auto. apply Qclt_le_weak; auto. }
          assert (Hwu : w <= u). { rewrite <- Ew. rewrite <- (Qcmult_1_r w) at 1. rewrite (Qcmult_comm w 1), (Qcmult_comm w). apply qle_mul; auto. apply pow_ge1; auto. }
          destruct (Qclt_le_dec w (below l k)) as [G|G].
          -- exists (below l k). split; [|apply bisect_exact; auto; apply Qcle_refl]. apply within_le with (S k); auto. apply within_sym, within_up; auto.
             rewrite <- Ew. apply qle_mul; apply Qclt_le_weak; auto.
          -- exists w. split; [|apply bisect_exact; auto]. apply within_le with (S k); auto. apply within_sym, within_up; auto. rewrite Ew. apply Qcle_refl.
  Qed.
End Row.
