(** Drawing from rounded sums. *)
From Verif Require Import Py M_Graph M_Node M_Pptc M_Round M_Sampling M_RoundSamp Spec SpecSamp SpecRound SpecStored L_Base L_Round L_Samp.
Open Scope nat_scope.
Open Scope Qc_scope.

Section Row.
  Context (r : Qc) (rnd : Qc -> Qc) (ST : steady r rnd).
  Let R1 : 1 <= r := st_one _ _ ST.

  Lemma stored_nn q : stored rnd q -> 0 <= q.
  Proof. intros (x & Hx & ->). apply (st_near _ _ ST x Hx). Qed.
  Lemma stored_keep acc q : stored rnd acc -> 0 <= q -> acc <= rnd (acc + q).
  Proof.
    intros Ha Hq. pose proof (stored_nn _ Ha) as Ha0. destruct Ha as (x & Hx & E). assert (L : acc <= acc + q). { rewrite <- (Qcplus_0_r acc) at 1. apply Qcplus_le_compat; [apply Qcle_refl|auto]. }
    rewrite E at 1. apply (st_down _ _ ST); auto. { eapply Qcle_trans; eauto. } rewrite <- E. auto.
  Qed.
  Lemma stored_zero acc : stored rnd acc -> rnd (acc + 0) = acc.
  Proof.
    intros Ha. pose proof (stored_nn _ Ha) as Ha0. apply Qcle_antisym; [|apply stored_keep; auto; discriminate]. rewrite Qcplus_0_r. destruct Ha as (x & Hx & E). rewrite E at 2. apply (st_up _ _ ST); auto. rewrite E. apply Qcle_refl.
  Qed.
  Lemma from_ok l : forall acc A m, Forall (stored rnd) l -> stored rnd acc -> within r m A acc -> forall i, (i < List.length l)%nat ->
    exists d prev, nth_error (cumsum_from_r rnd acc l) i = Some d /\ nth_error (acc :: cumsum_from_r rnd acc l) i = Some prev /\
      within r (m + S i) (A + below l (S i)) d /\ prev <= d /\ (nth i l 0 = 0 -> d = prev).
  Proof.
    induction l as [|q l IH]; intros acc A m F Ha W i Hi; [simpl in Hi; lia|]. inversion F as [|? ? Fq Fl]; subst. pose proof (stored_nn _ Ha) as Ha0. pose proof (stored_nn _ Fq) as Hq0.
    assert (Hs : 0 <= acc + q) by (apply qnn_add; auto). assert (Ws : within r (m + 1) (A + q) (rnd (acc + q))).
    { eapply within_trans; [exact R1| |apply (st_near _ _ ST); auto]. apply within_add; auto. apply within_le with O; [auto|lia|]. apply within_refl; auto. }
    destruct i as [|i].
    - exists (rnd (acc + q)), acc. split; [reflexivity|]. split; [reflexivity|]. split.
      { unfold below. simpl firstn. rewrite qsum_cons. change (qsum []) with 0. rewrite Qcplus_0_r. exact Ws. }
      split; [apply stored_keep; auto|]. simpl. intros ->. apply stored_zero; auto.
    - destruct (IH (rnd (acc + q)) (A + q) (m + 1)%nat Fl ltac:(exists (acc + q); auto) Ws i ltac:(simpl in Hi; lia)) as (d & prev & D1 & D2 & D3 & D4 & D5).
      exists d, prev. split; [exact D1|]. split; [exact D2|]. split.
      { replace (m + S (S i))%nat with (m + 1 + S i)%nat by lia. unfold below in *. rewrite firstn_cons, qsum_cons. rewrite Qcplus_assoc. exact D3. }
      split; [exact D4|exact D5].
  Qed.
  (** partial sums, from 0 *)
  Definition cs (l : list Qc) (i : nat) : Qc := nth i (0 :: cumsum_r rnd l) 0.
  Lemma from_length l : forall acc, List.length (cumsum_from_r rnd acc l) = List.length l.
  Proof. induction l; intros acc; simpl; auto. Qed.
  Lemma cumsum_r_length l : List.length (cumsum_r rnd l) = List.length l.
  Proof. destruct l; simpl; auto. rewrite from_length. auto. Qed.
  Lemma cs_nth l i : (i < List.length l)%nat -> nth_error (cumsum_r rnd l) i = Some (cs l (S i)).
  Proof. intros H. unfold cs. simpl. apply nth_error_nth'. rewrite cumsum_r_length. auto. Qed.
  Lemma nth_of {A} (l : list A) i x d : nth_error l i = Some x -> nth i l d = x.
  Proof. intros H. apply nth_error_nth. auto. Qed.
  Lemma cs_ok l i : Forall (stored rnd) l -> (i < List.length l)%nat -> within r (S i) (below l (S i)) (cs l (S i)) /\ cs l i <= cs l (S i) /\ (nth i l 0 = 0 -> cs l (S i) = cs l i).
  Proof.
    intros F H. destruct l as [|q l]; [simpl in H; lia|]. inversion F as [|? ? Fq Fl]; subst. pose proof (stored_nn _ Fq) as Hq0. destruct i as [|i].
    - unfold cs, below. simpl. change (qsum [q]) with (0 + q). rewrite Qcplus_0_l. split; [|auto]. apply within_le with O; [auto|lia|apply within_refl; auto].
    - destruct (from_ok l q q 1 Fl Fq ltac:(apply within_le with O; [auto|lia|apply within_refl; auto]) i ltac:(simpl in H; lia)) as (d & prev & D1 & D2 & D3 & D4 & D5).
      assert (E1 : cs (q :: l) (S (S i)) = d). { unfold cs. simpl. apply nth_of. exact D1. }
      assert (E2 : cs (q :: l) (S i) = prev). { unfold cs. simpl. apply (nth_of (q :: cumsum_from_r rnd q l)). exact D2. }
      rewrite E1, E2. split; [|split; [exact D4|exact D5]]. replace (S (S i)) with (1 + S i)%nat by lia. unfold below in *. simpl Nat.add. rewrite firstn_cons, qsum_cons. exact D3.
  Qed.
  Lemma cs_within l i : Forall (stored rnd) l -> (i <= List.length l)%nat -> within r i (below l i) (cs l i).
  Proof. intros F H. destruct i as [|i]; [apply within_refl; discriminate|]. apply cs_ok; auto. Qed.
  Lemma cs_mono l i j : Forall (stored rnd) l -> (i <= j)%nat -> (j <= List.length l)%nat -> cs l i <= cs l j.
  Proof. intros F. induction 1 as [|j Hj IH]; intros H; [apply Qcle_refl|]. eapply Qcle_trans; [apply IH; lia|]. apply cs_ok; auto. Qed.
End Row.
