(** Dirac: a chordal graph has a vertex whose neighbours are all joined. *)
From Verif Require Import Py M_Nx Spec SpecChord L_Base L_PD L_Table L_Nx.
Open Scope nat_scope.

Section Dirac.
  Context (e : Z -> Z -> bool) (Hsym : forall x y, e x y = e y x) (Hirr : forall x, e x x = false).
  Let E x y : Prop := e x y = true.

  (** a walk: each vertex joined to the next *)
  Fixpoint walk (l : list Z) : Prop :=
    match l with x :: (y :: _) as t => E x y /\ walk t | _ => True end.
  Lemma walk_nth l : walk l <-> forall k, k + 1 < List.length l -> E (nth k l 0%Z) (nth (k + 1) l 0%Z).
  Proof.
    induction l as [|x l IH]; [split; [simpl; intros; lia|simpl; auto]|]. destruct l as [|y l].
    - split; [simpl; intros; lia|simpl; auto].
    - change (walk (x :: y :: l)) with (E x y /\ walk (y :: l)). rewrite IH. split.
      + intros [A B] [|k] Hk; [exact A|]. apply (B k). simpl in *. lia.
      + intros H. split; [apply (H 0); simpl; lia|]. intros k Hk. apply (H (S k)). simpl in *. lia.
  Qed.
  Lemma walk_app_l a b : walk (a ++ b) -> walk a.
  Proof. rewrite !walk_nth. intros H k Hk. specialize (H k). rewrite !app_nth1 in H by lia. apply H. rewrite app_length. lia. Qed.
  Lemma walk_app_r a b : walk (a ++ b) -> walk b.
  Proof.
    rewrite !walk_nth. intros H k Hk. specialize (H (List.length a + k)). rewrite !app_nth2 in H by lia.
    replace (List.length a + k - List.length a) with k in H by lia. replace (List.length a + k + 1 - List.length a) with (k + 1) in H by lia. apply H. rewrite app_length. lia.
  Qed.
  Lemma walk_join a x y b : walk (a ++ [x]) -> walk (y :: b) -> E x y -> walk ((a ++ [x]) ++ y :: b).
  Proof.
    intros H1 H2 H3. induction a as [|z a IH]; simpl in *; [split; [exact H3|exact H2]|].
    destruct a as [|w a]; simpl in *; tauto.
  Qed.

  (** no two vertices of the walk but consecutive ones are joined or equal *)
  Definition straight (l : list Z) : Prop :=
    forall i j, i + 1 < j -> j < List.length l -> e (nth i l 0%Z) (nth j l 0%Z) = false /\ nth i l 0%Z <> nth j l 0%Z.
  Definition bad (l : list Z) (p : nat * nat) : bool :=
    Nat.ltb (fst p + 1) (snd p) && (e (nth (fst p) l 0%Z) (nth (snd p) l 0%Z) || Z.eqb (nth (fst p) l 0%Z) (nth (snd p) l 0%Z)).
  Lemma straight_dec l : straight l \/ exists i j, i + 1 < j /\ j < List.length l /\ (E (nth i l 0%Z) (nth j l 0%Z) \/ nth i l 0%Z = nth j l 0%Z).
  Proof.
    destruct (find (bad l) (list_prod (seq 0 (List.length l)) (seq 0 (List.length l)))) as [[i j]|] eqn:F.
    - right. apply find_some in F. destruct F as [I B]. apply in_prod_iff in I. rewrite !in_seq in I. unfold bad in B. cbn [fst snd] in B.
      apply andb_prop in B. destruct B as [B1 B2]. apply Nat.ltb_lt in B1. apply orb_prop in B2. exists i, j. split; [exact B1|]. split; [lia|].
      destruct B2 as [B2|B2]; [left; exact B2|right; apply Z.eqb_eq; exact B2].
    - left. intros i j Hij Hj. pose proof (find_none _ _ F (i, j)) as N. assert (I : In (i, j) (list_prod (seq 0 (List.length l)) (seq 0 (List.length l)))).
      { apply in_prod_iff. rewrite !in_seq. lia. }
      specialize (N I). unfold bad in N. cbn [fst snd] in N. rewrite (proj2 (Nat.ltb_lt _ _) Hij) in N. cbn [andb] in N. apply orb_false_elim in N. destruct N as [N1 N2].
      split; [exact N1|]. apply Z.eqb_neq. exact N2.
  Qed.
  Lemma straight_NoDup l : walk l -> straight l -> NoDup l.
  Proof.
    intros W S. apply (NoDup_nth l 0%Z). intros i j Hi Hj Eq. destruct (Nat.lt_trichotomy i j) as [H|[H|H]]; [|exact H|].
    - exfalso. destruct (Nat.eq_dec j (i + 1)) as [->|Hn].
      + rewrite walk_nth in W. specialize (W i Hj). unfold E in W. rewrite <- Eq in W. rewrite Hirr in W. discriminate.
      + destruct (S i j) as [_ N]; [lia|exact Hj|]. congruence.
    - exfalso. destruct (Nat.eq_dec i (j + 1)) as [->|Hn].
      + rewrite walk_nth in W. specialize (W j Hi). unfold E in W. rewrite Eq in W. rewrite Hirr in W. discriminate.
      + destruct (S j i) as [_ N]; [lia|exact Hi|]. congruence.
  Qed.
  Lemma last_app_cons (a : list Z) x b d : last (a ++ x :: b) d = last (x :: b) d.
  Proof. induction a as [|y a IH]; [reflexivity|]. rewrite <- IH. simpl. destruct (a ++ x :: b) eqn:Q; [destruct a; discriminate|reflexivity]. Qed.
  Lemma walk_cut a x b : walk (a ++ x :: b) <-> walk (a ++ [x]) /\ walk (x :: b).
  Proof.
    induction a as [|z a IH]; [simpl; tauto|]. destruct a as [|w a].
    - simpl. tauto.
    - change (walk ((z :: w :: a) ++ x :: b)) with (E z w /\ walk ((w :: a) ++ x :: b)). rewrite IH. change (walk ((z :: w :: a) ++ [x])) with (E z w /\ walk ((w :: a) ++ [x])). tauto.
  Qed.
  Lemma two_split (l : list Z) i j : i < j -> j < List.length l ->
    exists a b c, l = a ++ nth i l 0%Z :: b ++ nth j l 0%Z :: c /\ List.length b = j - i - 1.
  Proof.
    intros Hij Hj. destruct (nth_split l 0%Z (n := i)) as (a & r & El & La); [lia|]. 
    assert (Er : nth j l 0%Z = nth (j - i - 1) r 0%Z).
    { rewrite El at 1. rewrite app_nth2 by lia. rewrite La. destruct (j - i) as [|q] eqn:Q; [lia|]. cbn [nth]. f_equal. lia. }
    assert (Lr : List.length r = List.length l - i - 1). { rewrite El at 1. rewrite app_length. simpl. lia. }
    destruct (nth_split r 0%Z (n := j - i - 1)) as (b & c & Er' & Lb); [lia|]. exists a, b, c. split; [|exact Lb]. rewrite Er, <- Er'. exact El.
  Qed.
  Lemma shorten n : forall l, List.length l <= n -> l <> [] -> walk l ->
    exists k, walk k /\ straight k /\ k <> [] /\ hd 0%Z k = hd 0%Z l /\ last k 0%Z = last l 0%Z /\ incl k l.
  Proof.
    induction n as [|n IH]; intros l Hl Hne W; [destruct l; [congruence|simpl in Hl; lia]|].
    destruct (straight_dec l) as [S|(i & j & Hij & Hj & Hb)]; [exists l; repeat split; auto using incl_refl; apply (S _ _ H H0)|].
    destruct (two_split l i j) as (a & b & c & El & Lb); [lia|exact Hj|]. set (x := nth i l 0%Z) in *. set (y := nth j l 0%Z) in *.
    assert (Hb' : 1 <= List.length b) by lia. clearbody x y. clear Hij Hj Lb i j.
    subst l. rewrite walk_cut in W. destruct W as [W1 W2]. pose proof (walk_app_r (x :: b) (y :: c) W2) as W3.
    assert (Hk : exists k, List.length k <= n /\ k <> [] /\ walk k /\ hd 0%Z k = hd 0%Z (a ++ x :: b ++ y :: c) /\ last k 0%Z = last (a ++ x :: b ++ y :: c) 0%Z /\ incl k (a ++ x :: b ++ y :: c)).
    { assert (EL : last (a ++ x :: b ++ y :: c) 0%Z = last (y :: c) 0%Z) by (rewrite (app_comm_cons b (y :: c) x), app_assoc; apply last_app_cons).
      rewrite app_length in Hl. cbn [List.length] in Hl. rewrite app_length in Hl. cbn [List.length] in Hl.
      destruct Hb as [Hb|Hb].
      - exists ((a ++ [x]) ++ y :: c). rewrite !app_length. cbn [List.length]. split; [lia|]. split; [destruct a; discriminate|]. split; [apply walk_join; assumption|].
        split; [destruct a; reflexivity|]. split; [rewrite EL; apply last_app_cons|]. intros z. rewrite !in_app_iff. cbn [In]. rewrite in_app_iff. cbn [In]. tauto.
      - exists (a ++ y :: c). rewrite app_length. cbn [List.length]. split; [lia|]. split; [destruct a; discriminate|]. split; [rewrite walk_cut; split; [rewrite <- Hb; exact W1|exact W3]|].
        split; [destruct a; [exact (eq_sym Hb)|reflexivity]|]. split; [rewrite EL; apply last_app_cons|]. intros z. rewrite !in_app_iff. cbn [In]. rewrite in_app_iff. cbn [In]. tauto. }
    destruct Hk as (k & K1 & K2 & K3 & K4 & K5 & K6). destruct (IH k K1 K2 K3) as (k' & A1 & A2 & A3 & A4 & A5 & A6). exists k'.
    split; [exact A1|]. split; [exact A2|]. split; [exact A3|]. split; [congruence|]. split; [congruence|]. eapply incl_tran; eauto.
  Qed.

  Definition simplicial (V : list Z) (z : Z) : Prop := forall a b, In a V -> In b V -> e z a = true -> e z b = true -> a <> b -> e a b = true.
  Lemma chordal_sub V V' : incl V' V -> chordal V E -> chordal V' E.
  Proof. intros I H c (A & B & C) L. apply H; [|exact L]. split; [exact A|]. split; [eapply incl_tran; eauto|exact C]. Qed.

  Section Far.
    Context (V : list Z) (HV : NoDup V) (Hch : chordal V E) (x z0 : Z) (Hx : In x V) (Hz : In z0 V) (Hzx : z0 <> x) (Hfar : e x z0 = false).
    Let W := filter (fun u => negb (Z.eqb u x) && negb (e x u)) V.
    Let adjW u := filter (e u) W.
    Let R u w := In w (adjW u).
    Let C := filter (fun u => mem u (closure (List.length W) adjW [z0])) W.
    Let Sp := filter (fun s => negb (mem s C) && existsb (e s) C) V.
    Lemma W_In u : In u W <-> In u V /\ u <> x /\ e x u = false.
    Proof. unfold W. rewrite filter_In, andb_true_iff, !negb_true_iff, Z.eqb_neq. tauto. Qed.
    Lemma z0_W : In z0 W.
    Proof using Hz Hzx Hfar. apply W_In. auto. Qed.
    Lemma R_iff u w : R u w <-> e u w = true /\ In w W.
    Proof. unfold R, adjW. rewrite filter_In. tauto. Qed.
    Lemma C_In u : In u C <-> In u W /\ path R z0 u.
    Proof using Hz Hzx Hfar.
      unfold C. rewrite filter_In, mem_In, (closure_iff W adjW); [reflexivity| |apply z0_W].
      intros a b _. unfold adjW. rewrite filter_In. tauto.
    Qed.
    Lemma z0_C : In z0 C.
    Proof using Hz Hzx Hfar. apply C_In. split; [apply z0_W|apply path_refl]. Qed.
    Lemma C_step c w : In c C -> e c w = true -> In w W -> In w C.
    Proof using Hz Hzx Hfar.
      rewrite !C_In. intros [_ P] A B. split; [exact B|]. eapply path_trans; [exact P|]. apply path_step with w; [apply R_iff; auto|apply path_refl].
    Qed.
    Lemma R_back a b : path R a b -> In a W -> path R b a.
    Proof using Hsym.
      induction 1 as [a|a b c H P IH]; intros Ha; [apply path_refl|]. apply R_iff in H. destruct H as [H Hb]. eapply path_trans; [apply IH; exact Hb|].
      apply path_step with a; [apply R_iff; split; [rewrite Hsym; exact H|exact Ha]|apply path_refl].
    Qed.
    Lemma R_walk a b : path R a b -> In a C -> exists k, k <> [] /\ walk k /\ hd 0%Z k = a /\ last k 0%Z = b /\ incl k C.
    Proof using Hz Hzx Hfar.
      induction 1 as [a|a b c H P IH]; intros Ha.
      - exists [a]. split; [discriminate|]. split; [exact I|]. split; [reflexivity|]. split; [reflexivity|]. intros y [<-|[]]. exact Ha.
      - apply R_iff in H. destruct H as [H Hb]. destruct IH as (k & K1 & K2 & K3 & K4 & K5); [eapply C_step; eauto|]. exists (a :: k). split; [discriminate|].
        destruct k as [|y k]; [congruence|]. cbn [hd] in K3. subst y. split; [split; [exact H|exact K2]|]. split; [reflexivity|]. split; [exact K4|]. intros y [<-|Hy]; auto.
    Qed.
    Lemma C_walk a b : In a C -> In b C -> exists k, k <> [] /\ walk k /\ hd 0%Z k = a /\ last k 0%Z = b /\ incl k C.
    Proof using Hz Hzx Hfar Hsym.
      intros Ha Hb. apply R_walk; [|exact Ha]. apply C_In in Ha. apply C_In in Hb. eapply path_trans; [apply R_back; [apply Ha|apply z0_W]|]. apply Hb.
    Qed.
    Lemma Sp_In s : In s Sp <-> In s V /\ ~ In s C /\ exists c, In c C /\ e s c = true.
    Proof. unfold Sp. rewrite filter_In, andb_true_iff, negb_true_iff, existsb_exists. destruct (mem_spec s C); intuition congruence. Qed.
    Lemma Sp_near s : In s Sp -> e x s = true.
    Proof using Hz Hzx Hfar Hsym.
      rewrite Sp_In. intros (A & B & c & Hc & Q). destruct (e x s) eqn:F; [reflexivity|]. exfalso. apply B. apply C_step with c; [exact Hc|rewrite Hsym; exact Q|]. apply W_In. split; [exact A|]. split; [|exact F].
      intros ->. apply C_In in Hc. destruct Hc as [Hc _]. apply W_In in Hc. destruct Hc as (_ & _ & Hc). congruence.
    Qed.
    Lemma C_far c : In c C -> In c V /\ c <> x /\ e x c = false.
    Proof using Hz Hzx Hfar. intros H. apply C_In in H. apply W_In. apply H. Qed.
    Lemma Sp_joined s t : In s Sp -> In t Sp -> s <> t -> e s t = true.
    Proof using Hz Hzx Hfar Hsym Hirr Hch Hx.
      intros Hs Ht Hn. destruct (e s t) eqn:F; [reflexivity|]. exfalso.
      pose proof (Sp_near s Hs) as Ns. pose proof (Sp_near t Ht) as Nt.
      apply Sp_In in Hs. destruct Hs as (S1 & S2 & c & Hc & S3). apply Sp_In in Ht. destruct Ht as (T1 & T2 & d & Hd & T3).
      destruct (C_walk c d Hc Hd) as (k & K1 & K2 & K3 & K4 & K5).
      assert (Wk : walk (s :: k ++ [t])).
      { destruct k as [|y k]; [congruence|]. cbn [hd] in K3. subst y. destruct (exists_last K1) as (k' & d' & El). rewrite El in K4. rewrite last_last in K4. subst d'.
        change (s :: (c :: k) ++ [t]) with ([s] ++ c :: k ++ [t]). apply (walk_join [] s c (k ++ [t])); [exact I| |exact S3].
        change (walk ((c :: k) ++ [t])). rewrite El in *. apply (walk_join k' d t []); [exact K2|exact I|]. unfold E. rewrite Hsym. exact T3. }
      destruct (shorten (List.length (s :: k ++ [t])) (s :: k ++ [t])) as (l & L1 & L2 & L3 & L4 & L5 & L6); [lia|discriminate|exact Wk|]. cbn [hd] in L4.
      rewrite app_comm_cons in L5. rewrite last_last in L5.
      assert (Lin : forall y, In y l -> y = s \/ y = t \/ In y C). { intros y Hy. apply L6 in Hy. destruct Hy as [<-|Hy]; [auto|]. apply in_app_iff in Hy. destruct Hy as [Hy|[<-|[]]]; auto. }
      assert (ND : NoDup l) by (apply straight_NoDup; assumption).
      assert (Ln : 3 <= List.length l).
      { destruct l as [|a [|b [|g l]]]; [congruence| | |simpl; lia]; exfalso.
        - cbn [hd last] in L4, L5. congruence.
        - cbn [hd last] in L4, L5. subst a b. destruct L1 as [L1 _]. unfold E in L1. congruence. }
      assert (Nx : forall y, In y l -> y <> x).
      { intros y Hy ->. destruct (Lin x Hy) as [Q|[Q|Q]]; [subst s; congruence|subst t; congruence|]. apply C_far in Q. tauto. }
      assert (El : hd 0%Z l = nth 0 l 0%Z) by (destruct l; reflexivity).
      assert (Et : last l 0%Z = nth (List.length l - 1) l 0%Z).
      { destruct (exists_last L3) as (l' & w & ->). rewrite last_last, app_length, app_nth2 by (simpl; lia). simpl. replace (List.length l' + 1 - 1 - List.length l') with 0 by lia. reflexivity. }
      destruct (Hch (x :: l)) as (i & j & I1 & I2 & I3 & I4).
      - split; [constructor; [intros Q; apply (Nx x Q); reflexivity|exact ND]|]. split.
        { intros y [<-|Hy]; [exact Hx|]. destruct (Lin y Hy) as [->|[->|Q]]; auto. apply C_far in Q. tauto. }
        split.
        + intros [|m] Hm; cbn [nth Nat.add].
          * rewrite <- El, L4. exact Ns.
          * apply (proj1 (walk_nth l) L1). simpl in Hm. lia.
        + destruct l as [|a l]; [congruence|]. change (last (x :: a :: l) 0%Z) with (last (a :: l) 0%Z). rewrite L5. cbn [hd]. unfold E. rewrite Hsym. exact Nt.
      - simpl. lia.
      - cbn [List.length] in I2, I3. destruct j as [|j]; [lia|]. cbn [nth] in I4. destruct i as [|i]; cbn [nth] in I4.
        + assert (Hj : In (nth j l 0%Z) l) by (apply nth_In; lia). destruct (Lin _ Hj) as [Q|[Q|Q]].
          * rewrite <- L4, El in Q. apply (proj1 (NoDup_nth l 0%Z) ND) in Q; lia.
          * rewrite <- L5, Et in Q. apply (proj1 (NoDup_nth l 0%Z) ND) in Q; lia.
          * apply C_far in Q. unfold E in I4. destruct Q as (_ & _ & Q). congruence.
        + destruct (L2 i j) as [Q _]; [lia|lia|]. unfold E in I4. congruence.
    Qed.
    Lemma C_close z a : In z C -> In a V -> e z a = true -> In a C \/ In a Sp.
    Proof. intros H1 H2 H3. destruct (in_dec Z.eq_dec a C) as [H|H]; [left; exact H|right]. apply Sp_In. split; [exact H2|]. split; [exact H|]. exists z. split; [exact H1|]. rewrite Hsym. exact H3. Qed.
    Lemma far_part : exists C S, NoDup C /\ NoDup S /\ incl C V /\ incl S V /\ In z0 C /\ (forall c, In c C -> c <> x /\ e x c = false) /\
      (forall s t, In s S -> In t S -> s <> t -> e s t = true) /\ ~ In x S /\ (forall s, In s S -> ~ In s C) /\
      (forall z a, In z C -> In a V -> e z a = true -> In a C \/ In a S).
    Proof using Hz Hzx Hfar Hsym Hirr Hch Hx HV.
      exists C, Sp. split; [unfold C, W; auto using NoDup_filter|]. split; [unfold Sp; auto using NoDup_filter|]. split; [intros c Hc; apply (C_far c Hc)|].
      split; [intros s Hs; apply Sp_In in Hs; tauto|]. split; [apply z0_C|]. split; [intros c Hc; apply (C_far c Hc)|]. split; [apply Sp_joined|].
      split; [intros Q; apply Sp_near in Q; rewrite Hirr in Q; discriminate|]. split; [intros s Hs; apply Sp_In in Hs; tauto|]. apply C_close.
    Qed.
  End Far.

  Lemma pair_dec (P : Z -> Z -> bool) (A B : list Z) : (exists a b, In a A /\ In b B /\ P a b = true) \/ (forall a b, In a A -> In b B -> P a b = false).
  Proof.
    destruct (find (fun p => P (fst p) (snd p)) (list_prod A B)) as [[a b]|] eqn:F.
    - left. apply find_some in F. destruct F as [F1 F2]. apply in_prod_iff in F1. exists a, b. tauto.
    - right. intros a b Ha Hb. apply (find_none _ _ F (a, b)). apply in_prod_iff. auto.
  Qed.
  Let apart a b := negb (Z.eqb b a) && negb (e a b).
  Lemma apart_true a b : apart a b = true <-> b <> a /\ e a b = false.
  Proof. unfold apart. rewrite andb_true_iff, !negb_true_iff, Z.eqb_neq. tauto. Qed.
  Lemma apart_false a b : apart a b = false -> b <> a -> e a b = true.
  Proof. intros H Hn. destruct (e a b) eqn:F; [reflexivity|]. rewrite (proj2 (apart_true a b) (conj Hn F)) in H. discriminate. Qed.

  Lemma far_simplicial n : forall V, List.length V <= n -> NoDup V -> chordal V E -> forall x z0, In x V -> In z0 V -> z0 <> x -> e x z0 = false ->
    exists z, In z V /\ z <> x /\ e x z = false /\ simplicial V z.
  Proof using Hsym Hirr.
    induction n as [|n IH]; intros V Hl HV Hch x z0 Hx Hz Hn Hf; [destruct V; [destruct Hx|simpl in Hl; lia]|].
    destruct (far_part V HV Hch x z0 Hx Hz Hn Hf) as (C & S & NC & NS & IC & IS & ZC & FC & JS & XS & SC & CL).
    assert (Lift : forall z, In z C -> (forall a b, In a (C ++ S) -> In b (C ++ S) -> e z a = true -> e z b = true -> a <> b -> e a b = true) ->
                     exists z, In z V /\ z <> x /\ e x z = false /\ simplicial V z).
    { intros z Hzc Hs. exists z. destruct (FC z Hzc) as [F1 F2]. split; [auto|]. split; [exact F1|]. split; [exact F2|]. intros a b Ha Hb Ea Eb. apply Hs; auto; apply in_app_iff; eapply CL; eauto. }
    assert (HCS : NoDup (C ++ S)). { apply NoDup_app_intro; auto. intros y Hy Hy'. apply (SC y Hy' Hy). }
    assert (LCS : List.length (C ++ S) <= n).
    { assert (L : List.length (x :: C ++ S) <= List.length V); [|simpl in L; lia]. apply NoDup_incl_length.
      - constructor; [|exact HCS]. rewrite in_app_iff. intros [Q|Q]; [|exact (XS Q)]. destruct (FC x Q) as [Q' _]. congruence.
      - intros y [<-|Hy]; [exact Hx|]. apply in_app_iff in Hy. destruct Hy; auto. }
    assert (ICS : incl (C ++ S) V) by (intros y Hy; apply in_app_iff in Hy; destruct Hy; auto).
    destruct (pair_dec apart S (C ++ S)) as [(s & u & Hs & Hu & Ha)|Huni].
    - apply apart_true in Ha. destruct Ha as [Ha1 Ha2].
      destruct (IH (C ++ S) LCS HCS (chordal_sub _ _ ICS Hch) s u) as (z & Z1 & Z2 & Z3 & Z4); auto; [apply in_app_iff; auto|].
      apply (Lift z); [|exact Z4]. apply in_app_iff in Z1. destruct Z1 as [Z1|Z1]; [exact Z1|]. rewrite (JS s z Hs Z1) in Z3 by congruence. discriminate.
    - assert (Huni' : forall s u, In s S -> In u (C ++ S) -> s <> u -> e s u = true). { intros s u Hs Hu Hsu. apply apart_false; auto. }
      assert (Cs : forall z, In z C -> simplicial C z -> exists z, In z V /\ z <> x /\ e x z = false /\ simplicial V z).
      { intros z Hzc Hs. apply (Lift z Hzc). intros a b Ha Hb Ea Eb Hab. apply in_app_iff in Ha as Ha'. destruct Ha' as [Ha'|Ha']; [|apply Huni'; auto].
        apply in_app_iff in Hb as Hb'. destruct Hb' as [Hb'|Hb']; [apply Hs; auto|]. rewrite Hsym. apply Huni'; auto. }
      destruct (pair_dec apart C C) as [(s & u & Hs & Hu & Ha)|Hcomp].
      + apply apart_true in Ha. destruct Ha as [Ha1 Ha2]. rewrite app_length in LCS.
        destruct (IH C) with (x := s) (z0 := u) as (z & Z1 & Z2 & Z3 & Z4); auto; [lia|apply (chordal_sub V); assumption|]. apply (Cs z Z1 Z4).
      + apply (Cs z0 ZC). intros a b Ha Hb _ _ Hab. apply apart_false; auto.
  Qed.
  Theorem has_simplicial V : V <> [] -> NoDup V -> chordal V E -> exists z, In z V /\ simplicial V z.
  Proof using Hsym Hirr.
    intros Hne HV Hch. destruct (pair_dec apart V V) as [(s & u & Hs & Hu & Ha)|Hcomp].
    - apply apart_true in Ha. destruct Ha as [Ha1 Ha2]. destruct (far_simplicial (List.length V) V (Nat.le_refl _) HV Hch s u Hs Hu Ha1 Ha2) as (z & Z1 & _ & _ & Z4). exists z. auto.
    - destruct V as [|z V]; [congruence|]. exists z. split; [left; reflexivity|]. intros a b Ha Hb _ _ Hab. apply apart_false; auto.
  Qed.
End Dirac.
