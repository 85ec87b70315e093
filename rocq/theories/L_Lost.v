(** Cliques without neighbours. *)
From Verif Require Import Py M_Graph M_Node M_Pptc M_Serde Spec SpecNet SpecEv SpecRe SpecSer SpecChord SpecPart SpecLost L_Base L_PD L_Sums L_Table L_Tree L_Walk L_Forest L_Root L_Good L_Prop L_Init L_Post L_Read
  L_Ids L_Trans L_Elim L_UG L_Tri L_Moral L_Build L_Exact L_Apply L_Net L_Evid L_Hist L_Claims L_Shape L_Shown L_P1 L_Reapply L_Rebuild L_Serde L_P8 L_Det L_Again L_Part L_Part2 L_Part3 L_Part4 L_Part5 L_Chord L_Chord2.
Open Scope nat_scope.

(** ** a set the elimination makes that no edge leaves was complete from the start *)
Lemma lone_joined size V E steps : eliminates size V E steps -> on V E -> (exists e : Z -> Z -> bool, forall x y, E x y <-> e x y = true) ->
  forall K, In K (sets steps) -> (forall x y, In x K -> E x y -> In y K) -> all_joined E K.
Proof.
  induction 1 as [E|V V' v nbrs E steps HP HC HN HNs He IH]; intros H (e & Hd) K HK Hcl; [destruct HK|].
  assert (HV : NoDup (v :: V')) by (eapply Permutation_NoDup; [exact HP|apply H]). inversion HV as [|? ? Nv NV']; subst.
  destruct HK as [<-|HK]; cbn [fst snd] in *.
  - intros a b Ha Hb Hab. apply Hd. destruct (e a b) eqn:Eab; [reflexivity|exfalso].
    assert (NE : ~ E a b) by (rewrite Hd; congruence).
    assert (HvK : forall x, In x (nbrs ++ [v]) -> x <> v -> E v x). { intros x Hx Hn. apply in_app_or in Hx. destruct Hx as [Hx|[Hx|[]]]; [apply HNs; auto|congruence]. }
    assert (Hav : a <> v) by (intros ->; apply NE, HvK; auto).
    assert (Hbv : b <> v). { intros ->. apply NE. apply (on_sym _ _ H). apply HvK; auto. }
    pose proof (HvK a Ha Hav) as Eva. pose proof (HvK b Hb Hbv) as Evb.
    assert (HaV : In a V'). { destruct (on_in _ _ H _ _ Eva) as (_ & Q & _). destruct (Permutation_in _ HP Q) as [Q'|Q']; [congruence|exact Q']. }
    destruct (HC a HaV) as (n & w & n' & w' & (l & L1 & L2 & L3) & _ & (l' & M1 & M2 & M3) & _ & R).
    set (m := if Z.ltb a b then (a, b) else (b, a)).
    assert (Hm : In m l). { unfold m. destruct (Z.ltb_spec a b); apply L2; repeat split; auto; try lia. intros Q. apply NE, (on_sym _ _ H), Q. }
    assert (Hm' : ~ In m l').
    { assert (Irr : ~ E a a) by (intros Q; destruct (on_in _ _ H _ _ Q) as (_ & _ & Q'); congruence).
      unfold m. destruct (Z.ltb_spec a b); intros Q; apply M2 in Q; tauto. }
    assert (Hs : incl (m :: l') l).
    { intros [x y] [Q|Q]; [rewrite <- Q; exact Hm|]. apply M2 in Q. destruct Q as (Q1 & Q2 & Q3 & Q4). pose proof (Hcl a x Ha Q2) as Kx. pose proof (Hcl a y Ha Q3) as Ky.
      assert (x <> v). { intros ->. apply Q4, HvK; auto. lia. } assert (y <> v). { intros ->. apply Q4. apply (on_sym _ _ H). apply HvK; auto. }
      apply L2. repeat split; auto. }
    assert (Q : List.length (m :: l') <= List.length l) by (apply NoDup_incl_length; [constructor; auto|exact Hs]). simpl in Q. lia.
  - pose proof (on_without _ _ _ _ HP H) as H'. pose proof (sets_in size _ _ _ He H' K HK) as KV'.
    assert (NvK : ~ In v K) by (intros Q; apply Nv, KV', Q).
    assert (NvE : forall x, In x K -> ~ E v x). { intros x Hx Q. apply NvK. apply (Hcl x v Hx). apply (on_sym _ _ H), Q. }
    assert (Q : all_joined (without v E) K).
    { apply IH; auto.
      - exists (fun x y => negb (Z.eqb x v) && negb (Z.eqb y v) && (e x y || (negb (Z.eqb x y) && e v x && e v y))). intros x y. unfold without. rewrite !andb_true_iff, orb_true_iff, !andb_true_iff, !negb_true_iff, !Z.eqb_neq, !Hd. tauto.
      - intros x y Hx (_ & _ & [Q|(_ & Q & _)]); [eapply Hcl; eauto|destruct (NvE x Hx Q)]. }
    intros x y Hx Hy Hn. destruct (Q x y Hx Hy Hn) as (_ & _ & [A|(_ & A & _)]); [exact A|destruct (NvE x Hx A)].
Qed.

(** ** cliques that share no variable with others *)
Lemma lone_apart j c d v : JG j -> jcount j -> In c (jt_cliques j) -> existsb (touch c) (jt_sepsets j) = false ->
  In d (jt_cliques j) -> In v (cl_nodes c) -> In v (cl_nodes d) -> d = c.
Proof.
  intros HJ Hn Hc Hl Hd Hv Hv'. destruct (trees_exist ord_id j c) as (t & ts & T); auto. { exact ord_id_ok. }
  assert (Et : t = RN c []).
  { pose proof (tr_root _ _ _ _ _ T) as R. pose proof (tr_j _ _ _ _ _ T) as J. inversion J as [|? ? J1 J2]; subst. destruct t as [c' kids]. simpl in *. destruct kids as [|[s t'] kids]; auto. exfalso.
    destruct (joinsT_inv _ _ J1 s t' (or_introl eq_refl)) as [Q _]. assert (Hs : In s (jt_sepsets j)). { apply (Permutation_in _ (tr_ss _ _ _ _ _ T)). unfold tseps. simpl. left; auto. }
    assert (X : existsb (touch c') (jt_sepsets j) = true). { apply existsb_exists. exists s. split; auto. unfold touch. apply orb_true_iff. destruct Q as [[-> _]|[_ ->]]; [left|right]; apply eqb_refl. }
    congruence. }
  subst t. pose proof (Permutation_in _ (Permutation_sym (tr_cl _ _ _ _ _ T)) Hd) as Q. unfold tcliques in Q. simpl in Q. destruct Q as [Q|Q]; auto. exfalso.
  apply in_flat_map in Q. destruct Q as [t' [Ht' Hdt]]. pose proof (tr_ok _ _ _ _ _ T) as O. inversion O as [|? ? O1 O2]; subst. rewrite Forall_forall in O2.
  pose proof (tr_nd _ _ _ _ _ T) as ND. simpl in ND. assert (In v (flat_map vlist ts)). { apply in_flat_map. exists t'. split; auto. eapply vlist_cover; eauto. }
  assert (In v (vlist (RN c []))). { unfold vlist. simpl. apply in_or_app; auto. }
  apply NoDup_app_iff in ND. destruct ND as (_ & _ & D). apply (D v); auto.
Qed.

(** ** in a fresh tree the cliques without neighbours are the solid parts *)
Definition lone (j : jtree) (c : clique) : Prop := existsb (touch c) (jt_sepsets j) = false.
Definition faithful (N : net) (j : jtree) : Prop := forall c i, In c (jt_cliques j) -> In i (cl_nodes c) -> (lone j c <-> solid N i).

Section Lone.
  Context (N : net) (nm : Z -> string) (j : jtree) (HJ : jnet N nm j) (HT : tight N j).
  Lemma lone_moral c x y : In c (jt_cliques j) -> lone j c -> In x (cl_nodes c) -> moral_edge N x y -> In y (cl_nodes c).
  Proof using HJ.
    intros Hc Hl Hx (_ & i & Hi & Hxi & Hyi). destruct (hg_fam _ _ _ _ (jn_hg _ _ _ HJ) i) as [d [Hd Hf]]. { apply (jn_ids _ _ _ HJ); auto. }
    assert (d = c) by (apply (lone_apart j c d x); auto; try apply HJ; try (apply Hf; auto)). subst d. apply Hf; auto.
  Qed.
  Lemma lone_path c x y : In c (jt_cliques j) -> lone j c -> In x (cl_nodes c) -> path (sym (is_parent N)) x y -> In y (cl_nodes c).
  Proof using HJ.
    intros Hc Hl Hx P. induction P as [x|x y z S P IH]; auto. apply IH. destruct (Z.eq_dec x y) as [<-|Hne]; auto. apply (lone_moral c x y); auto.
    destruct S as [[H1 H2]|[H1 H2]]; (split; [auto|]); [exists y|exists x]; rewrite !in_app_iff; simpl; auto 6.
  Qed.
  Context (size : Z -> Z) (steps : list (Z * list Z)) (He : eliminates size (vars N) (moral_edge N) steps) (Hon : on (vars N) (moral_edge N)).
  Context (Hdec : exists e : Z -> Z -> bool, forall x y, moral_edge N x y <-> e x y = true).
  Context (H1 : forall c, In c (jt_cliques j) -> exists v nbrs, In (v, nbrs) steps /\ same_members (cl_nodes c) (v :: nbrs)).
  Context (H2 : forall v nbrs, In (v, nbrs) steps -> exists c, In c (jt_cliques j) /\ incl (v :: nbrs) (cl_nodes c)).

  Theorem fresh_faithful : faithful N j.
  Proof using HJ HT He Hon Hdec H1 H2.
    intros c i Hc Hi. split.
    - intros Hl u v Pu Pv Huv. pose proof (lone_path c i u Hc Hl Hi Pu) as Iu. pose proof (lone_path c i v Hc Hl Hi Pv) as Iv.
      destruct (H1 c Hc) as (x & nbrs & Hs & Hm). assert (HK : In (nbrs ++ [x]) (sets steps)) by (apply in_map_iff; exists (x, nbrs); auto).
      assert (Q : forall y, In y (nbrs ++ [x]) <-> In y (cl_nodes c)). { intros y. rewrite (Hm y), in_app_iff. simpl. tauto. }
      apply (lone_joined size _ _ _ He Hon Hdec _ HK); auto; try (apply Q; auto). intros a b Ha Hab. apply Q. apply (lone_moral c a b); auto. apply Q; auto.
    - intros Hs. unfold lone. destruct (existsb (touch c) (jt_sepsets j)) eqn:E; auto. exfalso. apply existsb_exists in E. destruct E as [s [Hss Ht]].
      destruct (jg_ends _ (jn_JG _ _ _ HJ) s Hss) as [E1 [E2 E3]]. destruct (jg_ss _ (jn_JG _ _ _ HJ) s Hss) as [_ [I1 I2]]. destruct HT as [T1 [T2 [T3 T4]]].
      assert (Hinj : forall a b, In a (jt_cliques j) -> In b (jt_cliques j) -> cl_id a = cl_id b -> a = b).
      { pose proof (jg_ids_NoDup j (jn_JG _ _ _ HJ)) as Hnd. intros a b Ha Hb Eab. apply (id_inj (jt_cliques j)); auto. clear -Hnd. induction (map cl_id (jt_cliques j)); [constructor|]. inversion Hnd; subst. constructor; auto. rewrite in_app_iff in *; tauto. }
      assert (Hd : exists d, In d (jt_cliques j) /\ cl_id d <> cl_id c /\ incl (ss_nodes s) (cl_nodes c) /\ incl (ss_nodes s) (cl_nodes d)).
      { unfold touch in Ht. apply orb_true_iff in Ht. destruct Ht as [Ht|Ht]; apply eqb_true in Ht; apply Hinj in Ht; auto; subst c.
        - exists (ss_right s). auto. - exists (ss_left s). auto. }
      destruct Hd as (d & Hd & Hne & I3 & I4). destruct (ss_nodes s) as [|w ws] eqn:Ew; [destruct (T2 s Hss Ew)|].
      assert (Hr : forall x, In x (cl_nodes c ++ cl_nodes d) -> path (sym (is_parent N)) i x).
      { intros x Hx. apply in_app_or in Hx. destruct Hx as [Hx|Hx]; [apply (T1 c); auto|]. apply path_trans with w; [apply (T1 c)|apply (T1 d)]; auto; [apply I3|apply I4]; left; auto. }
      destruct (final_cover size _ _ _ He Hon (cl_nodes c ++ cl_nodes d)) as [K [HK HI]].
      + intros Q. apply app_eq_nil in Q. destruct Q as [Q _]. rewrite Q in Hi. destruct Hi.
      + intros x Hx. apply (jn_ids _ _ _ HJ). apply bbn_ids_In. apply in_app_or in Hx. destruct Hx; eauto.
      + intros x y Hx Hy Hxy. left. apply Hs; auto.
      + apply in_map_iff in HK. destruct HK as [[v nbrs] [<- Hv]]. destruct (H2 v nbrs Hv) as [k [Hk Hkn]]. cbn [fst snd] in HI.
        assert (HI' : incl (cl_nodes c ++ cl_nodes d) (cl_nodes k)). { intros x Hx. apply Hkn. apply HI in Hx. apply in_app_or in Hx. simpl in *. tauto. }
        assert (Ec : c = k) by (apply T4; auto; intros x Hx; apply HI', in_or_app; auto). assert (Ed : d = k) by (apply T4; auto; intros x Hx; apply HI', in_or_app; auto). congruence.
  Qed.
End Lone.
