(** Restoring a tree keeps the parts that are not solid. *)
From Verif Require Import Py M_Graph M_Node M_Pptc M_Serde Spec SpecNet SpecEv SpecRe SpecSer SpecChord SpecPart SpecLost L_Base L_PD L_Sums L_Table L_Tree L_Walk L_Forest L_Root L_Good L_Prop L_Init L_Post L_Read
  L_Ids L_Trans L_Elim L_UG L_Tri L_Moral L_Build L_Exact L_Apply L_Net L_Evid L_Hist L_Claims L_Shape L_Shown L_P1 L_Reapply L_Rebuild L_Serde L_P8 L_Det L_Again L_Part L_Part2 L_Part3 L_Part4 L_Part5 L_Chord L_Chord2 L_Lost.
Open Scope nat_scope.

Lemma kept_yes j c : In c (kept j) <-> In c (jt_cliques j) /\ (jt_sepsets j = [] \/ ~ lone j c).
Proof.
  unfold kept, lone. destruct (jt_sepsets j) as [|s l] eqn:E; [tauto|]. rewrite filter_In. destruct (existsb (touch c) (s :: l)); intuition congruence.
Qed.

Section Less.
  Context (N : net) (HN : nshape N) (j : jtree) (HJ : JG j).
  Context (Hids : forall i, In i (jt_bbn_ids j) <-> In i (vars N)) (HT : tight N j) (HF : faithful N j).
  Context (Hfam : forall i, In i (vars N) -> exists c, In c (jt_cliques j) /\ incl (par N i ++ [i]) (cl_nodes c)).
  Context (f : Z -> bool) (Hf : forall i, In i (vars N) -> f i = true <-> (forall k, In k (vars N) -> solid N k) \/ ~ solid N i).
  Let N' := mkNet (filter f (vars N)) (dom N) (fun i => if f i then par N i else []) (cpt N).

  Lemma in_vars c i : In c (jt_cliques j) -> In i (cl_nodes c) -> In i (vars N).
  Proof using Hids. intros Hc Hi. apply Hids. apply bbn_ids_In. eauto. Qed.
  Lemma in_clique i : In i (vars N) -> exists c, In c (jt_cliques j) /\ In i (cl_nodes c).
  Proof using Hids. intros Hi. apply bbn_ids_In. apply Hids; auto. Qed.
  Lemma keeps_f c i : In c (jt_cliques j) -> In i (cl_nodes c) -> (f i = true <-> In c (kept j)).
  Proof using Hids HT HF Hf HJ.
    intros Hc Hi. rewrite (Hf i (in_vars c i Hc Hi)), kept_yes. pose proof (HF c i Hc Hi) as Q. destruct (jt_sepsets j) as [|s l] eqn:E.
    - split; auto. intros _. left. intros k Hk. destruct (in_clique k Hk) as [d [Hd Hkd]]. apply (HF d k Hd Hkd). unfold lone. rewrite E. reflexivity.
    - split; [intros [H|H]|].
      + split; auto. right. intros Hl. assert (Hs : In s (jt_sepsets j)) by (rewrite E; left; auto). destruct (jg_ends _ HJ s Hs) as [Ha _]. destruct HT as [_ [_ [T3 _]]].
        destruct (cl_nodes (ss_left s)) as [|w ws] eqn:Ew; [destruct (T3 _ Ha Ew)|]. assert (Hw : In w (cl_nodes (ss_left s))) by (rewrite Ew; left; auto).
        pose proof (proj2 (HF _ w Ha Hw) (H w (in_vars _ w Ha Hw))) as L. unfold lone in L. rewrite E in L. simpl in L. unfold touch in L. rewrite eqb_refl in L. discriminate.
      + split; auto. right. tauto.
      + intros [_ [H|H]]; [discriminate|]. right. tauto.
  Qed.
  Lemma keeps_family i p : In i (vars N) -> In p (par N i) -> f p = f i.
  Proof using Hids HT HF Hf HJ Hfam.
    intros Hi Hp. destruct (Hfam i Hi) as [c [Hc Hin]]. assert (Ip : In p (cl_nodes c)) by (apply Hin, in_or_app; auto). assert (Ii : In i (cl_nodes c)) by (apply Hin, in_or_app; simpl; auto).
    pose proof (keeps_f c p Hc Ip). pose proof (keeps_f c i Hc Ii). destruct (f p), (f i); intuition congruence.
  Qed.
  Lemma keeps_path x y : path (sym (is_parent N)) x y -> f x = f y.
  Proof using Hids HT HF Hf HJ Hfam.
    intros P. induction P as [x|x y z S P IH]; auto. rewrite <- IH. destruct S as [[H1 H2]|[H1 H2]]; [apply (keeps_family y x)|symmetry; apply (keeps_family x y)]; auto.
  Qed.
  Lemma less_vars i : In i (vars N') <-> In i (vars N) /\ f i = true. Proof using. unfold N'. simpl. apply filter_In. Qed.
  Lemma less_par i : In i (vars N') -> par N' i = par N i. Proof using. rewrite less_vars. intros [_ E]. unfold N'. simpl. rewrite E. auto. Qed.
  Lemma less_step x y : sym (is_parent N') x y <-> sym (is_parent N) x y /\ f x = true.
  Proof using Hids HT HF Hf HJ Hfam.
    assert (Q : forall p i, is_parent N' p i <-> is_parent N p i /\ f i = true).
    { intros p i. unfold is_parent. rewrite less_vars. unfold N'. simpl. destruct (f i); simpl; intuition congruence. }
    unfold sym. rewrite !Q. split.
    - intros [[H E]|[H E]]; split; auto. destruct H as [H1 H2]. rewrite (keeps_family y x); auto.
    - intros [[H|H] E]; [left|right]; split; auto. destruct H as [H1 H2]. rewrite <- (keeps_family y x); auto.
  Qed.
  Lemma less_path x y : path (sym (is_parent N')) x y <-> x = y \/ (path (sym (is_parent N)) x y /\ f x = true).
  Proof using Hids HT HF Hf HJ Hfam.
    split.
    - intros P. induction P as [x|x y z S P IH]; auto. apply less_step in S. destruct S as [S E]. right. split; auto. destruct IH as [<-|[IH _]]; [apply path_one; auto|]. econstructor; eauto.
    - intros [<-|[P E]]; [constructor|]. induction P as [x|x y z S P IH]; [constructor|]. assert (Ey : f y = true).
      { destruct S as [[H1 H2]|[H1 H2]]; [rewrite <- (keeps_family y x)|rewrite (keeps_family x y)]; auto. }
      econstructor; [|apply IH; auto]. apply less_step; auto.
  Qed.
  Lemma less_solid i : In i (vars N') -> (solid N' i <-> solid N i).
  Proof using Hids HT HF Hf HJ Hfam.
    intros Hi. apply less_vars in Hi. destruct Hi as [Hi E]. assert (Pi : forall y, path (sym (is_parent N')) i y <-> path (sym (is_parent N)) i y).
    { intros y. rewrite less_path. split; [intros [<-|[P _]]; auto; constructor|tauto]. }
    assert (Me : forall u v, path (sym (is_parent N')) i u -> (moral_edge N' u v <-> moral_edge N u v)).
    { intros u v Pu. assert (Eu : f u = true).
      { apply Pi in Pu. rewrite <- (keeps_path i u); auto. }
      unfold moral_edge. split; intros (A & k & Hk & B & C); (split; [auto|]); exists k.
      - apply less_vars in Hk. destruct Hk as [Hk Ek]. unfold N' in B, C. simpl in B, C. rewrite Ek in B, C. auto.
      - assert (Ek : f k = true). { apply in_app_or in B. destruct B as [B|[->|[]]]; auto. rewrite <- (keeps_family k u); auto. }
        split; [apply less_vars; auto|]. unfold N'. simpl. rewrite Ek. auto. }
    unfold solid. split; intros H u v Pu Pv Huv.
    - apply (proj1 (Me u v (proj2 (Pi u) Pu))). apply H; auto; apply Pi; auto.
    - apply (proj2 (Me u v Pu)). apply H; auto; apply Pi; auto.
  Qed.

  Lemma less_nshape : nshape N'.
  Proof using HN Hids HT HF Hf HJ Hfam.
    pose proof HN as HN0. destruct HN0 as [A1 A2 A3 A4 A5 A6 A7]. constructor.
    - unfold N'. simpl. apply NoDup_filter; auto.
    - destruct (kept j) as [|c l] eqn:Ek.
      + exfalso. destruct (jt_sepsets j) as [|s l] eqn:Es.
        * assert (Hv : exists v, In v (vars N)) by (clear -A2; destruct (vars N) as [|v vs]; [congruence|exists v; left; auto]). destruct Hv as [v Hv]. destruct (in_clique v Hv) as [c [Hc _]]. assert (X : In c (kept j)) by (apply kept_yes; auto). rewrite Ek in X. destruct X.
        * assert (Hs : In s (jt_sepsets j)) by (rewrite Es; left; auto). destruct (jg_ends _ HJ s Hs) as [Ha _]. assert (X : In (ss_left s) (kept j)).
          { apply kept_yes. split; auto. right. unfold lone. rewrite Es. simpl. unfold touch. rewrite eqb_refl. discriminate. }
          rewrite Ek in X. destruct X.
      + assert (Hc : In c (kept j)) by (rewrite Ek; left; auto). pose proof (proj1 (proj1 (kept_yes j c) Hc)) as Hcc. destruct HT as [_ [_ [T3 _]]].
        destruct (cl_nodes c) as [|w ws] eqn:Ew; [destruct (T3 _ Hcc Ew)|]. assert (Hw : In w (cl_nodes c)) by (rewrite Ew; left; auto).
        intros E. assert (X : In w (vars N')). { apply less_vars. split; [eapply in_vars; eauto|]. apply (keeps_f c w); auto. } rewrite E in X. destruct X.
    - intros i Hi. apply less_vars in Hi. apply A3. tauto.
    - intros i Hi. rewrite (less_par i Hi). apply less_vars in Hi. apply A4. tauto.
    - intros i q Hi. apply less_vars in Hi. apply A5. tauto.
    - intros i. unfold N'. simpl. destruct (f i); auto. simpl. constructor; [auto|constructor].
    - intros i k Hi. rewrite !less_vars. unfold N' in Hi. simpl in Hi. destruct (f k) eqn:Ek; [|destruct Hi]. destruct (A7 i k Hi) as [B1 B2]. rewrite (keeps_family k i); auto.
  Qed.
End Less.
