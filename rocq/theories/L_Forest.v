(** Forests, greedy maximum-weight spanning forests. *)
From Verif Require Import Py M_Graph Spec L_Base L_PD.
From Coq Require Import Sorted.

Section Forest.
  Context {K : Type} `{EqB K}.
  Definition K_dec : forall x y : K, {x = y} + {x <> y} := eq_dec_K.

  Definition conn (es : list (K * K)) : K -> K -> Prop := path (sym (fun u v => In (u, v) es)).

  Inductive forest : list (K * K) -> Prop :=
  | forest_nil : forest []
  | forest_cons u v es : forest es -> ~ conn es u v -> forest ((u, v) :: es).

  Lemma forest_inv u v es : forest ((u, v) :: es) -> forest es /\ ~ conn es u v.
  Proof. intros Hf; inversion Hf; subst; auto. Qed.
  Lemma conn_refl es x : conn es x x.
  Proof. constructor. Qed.
  Lemma conn_sym es x y : conn es x y -> conn es y x.
  Proof. apply path_sym. unfold sym. tauto. Qed.
  Lemma conn_trans es x y z : conn es x y -> conn es y z -> conn es x z.
  Proof. apply path_trans. Qed.
  Lemma conn_mono es es' x y : incl es es' -> conn es x y -> conn es' x y.
  Proof. intros Hi. apply path_mono. unfold sym. intros a b [H1|H1]; auto. Qed.
  Lemma conn_edge es u v : In (u, v) es -> conn es u v.
  Proof. intros Hi. apply path_one. left; auto. Qed.

  Lemma conn_cons u v es x y : conn ((u, v) :: es) x y <->
    conn es x y \/ (conn es x u /\ conn es v y) \/ (conn es x v /\ conn es u y).
  Proof.
    split.
    - induction 1 as [x|x z y Hs Hp IH]; [left; apply conn_refl|].
      assert (Hxz : conn es x z \/ (x = u /\ z = v) \/ (x = v /\ z = u)).
      { destruct Hs as [[E|Hi]|[E|Hi]]; try (inversion E; subst; auto); left; [|apply conn_sym]; apply conn_edge; auto. }
      destruct Hxz as [Hxz|[[-> ->]|[-> ->]]].
      + destruct IH as [IH|[[I1 I2]|[I1 I2]]].
        * left. eapply conn_trans; eauto.
        * right; left. split; auto. eapply conn_trans; eauto.
        * right; right. split; auto. eapply conn_trans; eauto.
      + destruct IH as [IH|[[I1 I2]|[I1 I2]]].
        * right; left. split; auto. apply conn_refl.
        * right; left. split; auto. apply conn_refl.
        * left. auto.
      + destruct IH as [IH|[[I1 I2]|[I1 I2]]].
        * right; right. split; auto. apply conn_refl.
        * left; auto.
        * right; right. split; auto. apply conn_refl.
    - assert (Hm : forall a b, conn es a b -> conn ((u, v) :: es) a b).
      { intros a b. apply conn_mono. intros e He; right; auto. }
      intros [Hc|[[H1 H2]|[H1 H2]]]; auto.
      + eapply conn_trans; [apply Hm; eauto|]. eapply conn_trans; [|apply Hm; eauto]. apply conn_edge; left; auto.
      + eapply conn_trans; [apply Hm; eauto|]. eapply conn_trans; [|apply Hm; eauto]. apply conn_sym, conn_edge; left; auto.
  Qed.

  (** an injective renaming of the vertices keeps a forest a forest *)
  Lemma conn_map_inj {K'} (f : K -> K') V es : 
    (forall x y, In x V -> In y V -> f x = f y -> x = y) ->
    (forall u v, In (u, v) es -> In u V /\ In v V) ->
    forall x y', path (sym (fun a b => In (a, b) (map (fun e => (f (fst e), f (snd e))) es))) (f x) y' -> In x V ->
    exists y, In y V /\ f y = y' /\ conn es x y.
  Proof.
    intros Hinj HV x y' Hp. remember (f x) as x' eqn:Ex. revert x Ex.
    induction Hp as [x'|x' z' y' Hs Hp IH]; intros x -> Hx.
    - exists x. repeat split; auto. apply conn_refl.
    - assert (G : exists z, f z = z' /\ conn es x z /\ In z V).
      { destruct Hs as [Hs|Hs]; apply in_map_iff in Hs; destruct Hs as [[a b] [E Hi]]; simpl in E; injection E as E1 E2;
          destruct (HV a b Hi) as [Ha Hb].
        - apply Hinj in E1; auto. subst. exists b. repeat split; auto. apply conn_edge; auto.
        - apply Hinj in E2; auto. subst. exists a. repeat split; auto. apply conn_sym, conn_edge; auto. }
      destruct G as [z [<- [Hc Hz]]]. destruct (IH z eq_refl Hz) as [y [Hy [E Hc']]]. exists y. repeat split; auto. eapply conn_trans; eauto.
  Qed.

  (** ** labelling of the connected components *)
  Definition classes (V : list K) (lab : K -> K) : nat := List.length (nodup K_dec (map lab V)).

  Lemma classes_le V f g : (forall x y, In x V -> In y V -> f x = f y -> g x = g y) -> classes V g <= classes V f.
  Proof.
    unfold classes. induction V as [|x V IH]; intros Hfg; simpl; auto.
    assert (IH' := IH (fun a b Ha Hb => Hfg a b (or_intror Ha) (or_intror Hb))).
    destruct (in_dec K_dec (f x) (map f V)) as [Hf|Hf]; destruct (in_dec K_dec (g x) (map g V)) as [Hg|Hg]; simpl; try lia.
    exfalso. apply Hg. apply in_map_iff in Hf. destruct Hf as [y [E Hy]]. rewrite <- (Hfg y x); simpl; auto. apply in_map; auto.
  Qed.

  Definition merge (lab : K -> K) (u v : K) : K -> K := fun x => if K_dec (lab x) (lab u) then lab v else lab x.

  Lemma classes_merge V lab u v : In u V -> In v V -> lab u <> lab v ->
    classes V lab = S (classes V (merge lab u v)).
  Proof.
    intros Hu Hv Hne. unfold classes.
    assert (P : Permutation (nodup K_dec (map lab V)) (lab u :: nodup K_dec (map (merge lab u v) V))).
    { apply NoDup_Permutation.
      - apply NoDup_nodup.
      - constructor; [|apply NoDup_nodup]. rewrite nodup_In. intros Hi. apply in_map_iff in Hi. destruct Hi as [x [E Hx]].
        unfold merge in E. destruct (K_dec (lab x) (lab u)); congruence.
      - intros y. simpl. rewrite !nodup_In. split.
        + intros Hi. apply in_map_iff in Hi. destruct Hi as [x [<- Hx]].
          destruct (K_dec (lab x) (lab u)) as [E|E]; auto. right. apply in_map_iff. exists x. split; auto.
          unfold merge. destruct (K_dec (lab x) (lab u)); congruence.
        + intros [<-|Hi]. apply in_map; auto. apply in_map_iff in Hi. destruct Hi as [x [<- Hx]].
          unfold merge. destruct (K_dec (lab x) (lab u)); apply in_map; auto. }
    apply Permutation_length in P. rewrite P. reflexivity.
  Qed.

  Lemma classes_id V : NoDup V -> classes V (fun x => x) = List.length V.
  Proof. intros HN. unfold classes. rewrite map_id. rewrite nodup_fixed_point; auto. Qed.

  Lemma labelling V es : NoDup V -> (forall u v, In (u, v) es -> In u V /\ In v V) ->
    exists lab, (forall x y, lab x = lab y <-> conn es x y) /\ List.length V <= classes V lab + List.length es /\
      (forest es -> classes V lab + List.length es = List.length V).
  Proof.
    intros HN. induction es as [|[u v] es IH]; intros HV.
    - exists (fun x => x). split; [|split].
      + intros x y. split; intros Hc; [subst; apply conn_refl|]. inversion Hc; subst; auto. destruct H0 as [[]|[]].
      + rewrite classes_id; auto. simpl; lia.
      + intros _. rewrite classes_id; auto.
    - destruct IH as [lab [L1 [L2 L3]]]. { intros a b Hi. apply HV; right; auto. }
      destruct (HV u v) as [Hu Hv]; [left; auto|].
      destruct (K_dec (lab u) (lab v)) as [E|E].
      + exists lab. split; [|split].
        * intros x y. rewrite conn_cons. rewrite <- !L1. split; [tauto|]. intros [?|[[? ?]|[? ?]]]; congruence.
        * simpl. lia.
        * intros Hf. apply forest_inv in Hf. exfalso. apply (proj2 Hf). apply L1; auto.
      + exists (merge lab u v). pose proof (classes_merge V lab u v Hu Hv E) as Hc. split; [|split].
        * intros x y. rewrite conn_cons. rewrite <- !L1. unfold merge.
          destruct (K_dec (lab x) (lab u)), (K_dec (lab y) (lab u)); split; try tauto; try congruence; intuition congruence.
        * simpl. lia.
        * intros Hf. apply forest_inv in Hf. specialize (L3 (proj1 Hf)). simpl. lia.
  Qed.

  Lemma rank V T F : NoDup V -> (forall u v, In (u, v) T -> In u V /\ In v V) -> (forall u v, In (u, v) F -> In u V /\ In v V) ->
    forest T -> (forall u v, In (u, v) T -> conn F u v) -> List.length T <= List.length F.
  Proof.
    intros HN HT HF Hf Hc.
    destruct (labelling V T HN HT) as [lT [T1 [T2 T3]]]. destruct (labelling V F HN HF) as [lF [F1 [F2 F3]]].
    specialize (T3 Hf). assert (classes V lF <= classes V lT); [|lia].
    apply classes_le. intros x y _ _ E. apply F1. apply T1 in E. clear - E Hc.
    induction E as [x|x z y Hs Hp IH]; [apply conn_refl|]. eapply conn_trans; [|exact IH].
    destruct Hs as [Hs|Hs]; [|apply conn_sym]; apply Hc; auto.
  Qed.

  (** ** Kruskal *)
  Section Greedy.
    Context {E : Type} (ends : E -> K * K) (mass : E -> nat).
    Notation emap := (map ends).

    Inductive greedy : list E -> list E -> list E -> Prop :=
    | greedy_nil F : greedy F [] F
    | greedy_skip F s L F' : conn (emap F) (fst (ends s)) (snd (ends s)) -> greedy F L F' -> greedy F (s :: L) F'
    | greedy_take F s L F' : ~ conn (emap F) (fst (ends s)) (snd (ends s)) -> greedy (s :: F) L F' -> greedy F (s :: L) F'.

    Lemma greedy_incl F L F' : greedy F L F' -> incl F F' /\ incl F' (F ++ L).
    Proof.
      induction 1 as [F|F s L F' Hc Hg [I1 I2]|F s L F' Hc Hg [I1 I2]].
      - rewrite app_nil_r. auto using incl_refl.
      - split; auto. intros x Hx. apply I2 in Hx. rewrite in_app_iff in *. simpl. tauto.
      - split. intros x Hx; apply I1; right; auto. intros x Hx. apply I2 in Hx. rewrite in_app_iff in *. simpl in *. tauto.
    Qed.

    Lemma greedy_forest F L F' : greedy F L F' -> forest (emap F) -> forest (emap F').
    Proof.
      induction 1 as [F|F s L F' Hc Hg IH|F s L F' Hc Hg IH]; auto. intros Hf. apply IH. simpl. destruct (ends s) as [u v]. constructor; auto.
    Qed.

    Definition heavy (k : nat) (l : list E) : list E := filter (fun e => k <=? mass e) l.

    Lemma greedy_heavy k F L F' : greedy F L F' -> (forall x s, In x F -> In s L -> mass s <= mass x) ->
      StronglySorted (fun a b => mass b <= mass a) L ->
      forall s, In s L -> k <= mass s -> conn (emap (heavy k F')) (fst (ends s)) (snd (ends s)).
    Proof.
      induction 1 as [F|F s L F' Hc Hg IH|F s L F' Hc Hg IH]; intros HF HS e He Hk; [destruct He| |].
      - apply StronglySorted_inv in HS. destruct HS as [HS1 HS2]. rewrite Forall_forall in HS2.
        destruct He as [<-|He].
        + eapply conn_mono; [|exact Hc]. intros p Hp. apply in_map_iff in Hp. destruct Hp as [x [<- Hx]]. apply in_map.
          apply filter_In. split. apply (greedy_incl _ _ _ Hg); auto. apply Nat.leb_le. specialize (HF x s Hx (or_introl eq_refl)). lia.
        + apply IH; auto. intros x s' Hx Hs'. apply HF; simpl; auto.
      - apply StronglySorted_inv in HS. destruct HS as [HS1 HS2]. rewrite Forall_forall in HS2.
        destruct He as [<-|He].
        + destruct (ends s) as [u v] eqn:Ee. simpl. apply conn_edge. rewrite <- Ee. apply in_map. apply filter_In. split.
          * apply (greedy_incl _ _ _ Hg). left; auto.
          * apply Nat.leb_le; auto.
        + apply IH; auto. intros x s' [<-|Hx] Hs'; auto. apply HF; simpl; auto.
    Qed.

    Lemma mass_layers l : forall N, (forall e, In e l -> mass e <= N) ->
      list_sum (map mass l) = list_sum (map (fun k => List.length (heavy k l)) (seq 1 N)).
    Proof.
      induction l as [|e l IH]; intros N HN.
      - simpl. symmetry. induction (seq 1 N) as [|k s IHs]; simpl; auto.
      - simpl. rewrite (IH N) by (intros; apply HN; right; auto).
        assert (G : forall M, list_sum (map (fun k => List.length (heavy k (e :: l))) (seq 1 M)) =
                   Nat.min (mass e) M + list_sum (map (fun k => List.length (heavy k l)) (seq 1 M))).
        { intros M. induction M as [|M IHM]. simpl; lia.
          rewrite seq_S, !map_app, !list_sum_app, IHM. change (map (fun k => List.length (heavy k (e :: l))) [1 + M]) with [List.length (heavy (1 + M) (e :: l))].
          change (heavy (1 + M) (e :: l)) with (if 1 + M <=? mass e then e :: heavy (1 + M) l else heavy (1 + M) l).
          destruct (Nat.leb_spec (1 + M) (mass e)); simpl List.length; unfold list_sum; simpl fold_right; lia. }
        rewrite G. rewrite Nat.min_l; auto. apply HN; left; auto.
    Qed.

    Lemma forest_filter (p : E -> bool) T : forest (emap T) -> forest (emap (filter p T)).
    Proof.
      induction T as [|e T IH]; simpl; intros Hf; auto. destruct (ends e) as [u v] eqn:Ee. apply forest_inv in Hf. destruct Hf as [Hf Hn].
      destruct (p e); auto. simpl. rewrite Ee. constructor; auto. intros Hc. apply Hn. eapply conn_mono; [|exact Hc].
      intros x Hx. apply in_map_iff in Hx. destruct Hx as [y [<- Hy]]. apply in_map. apply filter_In in Hy. tauto.
    Qed.

    Theorem greedy_max V L F T : NoDup V -> greedy [] L F -> StronglySorted (fun a b => mass b <= mass a) L ->
      (forall s, In s L -> In (fst (ends s)) V /\ In (snd (ends s)) V) ->
      incl T L -> forest (emap T) -> list_sum (map mass T) <= list_sum (map mass F).
    Proof.
      intros HV Hg HS HL HT Hf.
      set (N := list_sum (map mass (T ++ F))).
      assert (HN : forall e, In e (T ++ F) -> mass e <= N).
      { unfold N. generalize (T ++ F) as l. induction l as [|x l IH]; simpl; [tauto|]. intros e [<-|He]; [lia|]. specialize (IH e He). lia. }
      rewrite (mass_layers T N), (mass_layers F N) by (intros; apply HN, in_or_app; auto).
      assert (Hk : forall k, List.length (heavy k T) <= List.length (heavy k F)).
      { intros k. rewrite <- (map_length ends), <- (map_length ends (heavy k F)).
        destruct (greedy_incl _ _ _ Hg) as [_ HFi]. simpl in HFi.
        apply rank with V; auto.
        - intros u v Hi. apply in_map_iff in Hi. destruct Hi as [e [Ee Hi]]. apply filter_In in Hi.
          destruct (HL e) as [A B]; [apply HT; tauto|]. rewrite Ee in *. auto.
        - intros u v Hi. apply in_map_iff in Hi. destruct Hi as [e [Ee Hi]]. apply filter_In in Hi.
          destruct (HL e) as [A B]; [apply HFi; tauto|]. rewrite Ee in *. auto.
        - apply forest_filter; auto.
        - intros u v Hi. apply in_map_iff in Hi. destruct Hi as [e [Ee Hi]]. apply filter_In in Hi. destruct Hi as [Hi Hm]. apply Nat.leb_le in Hm.
          replace u with (fst (ends e)) by (rewrite Ee; auto). replace v with (snd (ends e)) by (rewrite Ee; auto).
          eapply greedy_heavy; eauto. intros x s []. }
      clear - Hk. induction (seq 1 N) as [|k l IH]; simpl; auto. specialize (Hk k). lia.
    Qed.
  End Greedy.
End Forest.
