(** From a join tree as stored (neighbour sets) to rooted trees. *)
From Verif Require Import Py M_Graph M_Node M_Pptc Spec L_Base L_PD L_Sums L_Table L_Tree L_Walk L_Forest.

Definition ends (s : sepset) : string * string := (cl_id (ss_left s), cl_id (ss_right s)).
Definition joins (s : sepset) (c d : clique) : Prop := (ss_left s = c /\ ss_right s = d) \/ (ss_left s = d /\ ss_right s = c).

Inductive joinsT : rt -> Prop :=
| joinsT_node c kids : (forall s t, In (s, t) kids -> joins s c (root t) /\ joinsT t) -> joinsT (RN c kids).
Lemma joinsT_inv c kids : joinsT (RN c kids) -> forall s t, In (s, t) kids -> joins s c (root t) /\ joinsT t.
Proof. intros H; inversion H; auto. Qed.
Lemma joins_sym s c d : joins s c d -> joins s d c.
Proof. unfold joins; tauto. Qed.

Definition cliquesL (l : list kid) : list clique := flat_map (fun p : sepset * rt => cliques_of (snd p)) l.
Definition sepsL (l : list kid) : list sepset := flat_map (fun p : sepset * rt => fst p :: seps_of (snd p)) l.
Lemma cliques_eq c kids : cliques_of (RN c kids) = c :: cliquesL kids.
Proof. reflexivity. Qed.
Lemma seps_eq c kids : seps_of (RN c kids) = sepsL kids.
Proof. reflexivity. Qed.
Lemma cliquesL_app l1 l2 : cliquesL (l1 ++ l2) = cliquesL l1 ++ cliquesL l2.
Proof. apply flat_map_app. Qed.
Lemma sepsL_app l1 l2 : sepsL (l1 ++ l2) = sepsL l1 ++ sepsL l2.
Proof. apply flat_map_app. Qed.
Lemma root_In t : In (root t) (cliques_of t).
Proof. destruct t; simpl; auto. Qed.

Lemma graft t : forall u s t2, joinsT t -> joinsT t2 -> In u (cliques_of t) -> joins s u (root t2) ->
  exists t', root t' = root t /\ joinsT t' /\ Permutation (cliques_of t') (cliques_of t ++ cliques_of t2) /\
    Permutation (seps_of t') (s :: seps_of t ++ seps_of t2).
Proof.
  induction t as [c kids IH] using rt_ind'. intros u s t2 Hj Hj2 Hu Hs. rewrite cliques_eq in Hu. pose proof (joinsT_inv _ _ Hj) as Hk.
  destruct Hu as [<-|Hu].
  - exists (RN c ((s, t2) :: kids)). split; auto. split; [|split].
    + constructor. intros s' t' [E|Hi]; auto. inv E. auto.
    + rewrite !cliques_eq. change (cliquesL ((s, t2) :: kids)) with (cliques_of t2 ++ cliquesL kids). simpl. apply perm_skip. apply Permutation_app_comm.
    + rewrite !seps_eq. change (sepsL ((s, t2) :: kids)) with (s :: seps_of t2 ++ sepsL kids). apply perm_skip. apply Permutation_app_comm.
  - unfold cliquesL in Hu. apply in_flat_map in Hu. destruct Hu as [[sk tk] [Hi Hu]]. simpl in Hu.
    destruct (Hk sk tk Hi) as [Hjk Htk]. destruct (IH sk tk Hi u s t2 Htk Hj2 Hu Hs) as [t' [R1 [R2 [R3 R4]]]].
    apply in_split in Hi. destruct Hi as [l1 [l2 ->]].
    exists (RN c (l1 ++ (sk, t') :: l2)). split; auto. split; [|split].
    + constructor. intros s' t'' Hi. apply in_app_or in Hi. destruct Hi as [Hi|[Hi|Hi]].
      * apply Hk. apply in_or_app; auto.
      * inv Hi. rewrite R1. auto.
      * apply Hk. apply in_or_app; simpl; auto.
    + rewrite !cliques_eq, !cliquesL_app. change (cliquesL ((sk, t') :: l2)) with (cliques_of t' ++ cliquesL l2).
      change (cliquesL ((sk, tk) :: l2)) with (cliques_of tk ++ cliquesL l2). rewrite R3. perm.
    + rewrite !seps_eq, !sepsL_app. change (sepsL ((sk, t') :: l2)) with (sk :: seps_of t' ++ sepsL l2).
      change (sepsL ((sk, tk) :: l2)) with (sk :: seps_of tk ++ sepsL l2). rewrite R4. perm.
Qed.

Lemma reroot t : forall v, joinsT t -> In v (cliques_of t) ->
  exists t', root t' = v /\ joinsT t' /\ Permutation (cliques_of t') (cliques_of t) /\ Permutation (seps_of t') (seps_of t).
Proof.
  induction t as [c kids IH] using rt_ind'. intros v Hj Hv. rewrite cliques_eq in Hv. pose proof (joinsT_inv _ _ Hj) as Hk.
  destruct Hv as [<-|Hv].
  - exists (RN c kids). split; [auto|split; [auto|split; auto]].
  - unfold cliquesL in Hv. apply in_flat_map in Hv. destruct Hv as [[sk tk] [Hi Hv]]. simpl in Hv.
    destruct (Hk sk tk Hi) as [Hjk Htk]. destruct (IH sk tk Hi v Htk Hv) as [tv [R1 [R2 [R3 R4]]]].
    apply in_split in Hi. destruct Hi as [l1 [l2 ->]].
    destruct (graft tv (root tk) sk (RN c (l1 ++ l2))) as [t' [A1 [A2 [A3 A4]]]]; auto.
    + constructor. intros s t Hi. apply Hk. apply in_app_or in Hi. apply in_or_app. simpl. tauto.
    + apply (Permutation_in _ (Permutation_sym R3)). apply root_In.
    + simpl. apply joins_sym; auto.
    + exists t'. rewrite A1. split; auto. split; auto. split.
      * rewrite A3, R3, !cliques_eq, !cliquesL_app. change (cliquesL ((sk, tk) :: l2)) with (cliques_of tk ++ cliquesL l2).
        perm.
      * rewrite A4, R4, !seps_eq, !sepsL_app. change (sepsL ((sk, tk) :: l2)) with (sk :: seps_of tk ++ sepsL l2).
        perm.
Qed.

Lemma joins_conn es s c d : joins s c d -> In s es -> conn (map ends es) (cl_id c) (cl_id d).
Proof.
  intros [[E1 E2]|[E1 E2]] Hi; [|apply conn_sym]; apply conn_edge; apply in_map_iff; exists s; split; auto; unfold ends; congruence.
Qed.

Lemma tree_conn t : joinsT t -> forall u, In u (cliques_of t) -> conn (map ends (seps_of t)) (cl_id (root t)) (cl_id u).
Proof.
  induction t as [c kids IH] using rt_ind'. intros Hj u Hu. rewrite cliques_eq in Hu. destruct Hu as [<-|Hu]; [apply conn_refl|].
  unfold cliquesL in Hu. apply in_flat_map in Hu. destruct Hu as [[sk tk] [Hi Hu]]. simpl in Hu.
  destruct (joinsT_inv _ _ Hj sk tk Hi) as [Hjk Htk].
  assert (Hin : incl (sk :: seps_of tk) (seps_of (RN c kids))).
  { intros s Hs. rewrite seps_eq. apply in_flat_map. exists (sk, tk); auto. }
  eapply conn_trans.
  - simpl root. eapply joins_conn; eauto. apply Hin; left; auto.
  - eapply conn_mono; [|eapply IH; eauto]. apply incl_map. intros s Hs; apply Hin; right; auto.
Qed.

Definition tcliques (ts : list rt) : list clique := flat_map cliques_of ts.
Definition tseps (ts : list rt) : list sepset := flat_map seps_of ts.

Lemma Permutation_flat_map' {A B} (f : A -> list B) l l' : Permutation l l' -> Permutation (flat_map f l) (flat_map f l').
Proof. apply Permutation_flat_map. Qed.

Lemma pick_tree ts u : In u (tcliques ts) -> exists t r, Permutation ts (t :: r) /\ In u (cliques_of t).
Proof.
  intros Hu. apply in_flat_map in Hu. destruct Hu as [t [Ht Hu]]. apply in_split in Ht. destruct Ht as [l1 [l2 ->]].
  exists t, (l1 ++ l2). split; auto. symmetry. apply Permutation_middle.
Qed.

Lemma decompose cs es : forest (map ends es) -> (forall s, In s es -> In (ss_left s) cs /\ In (ss_right s) cs) ->
  exists ts, Forall joinsT ts /\ Permutation (tcliques ts) cs /\ Permutation (tseps ts) es.
Proof.
  induction es as [|s es IH]; intros Hf He.
  - exists (map (fun c => RN c []) cs). split; [|split].
    + apply Forall_forall. intros t Ht. apply in_map_iff in Ht. destruct Ht as [c [<- _]]. constructor. intros ? ? [].
    + unfold tcliques. rewrite flat_map_concat_map, map_map. simpl. rewrite <- flat_map_concat_map.
      induction cs as [|c cs IHc]; simpl; auto. constructor; apply IHc. intros ? [].
    + unfold tseps. rewrite flat_map_concat_map, map_map. simpl. rewrite <- flat_map_concat_map.
      induction cs; simpl; auto. apply IHcs. intros ? [].
  - simpl in Hf. apply forest_inv in Hf. destruct Hf as [Hf Hn].
    destruct IH as [ts [J1 [J2 J3]]]; auto. { intros; apply He; right; auto. }
    destruct (He s) as [Hl Hr]; [left; auto|].
    apply (Permutation_in _ (Permutation_sym J2)) in Hl. apply (Permutation_in _ (Permutation_sym J2)) in Hr.
    destruct (pick_tree ts _ Hl) as [t1 [r [P1 Hu]]].
    pose proof (Permutation_in _ (Permutation_flat_map' cliques_of _ _ P1) Hr) as Hr'. simpl in Hr'.
    assert (Jt1 : joinsT t1).
    { rewrite Forall_forall in J1. apply J1. apply (Permutation_in _ (Permutation_sym P1)). left; auto. }
    apply in_app_or in Hr'. destruct Hr' as [Hr'|Hr'].
    + exfalso. apply Hn. eapply conn_mono; [|eapply conn_trans; [apply conn_sym|]; apply tree_conn with (t := t1); eauto].
      apply incl_map. intros x Hx. apply (Permutation_in _ J3). apply (Permutation_in _ (Permutation_sym (Permutation_flat_map' seps_of _ _ P1))).
      simpl. apply in_or_app; auto.
    + destruct (pick_tree r _ Hr') as [t2 [r' [P2 Hv]]].
      assert (Jt2 : joinsT t2).
      { rewrite Forall_forall in J1. apply J1. apply (Permutation_in _ (Permutation_sym P1)). right.
        apply (Permutation_in _ (Permutation_sym P2)). left; auto. }
      destruct (reroot t2 (ss_right s) Jt2 Hv) as [t2' [R1 [R2 [R3 R4]]]].
      destruct (graft t1 (ss_left s) s t2') as [t' [A1 [A2 [A3 A4]]]]; auto.
      { left. rewrite R1. auto. }
      exists (t' :: r'). split; [|split].
      * constructor; auto. rewrite Forall_forall in *. intros t Ht. apply J1. apply (Permutation_in _ (Permutation_sym P1)). right.
        apply (Permutation_in _ (Permutation_sym P2)). right; auto.
      * rewrite <- J2. rewrite (Permutation_flat_map' cliques_of _ _ P1 : Permutation (tcliques ts) _). simpl.
        rewrite (Permutation_flat_map' cliques_of _ _ P2). simpl. rewrite A3, R3, <- app_assoc. reflexivity.
      * rewrite <- J3. rewrite (Permutation_flat_map' seps_of _ _ P1 : Permutation (tseps ts) _). simpl.
        rewrite (Permutation_flat_map' seps_of _ _ P2). simpl. rewrite A4, R4. simpl. rewrite <- app_assoc. reflexivity.
Qed.

(** ** join trees as stored *)
Definition touch (c : clique) (s : sepset) : bool := eqb (cl_id (ss_left s)) (cl_id c) || eqb (cl_id (ss_right s)) (cl_id c).
Definition other (c : clique) (s : sepset) : clique := if eqb (cl_id (ss_left s)) (cl_id c) then ss_right s else ss_left s.

Record JG (j : jtree) : Prop := {
  jg_keys : NoDup (dkeys (jt_nodes j));
  jg_kid : forall k n, In (k, n) (jt_nodes j) -> k = j_id n;
  jg_ends : forall s, In s (jt_sepsets j) ->
     In (ss_left s) (jt_cliques j) /\ In (ss_right s) (jt_cliques j) /\ cl_id (ss_left s) <> cl_id (ss_right s);
  jg_nbs : forall s, In s (jt_sepsets j) -> Permutation (jt_neighbors j (ss_id s)) [cl_id (ss_left s); cl_id (ss_right s)];
  jg_nbc : forall c, In c (jt_cliques j) -> Permutation (jt_neighbors j (cl_id c)) (map ss_id (filter (touch c) (jt_sepsets j)));
  jg_forest : exists es, Permutation es (jt_sepsets j) /\ forest (map ends es);
  jg_cl : forall c, In c (jt_cliques j) -> NoDup (cl_nodes c);
  jg_ss : forall s, In s (jt_sepsets j) ->
     NoDup (ss_nodes s) /\ incl (ss_nodes s) (cl_nodes (ss_left s)) /\ incl (ss_nodes s) (cl_nodes (ss_right s)) }.

Lemma jt_cliques_In j c : In c (jt_cliques j) <-> exists k, In (k, JC c) (jt_nodes j).
Proof.
  unfold jt_cliques, dvals. rewrite in_flat_map. split.
  - intros [n [Hn Hc]]. apply in_map_iff in Hn. destruct Hn as [[k n'] [<- Hn]]. destruct n' as [c'|s']; simpl in Hc.
    + destruct Hc as [->|[]]. eauto.
    + destruct Hc.
  - intros [k Hk]. exists (JC c). split; simpl; auto. apply in_map_iff. exists (k, JC c); auto.
Qed.
Lemma jt_sepsets_In j s : In s (jt_sepsets j) <-> exists k, In (k, JS s) (jt_nodes j).
Proof.
  unfold jt_sepsets, dvals. rewrite in_flat_map. split.
  - intros [n [Hn Hc]]. apply in_map_iff in Hn. destruct Hn as [[k n'] [<- Hn]]. destruct n' as [c'|s']; simpl in Hc.
    + destruct Hc.
    + destruct Hc as [->|[]]. eauto.
  - intros [k Hk]. exists (JS s). split; simpl; auto. apply in_map_iff. exists (k, JS s); auto.
Qed.

Section JGs.
  Context (j : jtree) (HJ : JG j).

  Lemma jg_get_c c : In c (jt_cliques j) -> dget (jt_nodes j) (cl_id c) = Some (JC c).
  Proof.
    intros Hc. apply jt_cliques_In in Hc. destruct Hc as [k Hk]. pose proof (jg_kid _ HJ _ _ Hk) as E. simpl in E. subst.
    apply In_dget; auto. apply (jg_keys _ HJ).
  Qed.
  Lemma jg_get_s s : In s (jt_sepsets j) -> dget (jt_nodes j) (ss_id s) = Some (JS s).
  Proof.
    intros Hc. apply jt_sepsets_In in Hc. destruct Hc as [k Hk]. pose proof (jg_kid _ HJ _ _ Hk) as E. simpl in E. subst.
    apply In_dget; auto. apply (jg_keys _ HJ).
  Qed.
  Lemma jg_c_inj c d : In c (jt_cliques j) -> In d (jt_cliques j) -> cl_id c = cl_id d -> c = d.
  Proof. intros Hc Hd E. apply jg_get_c in Hc. apply jg_get_c in Hd. rewrite E in Hc. congruence. Qed.
  Lemma jg_cs c s : In c (jt_cliques j) -> In s (jt_sepsets j) -> cl_id c <> ss_id s.
  Proof. intros Hc Hd E. apply jg_get_c in Hc. apply jg_get_s in Hd. rewrite E in Hc. congruence. Qed.

  Lemma jg_all_ids : Permutation (map cl_id (jt_cliques j) ++ map ss_id (jt_sepsets j)) (dkeys (jt_nodes j)).
  Proof.
    unfold jt_cliques, jt_sepsets, dvals, dkeys. pose proof (jg_kid _ HJ) as Hk. induction (jt_nodes j) as [|[k n] l IH]; simpl; auto.
    assert (IH' := IH (fun k n Hi => Hk k n (or_intror Hi))). pose proof (Hk k n (or_introl eq_refl)) as ->. destruct n as [c|s]; simpl.
    - apply perm_skip; auto.
    - rewrite <- Permutation_middle. apply perm_skip; auto.
  Qed.
  Lemma jg_ids_NoDup : NoDup (map cl_id (jt_cliques j) ++ map ss_id (jt_sepsets j)).
  Proof. eapply Permutation_NoDup; [symmetry; apply jg_all_ids|]. apply (jg_keys _ HJ). Qed.

  Lemma neighboring_perm o c : ord_ok o -> In c (jt_cliques j) ->
    exists nb, neighboring o j c = Ok nb /\ Permutation nb (map (fun s => (s, other c s)) (filter (touch c) (jt_sepsets j))).
  Proof.
    intros [_ Ho] Hc. unfold neighboring.
    set (ts := filter (touch c) (jt_sepsets j)).
    assert (Hts : forall s, In s ts -> In s (jt_sepsets j) /\ touch c s = true) by (intros s Hs; apply filter_In; auto).
    assert (HP : Permutation (sord o (cl_id c) (jt_neighbors j (cl_id c))) (map ss_id ts)).
    { rewrite Ho. apply (jg_nbc _ HJ); auto. }
    apply Permutation_map_inv in HP. destruct HP as [ts' [E HP]]. rewrite E.
    assert (HM : exists ls, mapM (fun s => mapM (fun d => sp <- jt_get_sep j s ;; cq <- jt_get_clq j d ;; Ok (sp, cq)) (sord o s (jt_neighbors j s))) (map ss_id ts') = Ok ls /\
               filter (fun p => negb (eqb (cl_id (snd p)) (cl_id c))) (List.concat ls) = map (fun s => (s, other c s)) ts').
    { clear E. assert (Hts' : forall s, In s ts' -> In s (jt_sepsets j) /\ touch c s = true).
      { intros s Hs. apply Hts. apply (Permutation_in _ (Permutation_sym HP)); auto. }
      clear HP. induction ts' as [|s ts' IH]; [exists []; auto|].
      destruct IH as [ls [I1 I2]]. { intros; apply Hts'; right; auto. }
      destruct (Hts' s) as [Hs Ht]; [left; auto|]. destruct (jg_ends _ HJ s Hs) as [Hl [Hr Hne]].
      assert (Hx : exists l, mapM (fun d => sp <- jt_get_sep j (ss_id s) ;; cq <- jt_get_clq j d ;; Ok (sp, cq)) (sord o (ss_id s) (jt_neighbors j (ss_id s))) = Ok l /\
                 filter (fun p => negb (eqb (cl_id (snd p)) (cl_id c))) l = [(s, other c s)]).
      { assert (HP : Permutation (sord o (ss_id s) (jt_neighbors j (ss_id s))) [cl_id (ss_left s); cl_id (ss_right s)]).
        { rewrite Ho. apply (jg_nbs _ HJ); auto. }
        assert (Hget : jt_get_sep j (ss_id s) = Ok s) by (unfold jt_get_sep; rewrite jg_get_s; auto).
        assert (Hg1 : jt_get_clq j (cl_id (ss_left s)) = Ok (ss_left s)) by (unfold jt_get_clq; rewrite jg_get_c; auto).
        assert (Hg2 : jt_get_clq j (cl_id (ss_right s)) = Ok (ss_right s)) by (unfold jt_get_clq; rewrite jg_get_c; auto).
        unfold touch in Ht. unfold other. apply Permutation_sym, Permutation_length_2_inv in HP.
        assert (Hx : ~ (cl_id (ss_left s) = cl_id c /\ cl_id (ss_right s) = cl_id c)) by (intros [A B]; congruence).
        destruct HP as [-> | ->]; simpl; rewrite Hget; simpl; rewrite ?Hg1, ?Hg2; simpl; rewrite ?Hget; simpl; rewrite ?Hg1, ?Hg2; simpl.
        - eexists. split; [reflexivity|]. simpl. simpl in Ht.
          destruct (String.eqb_spec (cl_id (ss_left s)) (cl_id c)); destruct (String.eqb_spec (cl_id (ss_right s)) (cl_id c)); simpl; auto; try tauto; discriminate.
        - eexists. split; [reflexivity|]. simpl. simpl in Ht.
          destruct (String.eqb_spec (cl_id (ss_left s)) (cl_id c)); destruct (String.eqb_spec (cl_id (ss_right s)) (cl_id c)); simpl; auto; try tauto; discriminate. }
      destruct Hx as [l [L1 L2]]. exists (l :: ls). split.
      - simpl map. simpl mapM. rewrite L1. simpl. rewrite I1. reflexivity.
      - change (List.concat (l :: ls)) with (l ++ List.concat ls). rewrite filter_app, L2, I2. reflexivity. }
    destruct HM as [ls [M1 M2]]. rewrite M1. cbn [rbind]. rewrite M2. eexists. split; [reflexivity|]. apply Permutation_map. symmetry; auto.
  Qed.

  (** ** a rooted tree with the kids in the order in which the code visits them *)
  Lemma touch_joins s c d : joins s c d -> touch c s = true /\ touch d s = true.
  Proof. unfold touch. intros [[<- <-]|[<- <-]]; rewrite !eqb_refl, ?orb_true_r; auto. Qed.
  Lemma other_joins s c d : joins s c d -> cl_id c <> cl_id d -> other c s = d.
  Proof.
    unfold other. intros [[<- <-]|[<- <-]] Hne.
    - rewrite eqb_refl; auto.
    - rewrite (proj2 (eqb_false _ _)); auto.
  Qed.
  Lemma seps_ends t : joinsT t -> forall s, In s (seps_of t) -> In (ss_left s) (cliques_of t) /\ In (ss_right s) (cliques_of t).
  Proof.
    induction t as [c kids IH] using rt_ind'. intros Hj s Hs. rewrite seps_eq in Hs. unfold sepsL in Hs. apply in_flat_map in Hs.
    destruct Hs as [[sk tk] [Hi Hs]]. simpl in Hs. destruct (joinsT_inv _ _ Hj sk tk Hi) as [Hjk Htk].
    assert (Hin : incl (cliques_of tk) (cliques_of (RN c kids))).
    { intros d Hd. rewrite cliques_eq. right. apply in_flat_map. exists (sk, tk); auto. }
    destruct Hs as [<-|Hs].
    - destruct Hjk as [[-> ->]|[-> ->]]; split; try (left; reflexivity); apply Hin, root_In.
    - destruct (IH sk tk Hi Htk s Hs). auto.
  Qed.
  Lemma touch_false c s : cl_id (ss_left s) <> cl_id c -> cl_id (ss_right s) <> cl_id c -> touch c s = false.
  Proof. intros A B. unfold touch. rewrite !(proj2 (eqb_false _ _)); auto. Qed.
  Lemma touch_outside t c : joinsT t -> ~ In (cl_id c) (cids t) -> filter (touch c) (seps_of t) = [].
  Proof.
    intros Hj Hn. pose proof (seps_ends t Hj) as He. induction (seps_of t) as [|s l IH]; simpl; auto.
    destruct (He s) as [A B]; [left; auto|]. rewrite touch_false.
    - apply IH. intros; apply He; right; auto.
    - intros E. apply Hn. rewrite <- E. apply in_map; auto.
    - intros E. apply Hn. rewrite <- E. apply in_map; auto.
  Qed.
  Lemma touch_kids kids c : (forall s t, In (s, t) kids -> joins s c (root t) /\ joinsT t) -> ~ In (cl_id c) (cidsL kids) ->
    filter (touch c) (sepsL kids) = map fst kids.
  Proof.
    induction kids as [|[s t] kids IH]; intros Hk Hn; auto. rewrite cidsL_cons, in_app_iff in Hn.
    change (sepsL ((s, t) :: kids)) with (s :: seps_of t ++ sepsL kids). simpl. destruct (Hk s t) as [H1 H2]; [left; auto|].
    rewrite (proj1 (touch_joins _ _ _ H1)). rewrite filter_app, touch_outside, IH; auto. intros; apply Hk; right; auto.
  Qed.
  (** only the edge to its parent touches a clique of a kid from outside *)
  Lemma touch_one kids s t d l1 l2 : kids = l1 ++ (s, t) :: l2 -> forall c, 
    (forall s t, In (s, t) kids -> joins s c (root t) /\ joinsT t) -> NoDup (cl_id c :: cidsL kids) ->
    In d (cliques_of t) -> filter (touch d) (sepsL kids) = filter (touch d) (s :: seps_of t).
  Proof.
    intros -> c Hk HN Hd. inversion HN as [|? ? HN1 HN2]; subst.
    assert (Hc : forall i, In i (cids t) -> i <> cl_id c).
    { intros i Hi ->. apply HN1. eapply cidsL_in; [|exact Hi]. apply in_or_app; right; left; auto. }
    assert (HN3 : NoDup (cidsL l1 ++ cids t ++ cidsL l2)).
    { unfold cidsL in *. rewrite flat_map_app, map_app in HN2. simpl in HN2. rewrite map_app in HN2. exact HN2. }
    apply NoDup_app_iff in HN3. destruct HN3 as [A1 [A2 A3]]. apply NoDup_app_iff in A2. destruct A2 as [A4 [A5 A6]].
    assert (Hdt : In (cl_id d) (cids t)) by (apply in_map; auto).
    assert (G : forall l, (forall s t, In (s, t) l -> joins s c (root t) /\ joinsT t) -> ~ In (cl_id d) (cidsL l) -> filter (touch d) (sepsL l) = []).
    { clear - Hc Hdt. induction l as [|[s t'] l IH]; intros Hk Hn; auto. rewrite cidsL_cons, in_app_iff in Hn.
      change (sepsL ((s, t') :: l)) with (s :: seps_of t' ++ sepsL l). destruct (Hk s t') as [H1 H2]; [left; auto|].
      assert (Hcd := Hc _ Hdt). assert (Hrd : cl_id (root t') <> cl_id d) by (intros E; apply Hn; left; rewrite <- E; apply cids_root).
      assert (Ht : touch d s = false) by (apply touch_false; destruct H1 as [[E1 E2]|[E1 E2]]; rewrite ?E1, ?E2; auto).
      simpl. rewrite Ht. rewrite filter_app, touch_outside, IH; auto. intros; apply Hk; right; auto. }
    rewrite sepsL_app, filter_app. rewrite (G l1).
    - change (sepsL ((s, t) :: l2)) with ((s :: seps_of t) ++ sepsL l2). rewrite filter_app, (G l2), app_nil_r; auto.
      + intros; apply Hk. apply in_or_app; simpl; auto.
    - intros; apply Hk. apply in_or_app; simpl; auto.
    - intros Hx. apply (A3 (cl_id d)); auto. apply in_or_app; auto.
  Qed.

  Lemma Permutation_filter {A} (f : A -> bool) l l' : Permutation l l' -> Permutation (filter f l) (filter f l').
  Proof.
    induction 1; simpl; auto. destruct (f x); auto. destruct (f x), (f y); auto using perm_swap. eapply perm_trans; eauto.
  Qed.

  Lemma reorder o t : ord_ok o -> forall P, joinsT t -> NoDup (cids t) -> incl (cliques_of t) (jt_cliques j) ->
    (forall s p, In (s, p) P -> joins s p (root t) /\ ~ In (cl_id p) (cids t)) ->
    (forall d, In d (cliques_of t) -> Permutation (filter (touch d) (jt_sepsets j)) (filter (touch d) (map fst P ++ seps_of t))) ->
    exists t', root t' = root t /\ wT o j (map (fun q => cl_id (snd q)) P) t' /\ joinsT t' /\
      Permutation (cliques_of t') (cliques_of t) /\ Permutation (seps_of t') (seps_of t).
  Proof.
    intros Ho. induction t as [c kids IH] using rt_ind'. intros P Hj HN Hin HP Had. pose proof (joinsT_inv _ _ Hj) as Hk.
    rewrite cids_eq in *. inversion HN as [|? ? HN1 HN2]; subst. simpl root in *.
    destruct (neighboring_perm o c Ho) as [nb [E1 E2]]. { apply Hin, (root_In (RN c kids)). }
    assert (Hnb : Permutation nb (P ++ map krt kids)).
    { rewrite E2. rewrite (Permutation_map _ (Had c (root_In (RN c kids)))). rewrite filter_app, map_app, seps_eq, (touch_kids kids c Hk HN1).
      apply Permutation_app.
      - clear - HP. induction P as [|[s p] P IHP]; simpl; auto. destruct (HP s p) as [H1 H2]; [left; auto|].
        rewrite (proj2 (touch_joins _ _ _ H1)). simpl. rewrite (other_joins s c p).
        + apply perm_skip. apply IHP. intros; apply HP; right; auto.
        + apply joins_sym; auto.
        + intros E. apply H2. rewrite <- E. left; auto.
      - rewrite map_map. erewrite map_ext_in; [reflexivity|]. intros [s t] Hi. unfold krt. simpl. f_equal. apply other_joins.
        + apply Hk; auto.
        + intros E. apply HN1. rewrite E. eapply cidsL_in; eauto. apply cids_root. }
    set (Pi := map (fun q => cl_id (snd q)) P).
    assert (Hf : Permutation (filter (fun p => negb (mem (cl_id (snd p)) Pi)) nb) (map krt kids)).
    { rewrite (Permutation_filter _ _ _ Hnb). rewrite filter_app.
      assert (F1 : filter (fun p => negb (mem (cl_id (snd p)) Pi)) P = []).
      { assert (Hx : forall p, In p P -> In (cl_id (snd p)) Pi) by (intros p Hp; unfold Pi; apply in_map_iff; eauto).
        clear - Hx. revert Hx. generalize Pi as pi. induction P as [|p P IHP]; intros pi Hx; simpl; auto.
        rewrite (proj2 (mem_In _ _)) by (apply Hx; left; auto). simpl. apply IHP. intros; apply Hx; right; auto. }
      rewrite F1. simpl. erewrite (filter_ext_in _ (fun _ => true)).
      - rewrite (filter_all (fun _ => true)); auto.
      - intros [s d] Hi. apply in_map_iff in Hi. destruct Hi as [[s' t'] [E Hi]]. unfold krt in E. simpl in E. injection E as <- <-. simpl.
        apply negb_true_iff, mem_false. unfold Pi. intros Hx. apply in_map_iff in Hx. destruct Hx as [[sp p] [E Hp]]. simpl in E.
        destruct (HP sp p Hp) as [_ Hnp]. apply Hnp. rewrite E. right. eapply cidsL_in; eauto. apply cids_root. }
    apply Permutation_map_inv in Hf. destruct Hf as [kids' [F1 F2]].
    assert (Hk' : forall s t, In (s, t) kids' -> exists t', root t' = root t /\ wT o j [cl_id c] t' /\ joinsT t' /\
        Permutation (cliques_of t') (cliques_of t) /\ Permutation (seps_of t') (seps_of t)).
    { intros s t Hi. apply (Permutation_in _ (Permutation_sym F2)) in Hi. destruct (Hk s t Hi) as [J1 J2].
      assert (Hinc : incl (cliques_of t) (cliques_of (RN c kids))).
      { intros d Hd. right. apply in_flat_map. exists (s, t); auto. }
      assert (HN3 : NoDup (cids t)).
      { pose proof Hi as Hi'. apply in_split in Hi'. destruct Hi' as [l1 [l2 ->]]. unfold cidsL in HN2. rewrite flat_map_app, map_app in HN2. simpl in HN2.
        rewrite map_app in HN2. apply NoDup_app_iff in HN2. destruct HN2 as [_ [HN2 _]]. apply NoDup_app_iff in HN2. tauto. }
      apply (IH s t Hi [(s, c)]); auto.
      - intros d Hd. auto.
      - intros s0 p [E|[]]. inv E. split; auto. intros Hx. apply HN1. eapply cidsL_in; eauto.
      - intros d Hd. rewrite (Had d (Hinc d Hd)). rewrite filter_app.
        assert (Hdc : cl_id d <> cl_id c).
        { intros E. apply HN1. rewrite <- E. eapply cidsL_in; eauto. apply in_map; auto. }
        assert (FP : filter (touch d) (map fst P) = []).
        { clear - HP Hd Hdc Hinc. induction P as [|[s p] P IHP]; simpl; auto. destruct (HP s p) as [H1 H2]; [left; auto|].
          rewrite touch_false.
          - apply IHP. intros; apply HP; right; auto.
          - destruct H1 as [[E1 E2]|[E1 E2]]; rewrite ?E1, ?E2; auto. intros E. apply H2. rewrite E. rewrite <- cids_eq. apply in_map; auto.
          - destruct H1 as [[E1 E2]|[E1 E2]]; rewrite ?E1, ?E2; auto. intros E. apply H2. rewrite E. rewrite <- cids_eq. apply in_map; auto. }
        rewrite FP. pose proof Hi as Hi'. apply in_split in Hi'. destruct Hi' as [l1 [l2 El]]. rewrite seps_eq.
        rewrite (touch_one kids s t d l1 l2 El c); auto. }
    assert (HL : exists kids'', map krt kids'' = map krt kids' /\ (forall s t, In (s, t) kids'' -> wT o j [cl_id c] t /\ joins s c (root t) /\ joinsT t) /\
       Permutation (cliquesL kids'') (cliquesL kids') /\ Permutation (sepsL kids'') (sepsL kids')).
    { assert (Hj' : forall s t, In (s, t) kids' -> joins s c (root t)).
      { intros s t Hi. apply Hk. apply (Permutation_in _ (Permutation_sym F2)); auto. }
      clear - Hk' Hj'. induction kids' as [|[s t] l IHl].
      - exists []. repeat split; auto; destruct H.
      - destruct IHl as [l' [L1 [L2 [L3 L4]]]].
        { intros; eapply Hk'; right; eauto. } { intros; eapply Hj'; right; eauto. }
        destruct (Hk' s t) as [t' [T1 [T2 [T3 [T4 T5]]]]]; [left; auto|].
        exists ((s, t') :: l'). split; [|split; [|split]].
        + simpl. f_equal; auto. unfold krt; simpl. rewrite T1; auto.
        + intros s0 t0 [E|Hi]; auto. inv E. rewrite T1. repeat split; auto. apply Hj'; left; auto.
        + change (Permutation (cliques_of t' ++ cliquesL l') (cliques_of t ++ cliquesL l)). rewrite T4, L3; auto.
        + change (Permutation (s :: seps_of t' ++ sepsL l') (s :: seps_of t ++ sepsL l)). rewrite T5, L4; auto. }
    destruct HL as [kids'' [L1 [L2 [L3 L4]]]].
    exists (RN c kids''). split; auto. split; [|split; [|split]].
    - econstructor; eauto.
      + rewrite F1, L1. reflexivity.
      + intros s t Hi. apply (L2 s t Hi).
    - constructor. intros s t Hi. destruct (L2 s t Hi) as [_ [? ?]]; auto.
    - rewrite !cliques_eq, L3. apply perm_skip. symmetry. apply Permutation_flat_map; auto.
    - rewrite !seps_eq, L4. symmetry. apply Permutation_flat_map; auto.
  Qed.
End JGs.
