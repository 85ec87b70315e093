(** Lookups in a join tree. *)
From Verif Require Import Py M_Graph M_Node M_Pptc M_Flat Spec SpecNet SpecEv L_Base L_Table L_UG L_Tree L_Forest L_Trans L_Root L_Good L_Rip L_Init L_Exact L_Apply L_Net L_Claims L_Shown L_P1 L_Reapply L_Serde L_P8.
Open Scope nat_scope.

Definition halves (s : sepset) : list sepset_edge := [get_lhs_edge s; get_rhs_edge s].
Lemma flattened_eq j : get_flattened_edges j = flat_map halves (dvals (jt_edges j)).
Proof.
  unfold get_flattened_edges. assert (G : forall l acc, fold_left (fun edges s => (edges ++ [get_lhs_edge s]) ++ [get_rhs_edge s]) l acc = acc ++ flat_map halves l).
  { induction l as [|s l IH]; intros acc; simpl. rewrite app_nil_r; auto. rewrite IH. rewrite <- !app_assoc. reflexivity. }
  rewrite G. reflexivity.
Qed.
Lemma halves_In s x y : In (x, y) (halves s) <-> y = ss_id s /\ (x = cl_id (ss_left s) \/ x = cl_id (ss_right s)).
Proof. unfold halves, get_lhs_edge, get_rhs_edge. simpl. split; [intros [E|[E|[]]]; inversion E; auto|intros [-> [->| ->]]; auto]. Qed.

Lemma touch_In c s : touch c s = true <-> cl_id c = cl_id (ss_left s) \/ cl_id c = cl_id (ss_right s).
Proof. unfold touch. rewrite orb_true_iff. destruct (eqb_spec (cl_id (ss_left s)) (cl_id c)), (eqb_spec (cl_id (ss_right s)) (cl_id c)); split; intros [Q|Q]; auto; congruence. Qed.

Section Flat.
  Variables (j : jtree) (HJ : JG j).
  Notation E := (flat_map halves (jt_sepsets j)).

  Lemma E_In x y : In (x, y) E <-> exists s, In s (jt_sepsets j) /\ y = ss_id s /\ (x = cl_id (ss_left s) \/ x = cl_id (ss_right s)).
  Proof using. rewrite in_flat_map. split; intros [s [Hs H]]; exists s; split; auto; apply halves_In; auto. Qed.
  Lemma ids_apart s c : In s (jt_sepsets j) -> In c (jt_cliques j) -> ss_id s <> cl_id c.
  Proof using HJ. intros Hs Hc Heq. pose proof (jg_ids_NoDup j HJ) as H. apply NoDup_app_iff in H. destruct H as [_ [_ H]]. apply (H (cl_id c)); [apply in_map; auto|rewrite <- Heq; apply in_map; auto]. Qed.
  Lemma ss_unique s s' : In s (jt_sepsets j) -> In s' (jt_sepsets j) -> ss_id s = ss_id s' -> s = s'.
  Proof using HJ.
    intros Hs Hs' Heq. pose proof (jg_ids_NoDup j HJ) as H. apply NoDup_app_iff in H. destruct H as [_ [H _]].
    revert H Hs Hs'. generalize (jt_sepsets j). induction l as [|u l IH]; intros H A B; [destruct A|]. destruct A as [A|A], B as [B|B]; subst; auto; inversion H; subst; [| |auto].
    - destruct H2. rewrite Heq. apply in_map; auto.
    - destruct H2. rewrite <- Heq. apply in_map; auto.
  Qed.
  Lemma E_NoDup : NoDup E.
  Proof using HJ.
    assert (G : forall l, incl l (jt_sepsets j) -> NoDup (map ss_id l) -> NoDup (flat_map halves l)).
    { induction l as [|s l IH]; intros Hi Hd; simpl; [constructor|]. inversion Hd as [|? ? Hn Hd']; subst.
      assert (Hs : In s (jt_sepsets j)) by (apply Hi; left; auto). destruct (jg_ends j HJ s Hs) as [_ [_ Hne]].
      assert (No : forall x, ~ In (x, ss_id s) (flat_map halves l)). { intros x Hx. apply in_flat_map in Hx. destruct Hx as [s' [Hs' Hx]]. apply halves_In in Hx. destruct Hx as [Q _]. apply Hn. rewrite Q. apply in_map; auto. }
      constructor. { intros [Q|Q]; [inversion Q; congruence|apply (No _ Q)]. } constructor. { apply No. } apply IH; auto. intros u Hu; apply Hi; right; auto. }
    apply G. apply incl_refl. pose proof (jg_ids_NoDup j HJ) as H. apply NoDup_app_iff in H. tauto.
  Qed.
  Lemma E_nbrs x y : In x (map cl_id (jt_cliques j) ++ map ss_id (jt_sepsets j)) -> (In y (jt_neighbors j x) <-> In (x, y) E \/ In (y, x) E).
  Proof using HJ.
    intros Hx. rewrite in_app_iff in Hx. destruct Hx as [Hx|Hx]; apply in_map_iff in Hx.
    - destruct Hx as [c [<- Hc]]. assert (P := jg_nbc j HJ c Hc).
      split.
      + intros Hy. apply (Permutation_in _ P) in Hy. apply in_map_iff in Hy. destruct Hy as [s [<- Hs]]. apply filter_In in Hs. destruct Hs as [Hs Ht]. left. apply E_In. exists s. split; auto. split; auto. apply touch_In; auto.
      + intros [H|H]; apply E_In in H; destruct H as [s [Hs [Ey Ex]]].
        * apply (Permutation_in _ (Permutation_sym P)). apply in_map_iff. exists s. split; auto. apply filter_In. split; auto. apply touch_In; auto.
        * exfalso. apply (ids_apart s c Hs Hc). auto.
    - destruct Hx as [s [<- Hs]]. assert (P := jg_nbs j HJ s Hs). destruct (jg_ends j HJ s Hs) as [Hl [Hr _]].
      split.
      + intros Hy. apply (Permutation_in _ P) in Hy. right. apply E_In. exists s. split; auto. split; auto. simpl in Hy. destruct Hy as [<-|[<-|[]]]; auto.
      + intros [H|H]; apply E_In in H; destruct H as [s' [Hs' [Ey Ex]]].
        * exfalso. destruct (jg_ends j HJ s' Hs') as [Hl' [Hr' _]]. destruct Ex as [Q|Q]; [apply (ids_apart s _ Hs Hl')|apply (ids_apart s _ Hs Hr')]; auto.
        * apply (ss_unique s s' Hs Hs') in Ey. subst s'. apply (Permutation_in _ (Permutation_sym P)). destruct Ex as [->| ->]; simpl; auto.
  Qed.

  Definition rep (es : list sepset) (x c : string) : Prop :=
    (x = c /\ ~ In x (map ss_id es)) \/ exists s, In s es /\ x = ss_id s /\ (c = cl_id (ss_left s) \/ c = cl_id (ss_right s)).
  Lemma rep_conn es x c d : incl es (jt_sepsets j) -> rep es x c -> rep es x d -> conn (map ends es) c d.
  Proof using HJ.
    intros Hi [[-> Hn]|[s [Hs [-> Hc]]]] [[Q Hn']|[s' [Hs' [Q Hd]]]].
    - subst. apply conn_refl.
    - destruct Hn. rewrite Q. apply in_map; auto.
    - destruct Hn'. apply in_map; auto.
    - apply (ss_unique s s' (Hi _ Hs) (Hi _ Hs')) in Q. subst s'.
      assert (C : conn (map ends es) (cl_id (ss_left s)) (cl_id (ss_right s))) by (apply conn_edge, in_map_iff; exists s; auto).
      destruct Hc as [->| ->], Hd as [->| ->]; try apply conn_refl; auto. apply conn_sym; auto.
  Qed.
  Lemma clique_rep es c : incl es (jt_sepsets j) -> In c (jt_cliques j) -> rep es (cl_id c) (cl_id c).
  Proof using HJ. intros Hi Hc. left. split; auto. intros H. apply in_map_iff in H. destruct H as [s [Q Hs]]. apply (ids_apart s c (Hi _ Hs) Hc Q). Qed.
  Lemma flat_conn es x y : incl es (jt_sepsets j) -> conn (flat_map halves es) x y -> forall c, rep es x c -> exists d, rep es y d /\ conn (map ends es) c d.
  Proof using HJ.
    intros Hi. induction 1 as [x|x z y Hs Hp IH]; intros c Hc. { exists c. split; auto. apply conn_refl. }
    assert (S : exists s a, In s es /\ rep es (ss_id s) a /\ rep es a a /\ ((x = a /\ z = ss_id s) \/ (z = a /\ x = ss_id s))).
    { destruct Hs as [Hs|Hs]; apply in_flat_map in Hs; destruct Hs as [s [Hs Hx]]; apply halves_In in Hx; destruct Hx as [Q Hx]; exists s.
      - exists x. split; auto. split. { right. exists s. auto. } split; [|auto]. destruct (jg_ends j HJ s (Hi _ Hs)) as [A [B _]]. destruct Hx as [->| ->]; apply clique_rep; auto.
      - exists z. split; auto. split. { right. exists s. auto. } split; [|auto]. destruct (jg_ends j HJ s (Hi _ Hs)) as [A [B _]]. destruct Hx as [->| ->]; apply clique_rep; auto. }
    destruct S as [s [a [Hs' [R1 [R2 [[-> ->]|[-> ->]]]]]]].
    - destruct (IH a R1) as [d [D1 D2]]. exists d. split; auto. eapply conn_trans; [|exact D2]. apply (rep_conn es a); auto.
    - destruct (IH a R2) as [d [D1 D2]]. exists d. split; auto. eapply conn_trans; [|exact D2]. apply (rep_conn es (ss_id s)); auto.
  Qed.
  Lemma fresh_conn es k x : (forall z, ~ In (z, k) (flat_map halves es)) -> (forall z, ~ In (k, z) (flat_map halves es)) -> conn (flat_map halves es) k x -> x = k.
  Proof using. intros H1 H2 H. inversion H as [|? z ? Hs _]; subst; auto. exfalso. destruct Hs as [Hs|Hs]; [apply (H2 _ Hs)|apply (H1 _ Hs)]. Qed.
  Lemma flat_forest es : incl es (jt_sepsets j) -> NoDup (map ss_id es) -> forest (map ends es) -> forest (flat_map halves es).
  Proof using HJ.
    induction es as [|s es IH]; intros Hi Hd Hf; simpl; [constructor|]. inversion Hd as [|? ? Hn Hd']; subst. simpl in Hf. apply forest_inv in Hf. destruct Hf as [Hf Hno].
    assert (Hs : In s (jt_sepsets j)) by (apply Hi; left; auto). assert (Hi' : incl es (jt_sepsets j)) by (intros u Hu; apply Hi; right; auto).
    destruct (jg_ends j HJ s Hs) as [Hl [Hr Hne]].
    assert (F : forall x, conn (flat_map halves es) (ss_id s) x -> x = ss_id s).
    { intros x. apply fresh_conn; intros z Hz; apply in_flat_map in Hz; destruct Hz as [s' [Hs' Hz]]; apply halves_In in Hz; destruct Hz as [Q Q'].
      - apply Hn. rewrite Q. apply in_map; auto.
      - destruct (jg_ends j HJ s' (Hi' _ Hs')) as [A [B _]]. destruct Q' as [Q'|Q']; [apply (ids_apart s _ Hs A)|apply (ids_apart s _ Hs B)]; auto. }
    assert (Fl : ~ conn (flat_map halves es) (cl_id (ss_left s)) (ss_id s)). { intros C. apply conn_sym, F in C. apply (ids_apart s _ Hs Hl). auto. }
    assert (Fr : ~ conn (flat_map halves es) (cl_id (ss_right s)) (ss_id s)). { intros C. apply conn_sym, F in C. apply (ids_apart s _ Hs Hr). auto. }
    constructor; [constructor; auto|]. intros C. apply conn_cons in C. destruct C as [C|[[C _]|[C _]]]; [auto| |auto].
    apply Hno. destruct (flat_conn es _ _ Hi' C (cl_id (ss_left s)) (clique_rep es _ Hi' Hl)) as [d [D1 D2]].
    eapply conn_trans; [exact D2|]. apply (rep_conn es (cl_id (ss_right s))); auto. apply clique_rep; auto.
  Qed.
  Lemma E_no_cycle : no_cycle E.
  Proof using HJ.
    destruct (jg_forest j HJ) as [es [P Hf]]. apply (no_cycle_perm (flat_map halves es)). { apply Permutation_flat_map; auto. }
    apply forest_no_cycle, flat_forest; auto. { intros s Hs. apply (Permutation_in _ P Hs). }
    pose proof (jg_ids_NoDup j HJ) as H. apply NoDup_app_iff in H. destruct H as [_ [H _]]. eapply Permutation_NoDup; [symmetry; apply Permutation_map, P|auto].
  Qed.
End Flat.

Lemma keeps_calls h : forall j j' x, do_calls j h = (j', x) -> keeps j j'.
Proof.
  induction h as [|[o c] h IH]; intros j j' x H; simpl in H. { inversion H; subst. apply keeps_refl. }
  destruct (do_call o j c) as [j1 [e|]] eqn:E1. { inversion H; subst. eapply keeps_call; eauto. } eapply keeps_trans; [eapply keeps_call; eauto|eauto].
Qed.
Lemma session_saveable ops o h : well_shaped ops -> ord_ok o -> valid_history (net_of ops) h -> exists j, session o ops h = Ok j /\ saveable j /\ JG j.
Proof.
  intros HW Ho Hh. destruct (session_shows ops o h HW Ho Hh) as [b [j [j' [A1 [A2 [A3 _]]]]]]. exists j'. split; [eapply session_eq; eauto|].
  destruct (apply_saves ops o b j HW Ho A1) as [_ [B2 _]]. pose proof (keeps_calls _ _ _ _ A2) as K. split. { eapply saveable_ext; [apply K|apply K|auto]. }
  destruct (sw_live _ _ _ _ _ A3) as [ev Hl]. assert (HJ := jn_JG _ _ _ (lv_net _ _ _ _ Hl)). destruct HJ. constructor; auto.
Qed.

Lemma c73_edges ops o h : well_shaped ops -> ord_ok o -> valid_history (net_of ops) h ->
  exists j, session o ops h = Ok j /\ let E := get_flattened_edges j in
    List.length E = 2 * List.length (jt_sepsets j) /\ NoDup E /\
    (forall x y, In (x, y) E <-> exists c s, In c (jt_cliques j) /\ In s (jt_sepsets j) /\ x = cl_id c /\ y = ss_id s /\ (c = ss_left s \/ c = ss_right s)) /\
    (forall x y, In x (map cl_id (jt_cliques j) ++ map ss_id (jt_sepsets j)) -> (In y (jt_neighbors j x) <-> In (x, y) E \/ In (y, x) E)) /\
    no_cycle E.
Proof.
  intros HW Ho Hh. destruct (session_saveable ops o h HW Ho Hh) as [j [A1 [A2 HJ]]]. exists j. split; [exact A1|]. cbv zeta.
  assert (EE : get_flattened_edges j = flat_map halves (jt_sepsets j)).
  { rewrite flattened_eq, (sv_edges _ A2). unfold dvals. rewrite map_map. simpl. rewrite map_id. reflexivity. }
  rewrite EE. split. { clear. induction (jt_sepsets j) as [|s l IH]; simpl; auto. rewrite IH. lia. } split; [apply E_NoDup; auto|]. split; [|split; [intros; apply E_nbrs; auto|apply E_no_cycle; auto]].
  intros x y. rewrite E_In. split.
  - intros [s [Hs [-> Hx]]]. destruct (jg_ends j HJ s Hs) as [B1 [B2 _]]. destruct Hx as [->| ->]; [exists (ss_left s), s|exists (ss_right s), s]; auto 10.
  - intros [c [s [_ [Hs [-> [-> [->| ->]]]]]]]; exists s; auto.
Qed.

Lemma c73_lookup ops o h : well_shaped ops -> ord_ok o -> valid_history (net_of ops) h -> let N := net_of ops in
  exists j, session o ops h = Ok j /\
    (forall i, In i (vars N) -> exists n, get_bbn_node j i = Some n /\ get_bbn_node_by_name j (net_name ops i) = Some n /\
       n_id n = i /\ n_name n = net_name ops i /\ n_values n = dom N i) /\
    (forall i, ~ In i (vars N) -> get_bbn_node j i = None) /\
    (forall name, ~ In name (map (net_name ops) (vars N)) -> get_bbn_node_by_name j name = None) /\
    (forall i, In i (vars N) -> find_cliques j i <> [] /\ forall c, In c (find_cliques j i) <-> In c (jt_cliques j) /\ incl (par N i ++ [i]) (cl_nodes c)).
Proof.
  intros HW Ho Hh N. destruct (session_live ops o h HW Ho Hh) as [j [ev [A1 [A2 _]]]]. exists j. split; [exact A1|].
  pose proof (lv_net _ _ _ _ A2) as HN. pose proof (jn_ids _ _ _ HN) as Hids. fold N in Hids, HN.
  change (jt_bbn_ids (set_jevid j ev)) with (jt_bbn_ids j) in Hids. set (nm := net_name ops) in *.
  assert (Hnode : forall i, In i (vars N) -> exists n, dget (jt_heap j) i = Some n /\ n_id n = i /\ n_values n = dom N i /\ (forall p, In p (jt_parent_ids j i) <-> In p (par N i))).
  { intros i Hi. destruct (hg_node _ _ _ _ (jn_hg _ _ _ HN) i (proj2 (Hids i) Hi)) as [n [E1 [E2 [E3 [_ [E4 _]]]]]]. exists n. auto. }
  assert (Hn : forall k, In k (vars N) -> h_name (jt_heap j) k = nm k). { intros k Hk. apply (jn_nm _ _ _ HN k Hk). }
  assert (Hm : forall k, In k (flat_map cl_nodes (jt_cliques j)) <-> In k (vars N)). { intros k. rewrite <- Hids. unfold jt_bbn_ids. rewrite sof_In. reflexivity. }
  assert (Hinj : forall k i, In k (vars N) -> In i (vars N) -> nm k = nm i -> k = i).
  { intros k i Hk Hi E. pose proof (ws_names _ HW) as Hd. change (NoDup (map nm (vars N))) in Hd. revert Hd Hk Hi E. clear. generalize (vars N). intros l Hd Hk Hi E.
    induction l as [|u l IH]; [destruct Hk|]. inversion Hd as [|? ? Hu Hd']; subst. destruct Hk as [->|Hk], Hi as [->|Hi]; auto.
    - exfalso. apply Hu. rewrite E. apply in_map; auto.
    - exfalso. apply Hu. rewrite <- E. apply in_map; auto. }
  assert (F : forall i n, dget (jt_heap j) i = Some n -> forall l acc, (forall k, In k l -> In k (vars N)) -> In i (vars N) -> acc = Some n \/ In i l ->
    fold_left (fun acc k => if eqb (h_name (jt_heap j) k) (nm i) then dget (jt_heap j) k else acc) l acc = Some n).
  { intros i n Ei. induction l as [|k l IH]; intros acc Hl Hi Hacc; simpl. { destruct Hacc as [|[]]; auto. }
    apply IH; [intros; apply Hl; right; auto|auto|]. rewrite (Hn k) by (apply Hl; left; auto). change (eqb (nm k) (nm i)) with (String.eqb (nm k) (nm i)).
    destruct (String.eqb_spec (nm k) (nm i)) as [E|E].
    - left. apply Hinj in E; [|apply Hl; left; auto|auto]. subst k. auto.
    - destruct Hacc as [->|[->|Hi']]; [left; auto|congruence|right; auto]. }
  split; [|split; [|split]].
  - intros i Hi. destruct (Hnode i Hi) as [n [E1 [E2 [E3 _]]]]. exists n. split. { unfold get_bbn_node. rewrite (proj2 (mem_In i (jt_bbn_ids j))) by (apply Hids; auto). auto. }
    split. { unfold get_bbn_node_by_name. apply (F i n E1); auto. intros k Hk. apply Hm; auto. right. apply Hm; auto. }
    split; auto. split; auto. specialize (Hn i Hi). unfold h_name in Hn. rewrite E1 in Hn. auto.
  - intros i Hi. unfold get_bbn_node. destruct (mem i (jt_bbn_ids j)) eqn:E; auto. apply mem_In in E. destruct Hi. apply Hids; auto.
  - intros name Hno. unfold get_bbn_node_by_name. assert (G : forall l, (forall k, In k l -> In k (vars N)) -> fold_left (fun acc k => if eqb (h_name (jt_heap j) k) name then dget (jt_heap j) k else acc) l None = None).
    { induction l as [|k l IH]; intros Hl; simpl; auto. rewrite (Hn k) by (apply Hl; left; auto). change (eqb (nm k) name) with (String.eqb (nm k) name).
      destruct (String.eqb_spec (nm k) name) as [E|E]; [|apply IH; intros; apply Hl; right; auto]. destruct Hno. rewrite <- E. apply in_map. apply Hl; left; auto. }
    apply G. intros k Hk. apply Hm; auto.
  - intros i Hi. destruct (Hnode i Hi) as [n [_ [_ [_ Hp]]]].
    assert (Q : forall c, In c (find_cliques j i) <-> In c (jt_cliques j) /\ incl (par N i ++ [i]) (cl_nodes c)).
    { intros c. unfold find_cliques. rewrite filter_In, subset_spec. split; intros [H1 H2]; split; auto; intros x Hx; apply H2; apply in_app_or in Hx; apply in_or_app; destruct Hx as [Hx|Hx]; auto; left; apply Hp; auto. }
    split; [|exact Q]. destruct (hg_fam _ _ _ _ (jn_hg _ _ _ HN) i (proj2 (Hids i) Hi)) as [c [C1 C2]]. intros Hz. assert (H : In c (find_cliques j i)) by (apply Q; auto). rewrite Hz in H. destruct H.
Qed.
