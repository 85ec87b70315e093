(** Sessions with rejected calls. *)
From Verif Require Import Py M_Graph M_Node M_Pptc Spec SpecNet SpecEv SpecRe SpecPart SpecTry L_Base L_PD L_Sums L_Table L_Tree L_Walk L_Forest L_Root L_Good L_Prop L_Init L_Post L_Read
  L_Ids L_Trans L_Elim L_UG L_Tri L_Moral L_Build L_Exact L_Apply L_Net L_Evid L_Hist L_Claims L_Shape L_Shown L_P1 L_P2 L_Reapply L_Det L_Again L_Part L_Part2 L_Part3 L_Part4 L_Try.
Open Scope nat_scope.

Lemma keeps_tries h : forall j j' xs, do_tries j h = (j', xs) -> keeps j j'.
Proof.
  induction h as [|[o c] h IH]; intros j j' xs H; cbn [do_tries] in H. { injection H as <- _. apply keeps_refl. }
  destruct (do_call o j c) as [j1 x] eqn:E1. destruct (do_tries j1 h) as [j2 ys] eqn:E2. injection H as <- _. eapply keeps_trans; [eapply keeps_call; eauto|eauto].
Qed.

Definition nothing_yet : situation := (no_evidence, no_evidence).

Lemma tries_session ops o h : well_shaped ops -> ord_ok o -> plausible_history (net_of ops) h -> let N := net_of ops in let s := fst (attempts N nothing_yet (calls h)) in
  exists b j j', apply o (build ops) = Ok (b, j) /\ do_tries j h = (j', snd (attempts N nothing_yet (calls h))) /\ tried N (net_name ops) s j' /\ jt_nodes j' = jt_nodes j /\
    situ N (net_name ops) (snd s) j' /\ (connected ops -> jconn j').
Proof.
  intros HW Ho [H1 H2] N s. destruct (apply_build ops o HW Ho) as [b [j [A1 [A2 A3]]]].
  destruct (apply_placed N (net_name ops) (net_shape ops HW) (ws_names _ HW) (build ops) o (build_good ops) Ho (build_fresh ops HW)) as [j0 [b' [j1 [P1 [P2 [P3 [P4 [P5 P6]]]]]]]].
  rewrite P2 in A1. injection A1 as -> ->.
  destruct (tries_tried N (net_name ops) (firsts_NoDup _) (ws_names _ HW) (ws_dom _ HW) h H1 nothing_yet j) as [j' [B1 [B2 B3]]]; auto.
  { constructor. apply live_shows; auto. apply unit_none. intros i Hi. apply (session_evid ops o [] j HW Ho); auto. eapply session_eq; [exact P2|reflexivity]. }
  exists b, j, j'. split; auto. split; auto. split; auto. split; auto. split.
  - eapply shows_situ; [apply (td_shows _ _ _ _ B2)|apply tight_ext with j; auto|]. apply placed_keeps with j; auto. eapply keeps_tries; eauto.
  - intros Hc. apply jconn_ext with j; auto.
Qed.

Lemma stored_says N nm L j i v : stored N nm L j -> (forall i, In i (vars N) -> NoDup (dom N i)) -> In i (vars N) -> In v (dom N i) -> stored_likelihood j i v = Some (L i v).
Proof. intros H HD Hi Hv. unfold stored_likelihood. rewrite (stored_get _ _ _ _ _ H Hi). rewrite dget_evmap by auto. reflexivity. Qed.

Theorem c83 ops o h : well_shaped ops -> ord_ok o -> plausible_history (net_of ops) h -> let N := net_of ops in
  exists b j j' t s xs, apply o (build ops) = Ok (b, j) /\ attempts N (no_evidence, no_evidence) (calls h) = (s, xs) /\ do_tries j h = (j', xs) /\
    (forall i v, In i (vars N) -> In v (dom N i) -> stored_likelihood j' i v = Some (fst s i v)) /\
    get_posteriors j' = Ok t /\ described N (net_name ops) (snd s) (jt_cliques j') t /\ (connected ops -> exact_table N (net_name ops) (snd s) t).
Proof.
  intros HW Ho Hh N. destruct (tries_session ops o h HW Ho Hh) as [b [j [j' [A1 [A2 [A3 [A4 [A5 A6]]]]]]]]. fold N in A2, A3, A5. fold nothing_yet.
  destruct (attempts N nothing_yet (calls h)) as [s xs]. cbn [fst snd] in *.
  destruct (situ_described _ _ _ _ (net_shape ops HW) (ws_names _ HW) A5) as [t [T1 T2]]. exists b, j, j', t, s, xs. split; auto. split; auto. split; auto. split.
  { intros i v Hi Hv. eapply stored_says; eauto. apply (sw_st _ _ _ _ _ (td_shows _ _ _ _ A3)). intros k Hk. apply (ws_dom _ HW k Hk). }
  split; auto. split; auto. intros Hc. destruct (sw_live _ _ _ _ _ (td_shows _ _ _ _ A3)) as [ev Hl].
  destruct (live_exact_table N (net_name ops) _ _ (firsts_NoDup _) (ws_names _ HW) Hl) as [t' [B1 B2]]. { apply jconn_ext with j'; auto. }
  change (get_posteriors (set_jevid j' ev)) with (get_posteriors j') in B1. rewrite T1 in B1. injection B1 as <-. exact B2.
Qed.

(** one call after accepted ones *)
Lemma attempts_app N h1 : forall s h2, attempts N s (h1 ++ h2) = let (s1, xs) := attempts N s h1 in let (s2, ys) := attempts N s1 h2 in (s2, xs ++ ys).
Proof.
  induction h1 as [|c h1 IH]; intros s h2; cbn [app attempts]. { destruct (attempts N s h2); auto. }
  destruct (attempt N s c) as [s1 x]. rewrite IH. destruct (attempts N s1 h1) as [s2 xs]. destruct (attempts N s2 h2) as [s3 ys]. auto.
Qed.
Lemma known_try N s es : Forall (known N) es -> try_update N s es = (step N s (Update es), None).
Proof.
  intros H. unfold try_update. rewrite Forall_forall in H. rewrite (proj2 (forallb_forall (has_var N) es)), (proj2 (forallb_forall (inside N) es)); auto.
  - intros e He. destruct (H e He) as [_ [A [_ B]]]. apply forallb_forall. intros v Hv. apply mem_In. rewrite <- A. auto.
  - intros e He. apply mem_In. apply (H e He).
Qed.
Lemma valid_attempt N s c : valid_call N c -> attempt N s c = (step N s c, None).
Proof.
  destruct c as [es|ns| |e]; cbn [valid_call attempt]; auto.
  - apply known_try.
  - intros H. rewrite (proj2 (forallb_forall _ ns)); auto. intros n Hn. rewrite Forall_forall in H. apply mem_In. apply (H n Hn).
  - intros [H H1]. unfold has_var. rewrite (proj2 (mem_In _ _) (proj1 H)). cbn [negb]. rewrite known_try by (constructor; auto).
    destruct (sole N _ _); destruct (first_one e); try congruence; unfold step; cbn [effect about fold_left]; destruct (toggles N (fst s) e); auto.
Qed.
Lemma valid_attempts N h : forall s, Forall (valid_call N) h -> attempts N s h = (fold_left (step N) h s, map (fun _ => None) h).
Proof.
  induction h as [|c h IH]; intros s H; auto. inversion H; subst. cbn [attempts fold_left map]. rewrite valid_attempt by auto. rewrite IH by auto. auto.
Qed.
Lemma valid_plausible N c : valid_call N c -> (forall i, In i (vars N) -> dom N i <> []) -> plausible_call N c.
Proof.
  intros H HD. assert (K : forall e, known N e -> plausible N e). { intros e [A1 [A2 [A3 A4]]]. split; auto. intros _. rewrite A2. auto. }
  destruct c as [es|ns| |e]; simpl in *; auto.
  - eapply Forall_impl; [|exact H]; auto.
  - eapply Forall_impl; [|exact H]. intros n [_ B] _. auto.
  - apply K. tauto.
Qed.
Lemma valid_plausible_all ops h : well_shaped ops -> valid_history (net_of ops) h -> plausible_history (net_of ops) h.
Proof. intros HW [H1 H2]. split; auto. eapply Forall_impl; [|exact H2]. intros c Hc. apply valid_plausible; auto. intros i Hi. apply (ws_dom _ HW i Hi). Qed.
Lemma tries_calls h : forall j j', do_calls j h = (j', None) -> do_tries j h = (j', map (fun _ => None) h).
Proof.
  induction h as [|[o c] h IH]; intros j j' H; cbn [do_calls do_tries map] in *. { injection H as <-; auto. } destruct (do_call o j c) as [j1 [x|]]; [discriminate|]. rewrite (IH _ _ H). auto.
Qed.

(** C17: what a rejected call leaves *)
Theorem c17_exact ops o h j o' es : well_shaped ops -> ord_ok o -> ord_ok o' -> valid_history (net_of ops) h -> session o ops h = Ok j -> Forall (plausible (net_of ops)) es ->
  let N := net_of ops in let L := in_force N (calls h) in
  exists j', update_evidences o' j es = (j', if forallb (has_var N) es && forallb (inside N) es then None else Some KeyError) /\
    forall i v, In i (vars N) -> In v (dom N i) -> stored_likelihood j' i v = Some (if forallb (has_var N) es then until N L es i v else L i v).
Proof.
  intros HW Ho Ho' Hh HJ HP N L. destruct (session_shows ops o h HW Ho Hh) as [b [j0 [j1 [A1 [A2 [A3 [A4 [A5 A6]]]]]]]]. assert (j1 = j). { pose proof (session_eq _ _ _ _ _ _ A1 A2). congruence. } subst j1.
  assert (HT : tried N (net_name ops) (L, shown N (calls h)) j). { constructor; auto. intros i Hi. apply (session_evid ops o h j HW Ho HJ i Hi). }
  destruct (update_tried N (net_name ops) (firsts_NoDup _) (ws_names _ HW) (ws_dom _ HW) o' _ j es Ho' HT HP) as [j' [B1 [B2 B3]]]. exists j'. rewrite B1.
  pose proof (sw_st _ _ _ _ _ (td_shows _ _ _ _ B2)) as HS.
  assert (G : forall i v, In i (vars N) -> In v (dom N i) -> stored_likelihood j' i v = Some (fst (fst (try_update N (L, shown N (calls h)) es)) i v)).
  { intros i v Hi Hv. eapply stored_says; eauto. intros k Hk. apply (ws_dom _ HW k Hk). }
  unfold try_update in *. destruct (forallb (has_var N) es); cbn [negb andb] in *.
  - destruct (forallb (inside N) es) eqn:Ei; cbn [negb fst snd] in *; (split; [reflexivity|]).
    2:{ exact G. }
    intros i v Hi Hv. rewrite G by auto. f_equal. unfold step; cbn [fst effect].
    clearbody L N. clear - Ei. revert L Ei. induction es as [|e es IH]; intros L Ei; cbn [until fold_left]; auto. cbn [forallb] in Ei. apply andb_true_iff in Ei. destruct Ei as [E1 E2]. rewrite E1. apply IH; auto.
  - split; auto.
Qed.

(** unobserve_all after rejected calls *)
Theorem c83_reset ops o h o' : well_shaped ops -> connected ops -> ord_ok o -> ord_ok o' -> plausible_history (net_of ops) h -> let N := net_of ops in
  exists b j j' xs, apply o (build ops) = Ok (b, j) /\ do_tries j h = (j', xs) /\
    ((exists i v q, In i (vars N) /\ In v (dom N i) /\ stored_likelihood j' i v = Some q /\ q <> 1%Qc) ->
     exists j2 t, unobserve_all o' j' = (j2, None) /\ get_posteriors j = Ok t /\ get_posteriors j2 = Ok t).
Proof.
  intros HW Hc Ho Ho' Hh N. destruct (tries_session ops o h HW Ho Hh) as [b [j [j' [A1 [A2 [A3 [A4 [A5 A6]]]]]]]]. fold N in A2, A3, A5. exists b, j, j'. eexists. split; auto. split; [exact A2|].
  intros [i [v [q [Hi [Hv [Hq Hn]]]]]]. destruct (attempts N nothing_yet (calls h)) as [[L S] xs]. cbn [fst snd] in *. pose proof (td_shows _ _ _ _ A3) as HW'. cbn [fst snd] in HW'.
  rewrite (stored_says _ _ _ _ _ _ (sw_st _ _ _ _ _ HW') (fun k Hk => proj1 (ws_dom _ HW k Hk)) Hi Hv) in Hq. injection Hq as <-.
  destruct (call_shows N (net_name ops) (firsts_NoDup _) (ws_names _ HW) (ws_dom _ HW) o' L S j' UnobserveAll Ho' HW' I) as [j2 [J1 [J2 J3]]]. cbn [do_call] in J1.
  assert (Eq : forallb (quiet N L) (map (nothing N) (vars N)) = false).
  { destruct (forallb (quiet N L) (map (nothing N) (vars N))) eqn:E; auto. rewrite forallb_forall in E. exfalso. apply Hn. apply (quiet_ones N L (nothing N i)); auto. apply E. apply in_map; auto. }
  unfold step in J2. cbn [fst snd effect about] in J2. rewrite Eq in J2. destruct (sw_live _ _ _ _ _ J2) as [ev Hl].
  destruct (apply_build ops o HW Ho) as [b' [j'' [B1 [B2 B3]]]]. rewrite A1 in B1. injection B1 as <- <-.
  exists j2. eexists. split; auto. split; [apply (live_table N (net_name ops) (firsts_NoDup _) (ws_names _ HW) no_evidence); auto|].
  change (get_posteriors j2) with (get_posteriors (set_jevid j2 ev)). rewrite (live_table N (net_name ops) (firsts_NoDup _) (ws_names _ HW) no_evidence); auto.
  - f_equal. unfold jt_bbn_ids, jt_cliques. change (jt_nodes (set_jevid j2 ev)) with (jt_nodes j2). rewrite J3, A4. auto.
  - apply jconn_ext with j2; auto. apply jconn_ext with j'; auto.
Qed.
