(** networkx topological_sort: succeeds exactly on acyclic graphs, and lists every node once. *)
From Verif Require Import Py M_Graph M_Node M_Factory Spec L_Base L_PD L_Dag L_Table.
Open Scope nat_scope.

Lemma mem_app {K} `{EqB K} (x : K) l r : mem x (l ++ r) = mem x l || mem x r.
Proof.
  destruct (mem_spec x (l ++ r)) as [Y|N], (mem_spec x l) as [Y1|N1], (mem_spec x r) as [Y2|N2]; try reflexivity; exfalso; rewrite in_app_iff in *; tauto.
Qed.
Lemma In_dkeys_dget {V} (d : list (string * V)) k : In k (dkeys d) <-> exists v, dget d k = Some v.
Proof.
  split.
  - intros H. destruct (dget d k) as [v|] eqn:E; [eauto|]. apply dget_None in E. contradiction.
  - intros [v H]. apply dget_In in H. apply in_map_iff. exists (k, v). auto.
Qed.

Section Back.
  Context {K : Type} (R : K -> K -> Prop) (Rdec : forall x y, {R x y} + {~ R x y}) (HA : acyclic R).

  Fixpoint back (vs : list K) (x : K) (n : nat) : list K :=
    match n with
    | O => []
    | S m => x :: match find (fun y => if Rdec y x then true else false) vs with Some y => back vs y m | None => [] end
    end.
  Lemma back_path vs x n y : In y (back vs x n) -> path R y x.
  Proof.
    revert x; induction n as [|n IH]; intros x; simpl; [tauto|]. intros [<-|H]; [constructor|].
    destruct (find _ vs) as [z|] eqn:E; [|destruct H]. apply find_some in E. destruct E as [_ E]. destruct (Rdec z x); [|discriminate].
    apply (path_trans _ _ _ _ (IH _ H)). econstructor; [eassumption|constructor].
  Qed.
  Lemma back_NoDup vs x n : NoDup (back vs x n).
  Proof using HA.
    revert x; induction n as [|n IH]; intros x; simpl; [constructor|]. destruct (find _ vs) as [z|] eqn:E; [|constructor; [intros []|constructor]].
    constructor; auto. intros H. apply back_path in H. apply find_some in E. destruct E as [_ E]. destruct (Rdec z x) as [r|]; [|discriminate]. apply (HA _ _ r H).
  Qed.
  Lemma back_incl vs x n : In x vs -> incl (back vs x n) vs.
  Proof.
    revert x; induction n as [|n IH]; intros x Hx y; simpl; [tauto|]. intros [<-|H]; auto.
    destruct (find _ vs) as [z|] eqn:E; [|destruct H]. apply find_some in E. eapply IH; [apply E|exact H].
  Qed.
  Lemma back_length vs x n : (forall v, In v vs -> exists w, In w vs /\ R w v) -> In x vs -> List.length (back vs x n) = n.
  Proof.
    intros H. revert x; induction n as [|n IH]; intros x Hx; simpl; auto. f_equal.
    destruct (find _ vs) as [z|] eqn:E.
    - apply IH. apply find_some in E. tauto.
    - exfalso. destruct (H x Hx) as [w [Hw Hr]]. pose proof (find_none _ _ E w Hw) as F. simpl in F. destruct (Rdec w x); [discriminate|tauto].
  Qed.
  Lemma no_source vs : (forall v, In v vs -> exists w, In w vs /\ R w v) -> vs = [].
  Proof using HA Rdec.
    intros H. destruct vs as [|x vs']; [reflexivity|]. exfalso. set (vs := x :: vs') in *. assert (Hx : In x vs) by (left; auto).
    pose proof (NoDup_incl_length (back_NoDup vs x (S (List.length vs))) (back_incl vs x _ Hx)) as L. rewrite (back_length vs x _ H Hx) in L. lia.
  Qed.
End Back.

Section Kahn.
  Context (g : sgraph) (HN : NoDup (sg_nodes g)) (HD : NoDup (sg_edges g)).
  Context (HV : forall u v, In (u, v) (sg_edges g) -> In u (sg_nodes g) /\ In v (sg_nodes g)).
  Definition sedge (u v : string) : Prop := In (u, v) (sg_edges g).
  Lemma sedge_dec u v : {sedge u v} + {~ sedge u v}.
  Proof. apply in_dec. decide equality; apply string_dec. Qed.

  (** sources of the edges into [v] *)
  Definition preds (v : string) : list string := map fst (filter (fun e => String.eqb (snd e) v) (sg_edges g)).
  Lemma preds_In u v : In u (preds v) <-> sedge u v.
  Proof.
    unfold preds, sedge. rewrite in_map_iff. split.
    - intros ([a b] & <- & H). apply filter_In in H. destruct H as [H E]. cbn [fst snd] in *. apply String.eqb_eq in E. subst. exact H.
    - intros H. exists (u, v). split; [reflexivity|]. apply filter_In. split; [exact H|]. apply String.eqb_refl.
  Qed.
  Lemma preds_NoDup v : NoDup (preds v).
  Proof using HD.
    unfold preds. apply NoDup_map_inj.
    - intros [a b] [a' b'] H1 H2 E. apply filter_In in H1. apply filter_In in H2. destruct H1 as [_ H1], H2 as [_ H2]. cbn [fst snd] in *. apply String.eqb_eq in H1. apply String.eqb_eq in H2. congruence.
    - apply NoDup_filter, HD.
  Qed.
  Lemma succ_In u v : In v (sg_succ g u) <-> sedge u v.
  Proof.
    unfold sg_succ, sedge. rewrite in_map_iff. split.
    - intros ([a b] & <- & H). apply filter_In in H. destruct H as [H E]. cbn [fst snd] in *. apply String.eqb_eq in E. subst. exact H.
    - intros H. exists (u, v). split; [reflexivity|]. apply filter_In. split; [exact H|]. apply String.eqb_refl.
  Qed.
  Lemma succ_NoDup v : NoDup (sg_succ g v).
  Proof using HD.
    unfold sg_succ. apply NoDup_map_inj.
    - intros [a b] [a' b'] H1 H2 E. apply filter_In in H1. apply filter_In in H2. destruct H1 as [_ H1], H2 as [_ H2]. cbn [fst snd] in *. apply String.eqb_eq in H1. apply String.eqb_eq in H2. congruence.
    - apply NoDup_filter, HD.
  Qed.
  Lemma indegree_preds v : sg_indegree g v = List.length (preds v).
  Proof. unfold sg_indegree, preds. rewrite map_length. reflexivity. Qed.

  (** predecessors not yet listed *)
  Definition waiting (out : list string) (v : string) : nat := List.length (filter (fun u => negb (mem u out)) (preds v)).

  Lemma waiting_zero out v : waiting out v = 0 <-> forall u, sedge u v -> In u out.
  Proof.
    unfold waiting. split.
    - intros H u Hu. apply length_zero_iff_nil in H. apply preds_In in Hu. destruct (mem_spec u out) as [Y|N]; [exact Y|]. exfalso.
      assert (X : In u (filter (fun u => negb (mem u out)) (preds v))). { apply filter_In. split; [exact Hu|]. apply mem_false in N. rewrite N. reflexivity. }
      rewrite H in X. destruct X.
    - intros H. apply length_zero_iff_nil. destruct (filter _ (preds v)) as [|u t] eqn:E; [reflexivity|]. exfalso.
      assert (X : In u (filter (fun u => negb (mem u out)) (preds v))) by (rewrite E; left; reflexivity). apply filter_In in X. destruct X as [X Y]. apply preds_In in X. apply H in X.
      apply mem_In in X. rewrite X in Y. discriminate.
  Qed.
  Lemma waiting_skip out v w : ~ sedge v w -> waiting (out ++ [v]) w = waiting out w.
  Proof.
    intros N. unfold waiting. f_equal. apply filter_ext_in. intros u Hu. apply preds_In in Hu. rewrite mem_app. cbn [mem].
    assert (E : mem u [v] = false). { apply mem_false. intros [->|[]]. exact (N Hu). } rewrite E, orb_false_r. reflexivity.
  Qed.
  Lemma waiting_step out v w : sedge v w -> ~ In v out -> waiting out w = S (waiting (out ++ [v]) w).
  Proof using HD.
    intros Hs No. unfold waiting. pose proof (preds_NoDup w) as ND. apply preds_In in Hs. revert ND Hs. generalize (preds w). intros l.
    induction l as [|u t IH]; intros ND Hs; [destruct Hs|]. inversion ND as [|? ? N1 N2]; subst. destruct Hs as [->|Hv]; cbn [filter].
    - rewrite mem_app. pose proof No as No'. apply mem_false in No'. rewrite No'. assert (E : mem v [v] = true) by (apply mem_In; left; reflexivity). rewrite E. cbn [negb orb List.length].
      f_equal. f_equal. apply filter_ext_in. intros u Hu. rewrite mem_app. assert (E' : mem u [v] = false). { apply mem_false. intros [->|[]]. contradiction. } rewrite E', orb_false_r. reflexivity.
    - rewrite mem_app. assert (E' : mem u [v] = false). { apply mem_false. intros [->|[]]. contradiction. } rewrite E', orb_false_r. destruct (mem u out); cbn [negb List.length]; rewrite (IH N2 Hv); reflexivity.
  Qed.

  Lemma dec_loop cs : forall (d : list (string * nat)) new, NoDup (dkeys d) -> NoDup cs -> (forall c, In c cs -> exists n, dget d c = Some (S n)) ->
    exists d', foldM (fun st c => d <- dgetE (fst st) c ;;
                                   if Nat.eqb d 1 then Ok (dpop (fst st) c, snd st ++ [c]) else Ok (dset (fst st) c (d - 1), snd st)) cs (d, new) =
      Ok (d', new ++ filter (fun c => match dget d c with Some 1 => true | _ => false end) cs) /\
      NoDup (dkeys d') /\
      (forall k, dget d' k = match dget d k with
                             | Some n => if mem k cs then (if Nat.eqb n 1 then None else Some (n - 1)) else Some n
                             | None => None end).
  Proof.
    induction cs as [|c t IH]; intros d new ND NC HC.
    - exists d. cbn [foldM filter]. rewrite app_nil_r. repeat split; auto. intros k. destruct (dget d k); reflexivity.
    - inversion NC as [|? ? C1 C2]; subst. destruct (HC c (or_introl eq_refl)) as [n En]. cbn [foldM]. unfold dgetE. cbn [fst snd]. rewrite En. cbn [rbind].
      destruct (Nat.eqb_spec (S n) 1) as [E|E].
      + assert (n = 0) by lia. subst n. cbn [rbind].
        assert (HC' : forall x, In x t -> exists m, dget (dpop d c) x = Some (S m)).
        { intros x Hx. rewrite dget_dpop. destruct (eqb_spec x c) as [->|Ne]; [contradiction|]. apply HC. right. exact Hx. }
        destruct (IH (dpop d c) (new ++ [c]) (dpop_NoDup _ _ ND) C2 HC') as (d' & D1 & D2 & D3). exists d'. split; [|split; [exact D2|]].
        * unfold dgetE in D1. rewrite D1. cbn [filter]. rewrite En. cbn [List.app]. rewrite <- app_assoc. cbn [List.app]. f_equal. f_equal. f_equal. f_equal. apply filter_ext_in. intros x Hx. rewrite dget_dpop.
          destruct (eqb_spec x c) as [->|Ne]; [contradiction|]. reflexivity.
        * intros k. rewrite D3, dget_dpop. destruct (eqb_spec k c) as [->|Ne].
          -- rewrite En. replace (mem c (c :: t)) with true by (symmetry; apply mem_In; left; reflexivity). reflexivity.
          -- destruct (dget d k) as [m|]; [|reflexivity]. replace (mem k (c :: t)) with (mem k t); [reflexivity|].
             destruct (mem_spec k t) as [Y|N]; symmetry; [apply mem_In; right; exact Y|apply mem_false; intros [->|Y]; congruence].
      + cbn [rbind].
        assert (HC' : forall x, In x t -> exists m, dget (dset d c (S n - 1)) x = Some (S m)).
        { intros x Hx. rewrite dget_dset_neq by (intros ->; contradiction). apply HC. right. exact Hx. }
        destruct (IH (dset d c (S n - 1)) new (dset_NoDup _ _ _ ND) C2 HC') as (d' & D1 & D2 & D3). exists d'. split; [|split; [exact D2|]].
        * unfold dgetE in D1. rewrite D1. cbn [filter]. rewrite En. destruct n as [|m]; [lia|]. f_equal. f_equal. f_equal. apply filter_ext_in. intros x Hx.
          rewrite dget_dset_neq by (intros ->; contradiction). reflexivity.
        * intros k. rewrite D3. destruct (string_dec k c) as [->|Ne].
          -- rewrite dget_dset_eq, En. replace (mem c (c :: t)) with true by (symmetry; apply mem_In; left; reflexivity).
             apply mem_false in C1. rewrite C1. destruct (Nat.eqb_spec (S n) 1); [lia|]. reflexivity.
          -- rewrite dget_dset_neq by congruence. destruct (dget d k) as [m|]; [|reflexivity]. replace (mem k (c :: t)) with (mem k t); [reflexivity|].
             destruct (mem_spec k t) as [Y|N]; symmetry; [apply mem_In; right; exact Y|apply mem_false; intros [->|Y]; congruence].
  Qed.

  (** the state of the loop *)
  Record kst (queue : list string) (indegree : list (string * nat)) (out : list string) : Prop := {
    ks_nd : NoDup (out ++ queue); ks_keys : NoDup (dkeys indegree);
    ks_all : forall v, In v (sg_nodes g) <-> In v (out ++ queue) \/ In v (dkeys indegree);
    ks_apart : forall v, In v (out ++ queue) -> ~ In v (dkeys indegree);
    ks_done : forall v, In v (out ++ queue) -> waiting out v = 0;
    ks_deg : forall v n, dget indegree v = Some n -> n = waiting out v /\ 0 < n;
    ks_order : forall l v r, out = l ++ v :: r -> waiting l v = 0 }.

  Lemma kahn_step v q indegree out : kst (v :: q) indegree out -> exists d' new,
    foldM (fun st c => d <- dgetE (fst st) c ;;
                       if Nat.eqb d 1 then Ok (dpop (fst st) c, snd st ++ [c]) else Ok (dset (fst st) c (d - 1), snd st)) (sg_succ g v) (indegree, []) = Ok (d', new) /\
    kst (q ++ new) d' (out ++ [v]).
  Proof using HD HV.
    intros [K1 K2 K3 K4 K5 K6 K7].
    assert (Hv : In v (out ++ v :: q)) by (apply in_or_app; right; left; reflexivity).
    assert (Nv : ~ In v out). { intros H. apply NoDup_remove_2 in K1. apply K1. apply in_or_app. left. exact H. }
    assert (SC : forall c, In c (sg_succ g v) -> exists n, dget indegree c = Some (S n)).
    { intros c Hc. apply succ_In in Hc. assert (Hin : In c (sg_nodes g)) by apply (HV _ _ Hc). apply K3 in Hin. destruct Hin as [H|H].
      - apply K5 in H. rewrite waiting_zero in H. apply H in Hc. contradiction.
      - apply In_dkeys_dget in H. destruct H as [n Hn]. destruct (K6 _ _ Hn). exists (n - 1). rewrite Hn. f_equal. lia. }
    destruct (dec_loop (sg_succ g v) indegree [] K2 (succ_NoDup v) SC) as (d' & D1 & D2 & D3). cbn [List.app] in D1.
    set (new := filter (fun c => match dget indegree c with Some 1 => true | _ => false end) (sg_succ g v)) in *.
    exists d', new. split; [exact D1|].
    assert (New : forall c, In c new <-> sedge v c /\ dget indegree c = Some 1).
    { intros c. unfold new. rewrite filter_In, succ_In. destruct (dget indegree c) as [[|[|n]]|]; intuition congruence. }
    assert (Keys : forall k, In k (dkeys d') <-> In k (dkeys indegree) /\ ~ In k new).
    { intros k. rewrite !In_dkeys_dget. rewrite New. split.
      - intros [n Hn]. rewrite D3 in Hn. destruct (dget indegree k) as [m|] eqn:E; [|discriminate]. split; [eauto|]. intros [Hk Em]. inversion Em; subst.
        assert (Mk : mem k (sg_succ g v) = true) by (apply mem_In, succ_In, Hk). rewrite Mk in Hn. cbn in Hn. discriminate.
      - intros [[m Hm] N]. rewrite D3, Hm. destruct (mem_spec k (sg_succ g v)) as [Y|Nn]; [|eauto]. destruct (Nat.eqb_spec m 1) as [->|]; [|eauto]. exfalso. apply N. split; [apply succ_In, Y|exact Hm]. }
    assert (Perm : out ++ v :: q = (out ++ [v]) ++ q) by (rewrite <- app_assoc; reflexivity).
    assert (NewKeys : forall c, In c new -> In c (dkeys indegree)). { intros c Hc. apply New in Hc. apply In_dkeys_dget. destruct Hc; eauto. }
    constructor.
    - rewrite app_assoc, <- Perm. apply NoDup_app_intro.
      + exact K1.
      + unfold new. apply NoDup_filter, succ_NoDup.
      + intros x Hx Hy. apply (K4 x Hx). apply NewKeys, Hy.
    - exact D2.
    - intros x. rewrite K3, Keys, app_assoc, <- Perm. rewrite (in_app_iff (out ++ v :: q)).
      destruct (in_dec string_dec x new) as [Y|N]; [|tauto]. split; [tauto|]. intros _. right. apply NewKeys, Y.
    - intros x Hx Hk. apply Keys in Hk. rewrite app_assoc, <- Perm in Hx. apply in_app_or in Hx. destruct Hk as [H1 H2]. destruct Hx as [Hx|Hx]; [exact (K4 x Hx H1)|exact (H2 Hx)].
    - intros x Hx. rewrite app_assoc, <- Perm in Hx. apply in_app_or in Hx. destruct Hx as [Hx|Hx].
      + apply K5 in Hx. rewrite waiting_zero in Hx. apply waiting_zero. intros u Hu. apply in_or_app. left. apply Hx, Hu.
      + apply New in Hx. destruct Hx as [Hs Hd]. destruct (K6 _ _ Hd) as [Hw _]. rewrite (waiting_step out v x Hs Nv) in Hw. lia.
    - intros x n Hn. rewrite D3 in Hn. destruct (dget indegree x) as [m|] eqn:Em; [|discriminate]. destruct (K6 _ _ Em) as [Hw Hp].
      destruct (mem_spec x (sg_succ g v)) as [Y|N].
      + apply succ_In in Y. rewrite (waiting_step out v x Y Nv) in Hw. destruct (Nat.eqb_spec m 1); [discriminate|]. inversion Hn; subst. lia.
      + inversion Hn; subst. rewrite succ_In in N. rewrite (waiting_skip out v x N). split; [reflexivity|exact Hp].
    - intros l x r E. destruct r as [|y r'] using rev_ind.
      + apply app_inj_tail in E. destruct E as [-> ->]. apply K5. exact Hv.
      + clear IHr'. change (l ++ x :: r' ++ [y]) with (l ++ (x :: r') ++ [y]) in E. rewrite app_assoc in E. apply app_inj_tail in E. destruct E as [-> _]. eapply K7. reflexivity.
  Qed.

  (** listed with every predecessor before *)
  Definition ordered (out : list string) : Prop := forall l v r u, out = l ++ v :: r -> sedge u v -> In u l.

  Lemma kahn_spec fuel : forall queue indegree out, kst queue indegree out -> List.length (dkeys indegree) + List.length queue <= fuel ->
    (exists l, kahn fuel g queue indegree out = Ok l /\ NoDup l /\ (forall v, In v l <-> In v (sg_nodes g)) /\ ordered l) \/
    (kahn fuel g queue indegree out = Err NetworkXError /\ ~ acyclic sedge).
  Proof using HD HV.
    induction fuel as [|f IH]; intros queue indegree out HK HL.
    - destruct queue; [|simpl in HL; lia]. destruct indegree; [|simpl in HL; lia]. cbn [kahn]. left. exists out. destruct HK as [K1 K2 K3 K4 K5 K6 K7]. rewrite app_nil_r in *.
      split; [reflexivity|]. split; [exact K1|]. split. { intros v. rewrite K3. cbn. tauto. }
      intros l v r u E Hu. pose proof (K7 l v r E) as W. rewrite waiting_zero in W. apply W, Hu.
    - destruct queue as [|v q]; cbn [kahn].
      + destruct indegree as [|[k n] rest] eqn:Ei.
        * left. exists out. destruct HK as [K1 K2 K3 K4 K5 K6 K7]. rewrite app_nil_r in *. split; [reflexivity|]. split; [exact K1|]. split. { intros v. rewrite K3. cbn. tauto. }
          intros l v r u E Hu. pose proof (K7 l v r E) as W. rewrite waiting_zero in W. apply W, Hu.
        * right. split; [reflexivity|]. intros HA. rewrite <- Ei in *. assert (Z : dkeys indegree = []).
          { apply (no_source sedge sedge_dec HA). intros x Hx. destruct HK as [K1 K2 K3 K4 K5 K6 K7]. apply In_dkeys_dget in Hx. destruct Hx as [m Hm]. destruct (K6 _ _ Hm) as [Hw Hp].
            destruct (filter (fun u => negb (mem u out)) (preds x)) as [|w t] eqn:F. { unfold waiting in Hw. rewrite F in Hw. cbn in Hw. lia. }
            assert (Hw' : In w (filter (fun u => negb (mem u out)) (preds x))) by (rewrite F; left; reflexivity). apply filter_In in Hw'. destruct Hw' as [W1 W2]. apply preds_In in W1.
            exists w. split; [|exact W1]. assert (Hin : In w (sg_nodes g)) by apply (HV _ _ W1). apply K3 in Hin. destruct Hin as [Hin|Hin]; [|exact Hin]. rewrite app_nil_r in Hin. apply mem_In in Hin. rewrite Hin in W2. discriminate. }
          rewrite Ei in Z. discriminate.
      + destruct (kahn_step v q indegree out HK) as (d' & new & E & HK'). rewrite E. cbn [rbind fst snd]. apply IH; [exact HK'|].
        destruct HK as [K1 K2 K3 K4 _ _ _], HK' as [P1 P2 P3 P4 _ _ _].
        (* both sides list the remaining nodes *)
        assert (L : List.length (dkeys d' ++ (q ++ new)) = List.length (dkeys indegree ++ q)).
        { apply Permutation_length. apply NoDup_Permutation.
          - apply NoDup_app_intro; [exact P2| |]. { apply NoDup_app_iff in P1. apply P1. } intros x X1 X2. apply (P4 x); [apply in_or_app; right; exact X2|exact X1].
          - apply NoDup_app_intro; [exact K2| |]. { apply NoDup_app_iff in K1. destruct K1 as (_ & K1 & _). inversion K1; assumption. } intros x X1 X2. apply (K4 x); [apply in_or_app; right; right; exact X2|exact X1].
          - intros x. assert (A : In x (sg_nodes g) /\ ~ In x (out ++ [v]) <-> In x (dkeys d' ++ q ++ new)).
            { pose proof (proj2 (proj2 (proj1 (NoDup_app_iff _ _) P1)) x) as DJ. specialize (P3 x). specialize (P4 x). clear - P3 P4 DJ.
              rewrite (in_app_iff (out ++ [v]) (q ++ new)) in P3, P4. rewrite (in_app_iff (dkeys d') (q ++ new)). tauto. }
            assert (B : In x (sg_nodes g) /\ ~ In x (out ++ [v]) <-> In x (dkeys indegree ++ q)).
            { replace (out ++ v :: q) with ((out ++ [v]) ++ q) in * by (rewrite <- app_assoc; reflexivity).
              pose proof (proj2 (proj2 (proj1 (NoDup_app_iff _ _) K1)) x) as DJ. specialize (K3 x). specialize (K4 x). clear - K3 K4 DJ.
              rewrite (in_app_iff (out ++ [v]) q) in K3, K4. rewrite (in_app_iff (dkeys indegree) q). tauto. }
            rewrite <- A, B. tauto. }
        rewrite !app_length in L. rewrite app_length. cbn [List.length] in HL. lia.
  Qed.

  Theorem topological_spec :
    (exists l, topological g = Ok l /\ NoDup l /\ (forall v, In v l <-> In v (sg_nodes g)) /\ ordered l) \/
    (topological g = Err NetworkXError /\ ~ acyclic sedge).
  Proof using HN HD HV.
    unfold topological. set (Z := filter (fun v => Nat.eqb (sg_indegree g v) 0) (sg_nodes g)). set (P := filter (fun v => negb (Nat.eqb (sg_indegree g v) 0)) (sg_nodes g)).
    assert (KP : dkeys (map (fun v => (v, sg_indegree g v)) P) = P). { unfold dkeys. rewrite map_map. apply map_id. }
    assert (W0 : forall v, waiting [] v = sg_indegree g v). { intros v. rewrite indegree_preds. unfold waiting. f_equal. clear. induction (preds v) as [|u t IH]; [reflexivity|]. cbn [filter mem negb existsb]. f_equal. exact IH. }
    apply kahn_spec.
    - constructor; cbn [List.app]; rewrite ?KP.
      + apply NoDup_filter, HN.
      + apply NoDup_filter, HN.
      + intros v. unfold Z, P. rewrite !filter_In. destruct (Nat.eqb (sg_indegree g v) 0); cbn; tauto.
      + intros v H1 H2. unfold Z, P in *. rewrite filter_In in H1, H2. destruct H1 as [_ H1], H2 as [_ H2]. rewrite H1 in H2. discriminate.
      + intros v H. unfold Z in H. apply filter_In in H. destruct H as [_ H]. rewrite W0. apply Nat.eqb_eq, H.
      + intros v n H. apply dget_In in H. apply in_map_iff in H. destruct H as (x & E & H). inversion E; subst. rewrite W0. split; [reflexivity|]. unfold P in H. apply filter_In in H. destruct H as [_ H].
        destruct (Nat.eqb_spec (sg_indegree g v) 0); [discriminate|lia].
      + intros l v r E. destruct l; discriminate.
    - rewrite KP. unfold Z, P. clear. induction (sg_nodes g) as [|v t IH]; [cbn; lia|]. cbn [filter List.length]. destruct (Nat.eqb (sg_indegree g v) 0); cbn [negb List.length]; lia.
  Qed.
End Kahn.

Lemma ordered_acyclic g l : NoDup l -> (forall v, In v l <-> In v (sg_nodes g)) -> (forall u v, sedge g u v -> In v (sg_nodes g)) -> ordered g l -> acyclic (sedge g).
Proof.
  intros ND Hl HV HO.
  assert (P : forall x y, path (sedge g) x y -> x <> y -> forall a b, l = a ++ y :: b -> In x a).
  { intros x y H. induction H as [x|x y z Hxy Hyz IH]; intros Ne a b E; [congruence|].
    destruct (string_dec y z) as [->|Nyz]; [exact (HO a z b x E Hxy)|]. specialize (IH Nyz a b E). apply in_split in IH. destruct IH as (a1 & a2 & ->).
    apply in_or_app. left. apply (HO a1 y (a2 ++ z :: b) x); [|exact Hxy]. rewrite E, <- app_assoc. reflexivity. }
  intros x y Hxy Hyx. assert (Hy : In y l) by (apply Hl; eapply HV; exact Hxy). destruct (string_dec y x) as [->|Ne].
  - apply in_split in Hy. destruct Hy as (a & b & E). pose proof (HO a x b x E Hxy) as Hx. rewrite E in ND. apply NoDup_remove_2 in ND. apply ND. apply in_or_app. left. exact Hx.
  - apply in_split in Hy. destruct Hy as (a & b & E). pose proof (HO a y b x E Hxy) as Hx. apply in_split in Hx. destruct Hx as (a1 & a2 & ->).
    assert (E' : l = a1 ++ x :: (a2 ++ y :: b)) by (rewrite E, <- app_assoc; reflexivity).
    pose proof (P y x Hyx Ne a1 _ E') as Hy. rewrite E in ND. apply NoDup_remove_2 in ND. apply ND. apply in_or_app. left. apply in_or_app. left. exact Hy.
Qed.
