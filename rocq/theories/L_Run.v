(** When the sampler returns. *)
From Verif Require Import Py M_Graph M_Node M_Sampling Spec SpecNet SpecPot SpecSamp SpecRun L_Base L_Sums L_Table L_Net L_P4 L_Samp L_Samp2 L_P5.
Open Scope nat_scope.

Lemma qprod_pos l : (forall x, In x l -> (0 < x)%Qc) -> (0 < qprod l)%Qc.
Proof.
  induction l as [|x l IH]; intros H. reflexivity. rewrite qprod_cons.
  assert (A : (0 < x)%Qc) by (apply H; left; auto). assert (B : (0 < qprod l)%Qc) by (apply IH; intros; apply H; right; auto).
  apply (Qcmult_lt_compat_r _ _ _ B) in A. rewrite Qcmult_0_l in A. auto.
Qed.
Lemma qprod_pos_inv l : (forall x, In x l -> (0 <= x)%Qc) -> (0 < qprod l)%Qc -> forall x, In x l -> (0 < x)%Qc.
Proof.
  intros Hn Hp x Hx. specialize (Hn x Hx). apply Qcle_lt_or_eq in Hn. destruct Hn as [|E]; auto. exfalso.
  assert (qprod l = 0%Qc) as E0. { clear Hp. induction l as [|y l IH]; [destruct Hx|]. rewrite qprod_cons. destruct Hx as [->|Hx]; [rewrite <- E; ring|rewrite (IH Hx); ring]. }
  rewrite E0 in Hp. apply (Qclt_not_eq _ _ Hp). auto.
Qed.

Section Run.
  Context (srt : sorter) (ops : list bop) (s : sampler) (K : sorter_ok srt) (HW : well_shaped ops) (HC : clean ops) (HS : stochastic (net_of ops))
    (HE : logic_sampler srt (build ops) = Ok s) (HT : topological (net_of ops) (sp_nodes s)) (ev : sample) (He : evidence_on (net_of ops) ev).
  Notation N := (net_of ops).

  (** a draw that fits is kept *)
  Lemma fit_kept us : draw_for N us -> draws_fit s ev us -> exists d, sample_once s ev us = Ok d /\ List.length d = List.length (sp_nodes s).
  Proof using K HW HC HS HE HT He.
    intros Hu [full [E F]]. destruct (c30_once srt ops s K HW HC HS HE HT ev us He Hu) as (full' & d & E1 & E2 & E3 & _). rewrite E in E1. inversion E1; subst full'.
    exists d. split; auto. apply E3. auto.
  Qed.
  Lemma go_on n (acc : list sample) f m : (forall k, draw_for N (f k)) -> List.length acc < n ->
    (forall m', exists k, m' <= k /\ draws_fit s ev (f k)) -> exists k l, samples_loop s ev n (map f (seq m k)) acc = Ok l /\ List.length l = n.
  Proof using K HW HC HS HE HT He.
    intros Hd. remember (n - List.length acc) as r eqn:Er. revert acc m Er. induction r as [r IH] using lt_wf_ind; intros acc m Er Hl Hi.
    destruct (Hi m) as [k0 [Hk0 Hf0]].
    (* up to the draw k0, one more is kept *)
    remember (k0 - m) as g eqn:Eg. revert acc m Er Hl Hk0 Eg. induction g as [|g IHg]; intros acc m Er Hl Hk0 Eg.
    - assert (k0 = m) by lia. subst k0. destruct (fit_kept (f m) (Hd m) Hf0) as [d [Ed Hld]].
      destruct (Nat.eq_dec (S (List.length acc)) n) as [En|En].
      + exists 1, (acc ++ [d]). cbn [seq map samples_loop]. rewrite Ed. cbn [rbind]. rewrite Hld, Nat.eqb_refl.
        assert (X : List.length (acc ++ [d]) = n) by (rewrite app_length; simpl; lia). rewrite X, Nat.eqb_refl. auto.
      + destruct (IH (n - List.length (acc ++ [d]))) with (acc := acc ++ [d]) (m := S m) as [k [l [A B]]]; auto.
        { rewrite app_length; simpl; lia. } { rewrite app_length; simpl; lia. }
        exists (S k), l. split; [|exact B]. cbn [seq map samples_loop]. rewrite Ed. cbn [rbind]. rewrite Hld, Nat.eqb_refl.
        destruct (Nat.eqb_spec (List.length (acc ++ [d])) n) as [X|]; [rewrite app_length in X; simpl in X; lia|]. exact A.
    - destruct (c30_once srt ops s K HW HC HS HE HT ev (f m) He (Hd m)) as (full & d & _ & Ed & _).
      destruct (Nat.eqb (List.length d) (List.length (sp_nodes s))) eqn:Eb.
      + destruct (Nat.eq_dec (S (List.length acc)) n) as [En|En].
        * exists 1, (acc ++ [d]). cbn [seq map samples_loop]. rewrite Ed. cbn [rbind]. rewrite Eb.
          assert (X : List.length (acc ++ [d]) = n) by (rewrite app_length; simpl; lia). rewrite X, Nat.eqb_refl. auto.
        * destruct (IH (n - List.length (acc ++ [d]))) with (acc := acc ++ [d]) (m := S m) as [k [l [A B]]]; auto.
          { rewrite app_length; simpl; lia. } { rewrite app_length; simpl; lia. }
          exists (S k), l. split; [|exact B]. cbn [seq map samples_loop]. rewrite Ed. cbn [rbind]. rewrite Eb.
          destruct (Nat.eqb_spec (List.length (acc ++ [d])) n) as [X|]; [rewrite app_length in X; simpl in X; lia|]. exact A.
      + destruct (IHg acc (S m)) as [k [l [A B]]]; auto; try lia.
        exists (S k), l. split; [|exact B]. cbn [seq map samples_loop]. rewrite Ed. cbn [rbind]. rewrite Eb.
        destruct (Nat.eqb_spec (List.length acc) n) as [X|]; [lia|]. exact A.
  Qed.

  (** after one more than [n] were kept, nothing ends the loop *)
  Lemma too_many n draws : Forall (draw_for N) draws -> forall acc, n < List.length acc -> samples_loop s ev n draws acc = Err OutOfFuel.
  Proof using K HW HC HS HE HT He.
    induction 1 as [|us draws Hu Hd IH]; intros acc Hl; auto. cbn [samples_loop].
    destruct (c30_once srt ops s K HW HC HS HE HT ev us He Hu) as (full & d & _ & Ed & _). rewrite Ed. cbn [rbind].
    destruct (Nat.eqb (List.length d) (List.length (sp_nodes s))).
    - assert (X : n < List.length (acc ++ [d])) by (rewrite app_length; simpl; lia). destruct (Nat.eqb_spec (List.length (acc ++ [d])) n); [lia|]. auto.
    - destruct (Nat.eqb_spec (List.length acc) n); [lia|]. auto.
  Qed.
  Lemma draws_all f k : (forall i, draw_for N (f i)) -> Forall (draw_for N) (map f (seq 0 k)).
  Proof using. intros H. apply Forall_forall. intros x Hx. apply in_map_iff in Hx. destruct Hx as [i [<- _]]. auto. Qed.

  Context (ps : Z -> list Z) (HAsc : by_id N ps).
  Notation M := (read_with N ps).

  Lemma possible_draw : evidence_possible M ev -> exists us, draw_for N us /\ draws_fit s ev us.
  Proof using K HW HC HS HE HT He HAsc.
    intros [a [Ha [Hev Hw]]]. destruct (c32_any srt ops s K HW HC HS HE HT ps HAsc a Ha) as [lo [hi [B1 [B2 B3]]]].
    pose proof (sampler_perm srt ops s K HE) as P.
    assert (Hpos : forall v, In v (sp_nodes s) -> (lo v < hi v)%Qc).
    { intros v Hv. apply Qclt_minus_iff. unfold Qcminus in B3. rewrite <- B3 in Hw.
      assert (Hn : forall x, In x (map (fun v => (hi v + - lo v)%Qc) (sp_nodes s)) -> (0 <= x)%Qc).
      { intros x Hx. apply in_map_iff in Hx. destruct Hx as [u [<- Hu]]. apply -> Qcle_minus_iff. apply (B2 u). apply (Permutation_in _ P Hu). }
      apply (qprod_pos_inv _ Hn Hw). apply in_map_iff. exists v. auto. }
    assert (Hu : draw_for N (map lo (sp_nodes s))).
    { split. { rewrite map_length. apply (Permutation_length P). } apply Forall_forall. intros x Hx. apply in_map_iff in Hx. destruct Hx as [v [<- Hv]].
      assert (Hv' : In v (vars N)) by apply (Permutation_in _ P Hv). split; [apply (B2 v Hv')|]. eapply Qclt_le_trans; [apply Hpos; auto|apply (B2 v Hv')]. }
    exists (map lo (sp_nodes s)). split; [exact Hu|].
    assert (HF : Forall2 (fun v u => (lo v <= u)%Qc /\ (u < hi v)%Qc) (sp_nodes s) (map lo (sp_nodes s))).
    { clear - Hpos. revert Hpos. induction (sp_nodes s) as [|v l IH]; intros H; simpl; constructor. { split; [apply Qcle_refl|apply H; left; auto]. } apply IH. intros; apply H; right; auto. }
    apply (B1 _ Hu) in HF. destruct HF as [d [Ed Hd]]. exists d. split; auto. intros i x Hx. rewrite Hd. { f_equal. apply Hev; auto. }
    apply He. eapply dget_Some_key; eauto.
  Qed.
  Lemma fit_possible us : draw_for N us -> draws_fit s ev us -> evidence_possible M ev.
  Proof using K HW HC HS HE HT He HAsc.
    intros Hu [full [E F]]. destruct (plain srt ops s K HW HC HE HT HS us Hu) as (a & Ha & Ep & _). rewrite E in Ep. inversion Ep; subst full.
    destruct (c32_any srt ops s K HW HC HS HE HT ps HAsc a Ha) as [lo [hi [B1 [B2 B3]]]].
    exists a. split; [exact Ha|]. split.
    - intros i x Hx. apply F in Hx. apply (dget_full_some srt ops s K HE) in Hx. destruct Hx; auto.
    - rewrite <- B3. apply qprod_pos. intros x Hx. apply in_map_iff in Hx. destruct Hx as [v [<- Hv]].
      assert (HF : Forall2 (fun v u => (lo v <= u)%Qc /\ (u < hi v)%Qc) (sp_nodes s) us).
      { apply (B1 us Hu). eexists. split; [exact E|]. intros w Hw. apply (dget_full srt ops s K HE); auto. }
      assert (exists u, (lo v <= u)%Qc /\ (u < hi v)%Qc) as [u [U1 U2]].
      { clear - HF Hv. induction HF; [destruct Hv|]. destruct Hv as [<-|Hv]; eauto. }
      unfold Qcminus. apply -> Qclt_minus_iff. eapply Qcle_lt_trans; eauto.
  Qed.
End Run.

Lemma c72_returns : forall srt ops s, sorter_ok srt -> well_shaped ops -> clean ops -> let N := net_of ops in stochastic N ->
  logic_sampler srt (build ops) = Ok s -> topological N (sp_nodes s) ->
  forall ev n f, evidence_on N ev -> 1 <= n -> (forall k, draw_for N (f k)) -> (forall m, exists k, m <= k /\ draws_fit s ev (f k)) ->
    exists l, returns s ev n f l /\ List.length l = n.
Proof.
  intros srt ops s K HW HC N HS HE HT ev n f He Hn Hd Hi.
  destruct (go_on srt ops s K HW HC HS HE HT ev He n [] f 0 Hd) as [k [l [A B]]]; auto. exists l. split; auto. exists k. exact A.
Qed.
Lemma c72_possible : forall srt ops s, sorter_ok srt -> well_shaped ops -> clean ops -> let N := net_of ops in stochastic N ->
  logic_sampler srt (build ops) = Ok s -> topological N (sp_nodes s) -> forall ps, by_id N ps ->
  forall ev, evidence_on N ev -> (evidence_possible (read_with N ps) ev <-> exists us, draw_for N us /\ draws_fit s ev us).
Proof.
  intros srt ops s K HW HC N HS HE HT ps HA ev He. split.
  - apply (possible_draw srt ops s K HW HC HS HE HT ev He ps HA).
  - intros [us [Hu Hf]]. apply (fit_possible srt ops s K HW HC HS HE HT ev He ps HA us Hu Hf).
Qed.
Lemma c72_impossible : forall srt ops s, sorter_ok srt -> well_shaped ops -> clean ops -> let N := net_of ops in stochastic N ->
  logic_sampler srt (build ops) = Ok s -> topological N (sp_nodes s) -> forall ps, by_id N ps ->
  forall ev n f, evidence_on N ev -> (forall before v, sp_nodes s = before ++ [v] -> ~ In v (dkeys ev)) -> 1 <= n -> (forall k, draw_for N (f k)) ->
    ~ evidence_possible (read_with N ps) ev -> runs_for_ever s ev n f.
Proof.
  intros srt ops s K HW HC N HS HE HT ps HA ev n f He Hl Hn Hd Hno k.
  pose proof (c30 srt ops s K HW HC HS HE HT ev n (map f (seq 0 k)) He Hl (draws_all ops f k Hd)) as H. destruct (get_samples s ev n (map f (seq 0 k))) as [l|x]; [|subst; auto].
  destruct H as (used & rest & fulls & kept & E & HF & Hsel & HF2 & Hln). exfalso.
  assert (kept = []) as ->.
  { assert (Hu : Forall (draw_for N) used). { pose proof (draws_all ops f k Hd) as D. rewrite E in D. apply Forall_app in D. apply D. }
    clear - Hsel HF Hu Hno K HW HC HS HE HT HA He. revert used HF Hu. induction Hsel as [|x p r Hx Hs IH|x p r Hx Hs IH]; intros used HF Hu; auto; inversion HF; subst; inversion Hu; subst.
    - exfalso. apply Hno. eapply (fit_possible srt ops s K HW HC HS HE HT ev He ps HA); eauto. exists x; auto.
    - eapply IH; eauto. }
  inversion HF2. subst. simpl in Hn. lia.
Qed.
Lemma c72_zero : forall srt ops s, sorter_ok srt -> well_shaped ops -> clean ops -> let N := net_of ops in stochastic N ->
  logic_sampler srt (build ops) = Ok s -> topological N (sp_nodes s) ->
  forall ev f, evidence_on N ev -> (forall k, draw_for N (f k)) -> draws_fit s ev (f 0) -> runs_for_ever s ev 0 f.
Proof.
  intros srt ops s K HW HC N HS HE HT ev f He Hd Hf k. unfold get_samples. destruct k as [|k]; [reflexivity|]. cbn [seq map samples_loop].
  destruct (fit_kept srt ops s K HW HC HS HE HT ev He (f 0) (Hd 0) Hf) as [d [Ed Hl]]. rewrite Ed. cbn [rbind]. rewrite Hl, Nat.eqb_refl. cbn [app List.length Nat.eqb].
  apply (too_many srt ops s K HW HC HS HE HT ev He); auto.
  apply Forall_forall. intros x Hx. apply in_map_iff in Hx. destruct Hx as [i [<- _]]. apply Hd.
Qed.
