(** The chain rule for reported numbers. *)
From Verif Require Import Py M_Graph M_Node M_Pptc Spec SpecNet SpecEv SpecSep SpecPot L_Base L_PD L_Sums L_Table L_Tree L_Walk L_Forest L_Root L_Good L_Prop L_Init L_Post L_Read L_Ids L_Trans L_Elim L_UG L_Tri L_Moral L_Build L_Exact L_Apply L_Net L_Evid L_Hist L_Claims L_P1 L_P2 L_P4 L_Build SpecCohere L_Cohere SpecChain.
Open Scope Qc_scope.

Section Net.
  Context (N : net) (L : likelihood) (HN : nshape N) (HL : forall i v, In i (vars N) -> In v (dom N i) -> 0 <= L i v).

  Lemma same_cons i l (b a : asg) : same_on (i :: l) b a = String.eqb (b i) (a i) && same_on l b a.
  Proof. reflexivity. Qed.
  Lemma marginal_observing i l a : In i (vars N) -> free N L i -> marginal N (observing L i (a i)) l a = marginal N L (i :: l) a.
  Proof using HN.
    clear HL. intros Hi Hf. unfold marginal. apply sums_ext_gen. intros b _ Hb. rewrite same_cons, weight_observing by auto.
    destruct (string_dec (b i) (a i)) as [E|E]; [rewrite E, String.eqb_refl; reflexivity|]. apply String.eqb_neq in E. rewrite E. simpl. destruct (same_on l b a); auto.
  Qed.
  Lemma marginal_none i l a : mass_of N L i (a i) = 0 -> marginal N L (i :: l) a = 0.
  Proof using HN HL.
    intros E. apply sums_zero. intros b Hb Ho. rewrite same_cons. destruct (String.eqb_spec (b i) (a i)) as [E1|]; auto. simpl.
    assert (P : proper (fun c : asg => if string_dec (c i) (a i) then weight N L c else 0)).
    { intros c c' Hc. rewrite (Hc i). rewrite (weight_proper N L c c' Hc). reflexivity. }
    pose proof (sums_zero_terms (dom N) (vars N) _ P no_asg) as S. cbv beta in S.
    specialize (S (fun c Hc Hoc => match string_dec (c i) (a i) as s return (0 <= if s then weight N L c else 0) with left _ => weight_nonneg N L HN HL c Hoc | right _ => Qcle_refl 0 end) E b Hb Ho).
    rewrite E1 in S. destruct (string_dec (a i) (a i)); [|congruence]. rewrite S. destruct (same_on l b a); auto.
  Qed.
  Lemma chain_one i l a : In i (vars N) -> free N L i ->
    exact_posterior N L i (a i) * joint_posterior N (observing L i (a i)) l a = joint_posterior N L (i :: l) a.
  Proof using HN HL.
    intros Hi Hf. unfold exact_posterior, joint_posterior. rewrite total_observing, marginal_observing by auto.
    destruct (Qc_eq_dec (total N L) 0) as [E|E]; [ring|]. destruct (Qc_eq_dec (mass_of N L i (a i)) 0) as [E0|E0].
    - rewrite (marginal_none i l a E0). unfold Qcdiv. ring.
    - field. auto.
  Qed.
  Lemma joint_nil a : joint_posterior N L [] a = if Qc_eq_dec (total N L) 0 then 0 else 1.
  Proof using. clear. unfold joint_posterior, marginal. cbn [same_on forallb]. fold (total N L). change (sums (dom N) (vars N) (fun b => weight N L b) no_asg) with (total N L).
    destruct (Qc_eq_dec (total N L) 0); auto. field; auto. Qed.
End Net.
Lemma joint_agree (N : net) (L L' : likelihood) l a : agree N L L' -> joint_posterior N L l a = joint_posterior N L' l a.
Proof.
  intros H. unfold joint_posterior. assert (E : total N L = total N L'). { apply sums_ext_gen. intros b _ Hb. apply weight_agree; auto. }
  assert (E2 : marginal N L l a = marginal N L' l a). { apply sums_ext_gen. intros b _ Hb. destruct (same_on l b a); auto. apply weight_agree; auto. }
  rewrite E, E2. reflexivity.
Qed.
Lemma point_marginal (N : net) l : forall c a, NoDup l -> (forall v, In v l -> NoDup (dom N v)) -> okon (dom N) l a ->
  forall f : asg -> Qc, proper f -> sums (dom N) l (fun b => if same_on l b a then f b else 0) c = f (fun v => if mem v l then a v else c v).
Proof.
  induction l as [|i l IH]; intros c a Hl Hd Ha f Hf; [simpl; auto|].
  inversion Hl; subst. cbn [sums].
  rewrite (qsum_map_ext _ (fun x => if string_dec x (a i) then f (fun v => if mem v (i :: l) then a v else c v) else 0)).
  - apply (qsum_select string_dec (fun _ => f (fun v => if mem v (i :: l) then a v else c v)) (a i) (dom N i)). apply Hd; simpl; auto. apply Ha; simpl; auto.
  - intros x Hx. destruct (string_dec x (a i)) as [->|E].
    + rewrite (sums_ext_gen _ _ _ (fun b => if same_on l b a then f b else 0)).
      * rewrite IH; auto. 2:{ intros v Hv; apply Hd; simpl; auto. } 2:{ intros v Hv; apply Ha; simpl; auto. }
        apply Hf. intros v. simpl. unfold upd. destruct (Z.eqb_spec v i); [subst v|]; simpl; auto. destruct (mem i l); auto.
      * intros b Hb _. rewrite same_cons. rewrite (Hb i) by auto. unfold upd. rewrite Z.eqb_refl, String.eqb_refl. reflexivity.
    + apply sums_zero. intros b Hb _. rewrite same_cons. rewrite (Hb i) by auto. unfold upd. rewrite Z.eqb_refl. apply String.eqb_neq in E. rewrite E. reflexivity.
Qed.

Lemma same_perm l l' b a : Permutation l l' -> same_on l b a = same_on l' b a.
Proof.
  intros P. unfold same_on. apply Bool.eq_iff_eq_true. rewrite !forallb_forall. split; intros H x Hx; apply H; [apply (Permutation_in x (Permutation_sym P))|apply (Permutation_in x P)]; auto.
Qed.
Lemma joint_perm N L l l' a : Permutation l l' -> joint_posterior N L l a = joint_posterior N L l' a.
Proof.
  intros P. unfold joint_posterior, marginal. rewrite (sums_ext _ _ (fun b => if same_on l b a then weight N L b else 0) (fun b => if same_on l' b a then weight N L b else 0)); auto.
  intros b. rewrite (same_perm l l' b a P). reflexivity.
Qed.
Lemma weight_vars N L : nshape N -> forall a b, (forall v, In v (vars N) -> a v = b v) -> weight N L a = weight N L b.
Proof.
  intros HN a b H. unfold weight. f_equal.
  - apply qprod_map_ext. intros v Hv. apply cpt_dep. intros u Hu. apply H. apply in_app_or in Hu. destruct Hu as [Hu|[<-|[]]]; auto. apply (ns_ends _ HN u v Hu).
  - apply qprod_map_ext. intros v Hv. rewrite (H v Hv). reflexivity.
Qed.
Lemma point_joint N L a l : nshape N -> okon (dom N) (vars N) a -> Permutation l (vars N) -> marginal N L l a = weight N L a.
Proof.
  intros HN Ha P. unfold marginal. rewrite (sums_ext _ _ _ (fun b => if same_on (vars N) b a then weight N L b else 0)) by (intros b; rewrite (same_perm _ _ b a P); reflexivity).
  rewrite (point_marginal N (vars N) no_asg a (ns_nd _ HN)); auto.
  - apply weight_vars; auto. intros v Hv. apply (mem_In v (vars N)) in Hv. rewrite Hv. reflexivity.
  - intros v Hv. apply (ns_dom _ HN v Hv).
  - apply weight_proper.
Qed.

Lemma chain_force ops h o' i v : In i (vars (net_of ops)) -> In v (dom (net_of ops) i) ->
  agree (net_of ops) (in_force (net_of ops) (calls (h ++ [(o', observe (net_of ops) i v)]))) (observing (in_force (net_of ops) (calls h)) i v).
Proof.
  intros Hi Hv. set (N := net_of ops) in *. set (e := mkEv i (dom N i) OBSERVATION [(v, 1)]).
  assert (K : known N e). { split; [exact Hi|]. split; [reflexivity|]. split; [repeat constructor; intros []|]. intros z [<-|[]]. exact Hv. }
  rewrite app_calls. change (calls [(o', observe N i v)]) with [observe N i v]. rewrite in_force_snoc. cbn [effect observe fold_left].
  intros x z Hx Hz. unfold assimilate, observing. fold e. change (ev_node e) with i. destruct (Z.eqb_spec x i) as [->|]; auto. apply (like_observes N e v K); auto. split; reflexivity.
Qed.
Theorem c99_chain ops o (os : Z -> Ord) a : well_shaped ops -> connected ops -> ord_ok o -> (forall i, ord_ok (os i)) ->
  forall l h, valid_history (net_of ops) h -> Forall hard_call (calls h) -> NoDup l -> incl l (vars (net_of ops)) ->
  (forall i, In i l -> In (a i) (dom (net_of ops) i)) -> (forall i, In i l -> free (net_of ops) (in_force (net_of ops) (calls h)) i) ->
  exists ps, chained o ops os a h l ps /\
    (l <> [] \/ total (net_of ops) (in_force (net_of ops) (calls h)) <> 0 -> qprod ps = joint_posterior (net_of ops) (in_force (net_of ops) (calls h)) l a).
Proof.
  intros HW Hc Ho Hos. pose proof (net_shape ops HW) as HN. induction l as [|i l IH]; intros h Hh Hd Hl Hs Ha Hf.
  - exists []. split; [constructor|]. intros [E|E]; [congruence|]. rewrite joint_nil. destruct (Qc_eq_dec (total (net_of ops) (in_force (net_of ops) (calls h))) 0); [contradiction|reflexivity].
  - assert (Hi : In i (vars (net_of ops))) by (apply Hs; left; auto). assert (Hv : In (a i) (dom (net_of ops) i)) by (apply Ha; left; auto).
    pose proof (chain_force ops h (os i) i (a i) Hi Hv) as A. inversion Hl as [|z m Hil Hl']; subst z m.
    set (e := mkEv i (dom (net_of ops) i) OBSERVATION [(a i, 1)]).
    assert (K : known (net_of ops) e). { split; [exact Hi|]. split; [reflexivity|]. split; [repeat constructor; intros []|]. intros z [<-|[]]. exact Hv. }
    destruct (IH (h ++ [(os i, observe (net_of ops) i (a i))])) as (ps & C & E); auto.
    { apply valid_app. split; auto. apply valid_one; auto. simpl. constructor; auto. }
    { rewrite app_calls. apply Forall_app. split; auto. constructor; [|constructor]. simpl. constructor; [discriminate|constructor]. }
    { intros z Hz. apply Hs. right. auto. }
    { intros z Hz. apply Ha. right. auto. }
    { intros z Hz v Hvz. rewrite A; auto. 2:{ apply Hs. right. auto. } unfold observing. destruct (Z.eqb_spec z i) as [->|]; [contradiction|]. apply (Hf z (or_intror Hz) v Hvz). }
    exists (exact_posterior (net_of ops) (in_force (net_of ops) (calls h)) i (a i) :: ps). split.
    { constructor; auto. apply prior_answers; auto. }
    intros _. rewrite qprod_cons. rewrite <- (chain_one (net_of ops) _ HN (force_pos ops h Hh) i l a Hi (Hf i (or_introl eq_refl))).
    rewrite <- (joint_agree (net_of ops) _ _ l a A).
    assert (ET : total (net_of ops) (in_force (net_of ops) (calls (h ++ [(os i, observe (net_of ops) i (a i))]))) = mass_of (net_of ops) (in_force (net_of ops) (calls h)) i (a i)).
    { rewrite <- (total_observing (net_of ops) _ HN i (a i) Hi (Hf i (or_introl eq_refl))). apply sums_ext_gen. intros b _ Hb. apply weight_agree; auto. }
    destruct (Qc_eq_dec (mass_of (net_of ops) (in_force (net_of ops) (calls h)) i (a i)) 0) as [E0|E0].
    + unfold exact_posterior. rewrite E0. destruct (Qc_eq_dec (total (net_of ops) (in_force (net_of ops) (calls h))) 0); unfold Qcdiv; ring.
    + rewrite E; auto. right. rewrite ET. auto.
Qed.
Theorem c99_joint ops o (os : Z -> Ord) a l : well_shaped ops -> connected ops -> acyclic (is_parent (net_of ops)) -> stochastic (net_of ops) -> ord_ok o -> (forall i, ord_ok (os i)) ->
  Permutation l (vars (net_of ops)) -> okon (dom (net_of ops)) (vars (net_of ops)) a ->
  exists ps, chained o ops os a [] l ps /\ qprod ps = qprod (map (fun i => cpt_entry (net_of ops) i a) (vars (net_of ops))).
Proof.
  intros HW Hc HA HS Ho Hos P Ha. pose proof (net_shape ops HW) as HN. pose proof (total_prior (net_of ops) HN HA HS) as T.
  destruct (c99_chain ops o os a HW Hc Ho Hos l []) as (ps & C & E).
  - split; constructor.
  - constructor.
  - apply (Permutation_NoDup (Permutation_sym P)). apply (ns_nd _ HN).
  - intros z Hz. apply (Permutation_in z P Hz).
  - intros z Hz. apply Ha. apply (Permutation_in z P Hz).
  - intros z _ v _. reflexivity.
  - exists ps. split; auto. change (in_force (net_of ops) (calls [])) with no_evidence in E. rewrite E. 2:{ right. rewrite T. discriminate. }
    unfold joint_posterior. rewrite T, (point_joint _ _ _ _ HN Ha P), weight_prior. destruct (Qc_eq_dec 1 0) as [X|_]; [discriminate|]. field. discriminate.
Qed.
(** no other chain of numbers exists *)
Lemma answers_fun o ops h n v p q : answers o ops h n v p -> answers o ops h n v q -> p = q.
Proof. intros (j & A1 & A2) (k & B1 & B2). congruence. Qed.
Lemma chained_fun o ops os a l : forall h ps qs, chained o ops os a h l ps -> chained o ops os a h l qs -> ps = qs.
Proof.
  induction l as [|i l IH]; intros h ps qs A B; inversion A; subst; inversion B; subst; auto. f_equal; [eapply answers_fun; eauto|eapply IH; eauto].
Qed.
Theorem c99_order ops o o' (os os' : Z -> Ord) a h l l' ps qs : well_shaped ops -> connected ops -> ord_ok o -> ord_ok o' -> (forall i, ord_ok (os i)) -> (forall i, ord_ok (os' i)) ->
  valid_history (net_of ops) h -> Forall hard_call (calls h) -> NoDup l -> incl l (vars (net_of ops)) ->
  (forall i, In i l -> In (a i) (dom (net_of ops) i)) -> (forall i, In i l -> free (net_of ops) (in_force (net_of ops) (calls h)) i) ->
  Permutation l l' -> chained o ops os a h l ps -> chained o' ops os' a h l' qs -> qprod ps = qprod qs.
Proof.
  intros HW Hc Ho Ho' Hos Hos' Hh Hd Hl Hs Ha Hf P A B. destruct l as [|i l].
  { apply Permutation_nil in P. subst l'. inversion A; subst. inversion B; subst. reflexivity. }
  destruct (c99_chain ops o os a HW Hc Ho Hos (i :: l) h Hh Hd Hl Hs Ha Hf) as (ps0 & A1 & A2).
  rewrite (chained_fun _ _ _ _ _ _ _ _ A A1). rewrite A2 by (left; discriminate). pose proof (Permutation_sym P) as P'.
  destruct (c99_chain ops o' os' a HW Hc Ho' Hos' l' h Hh Hd) as (qs0 & B1 & B2); auto.
  - apply (Permutation_NoDup P Hl).
  - intros z Hz. apply Hs. apply (Permutation_in z P' Hz).
  - intros z Hz. apply Ha. apply (Permutation_in z P' Hz).
  - intros z Hz. apply Hf. apply (Permutation_in z P' Hz).
  - rewrite (chained_fun _ _ _ _ _ _ _ _ B B1). rewrite B2. 2:{ left. intros ->. apply Permutation_sym, Permutation_nil in P. discriminate. }
    apply joint_perm; auto.
Qed.
