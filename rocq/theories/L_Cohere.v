(** Bayes' rule and the law of total probability for reported numbers. *)
From Verif Require Import Py M_Graph M_Node M_Pptc Spec SpecNet SpecEv SpecSep L_Base L_PD L_Sums L_Table L_Tree L_Walk L_Forest L_Root L_Good L_Prop L_Init L_Post L_Read L_Ids L_Trans L_Elim L_UG L_Tri L_Moral L_Build L_Exact L_Apply L_Net L_Evid L_Hist L_Claims L_P1 L_P2 L_Build SpecCohere.
Open Scope Qc_scope.

Section Net.
  Context (N : net) (L : likelihood) (HN : nshape N) (HL : forall i v, In i (vars N) -> In v (dom N i) -> 0 <= L i v).

  Lemma qprod_observing (l : list Z) i v (b : asg) : NoDup l -> In i l -> L i (b i) = 1 ->
    qprod (map (fun x => observing L i v x (b x)) l) = if string_dec (b i) v then qprod (map (fun x => L x (b x)) l) else 0.
  Proof.
    clear. intros HD Hi H1. assert (G : forall l, ~ In i l -> map (fun x => observing L i v x (b x)) l = map (fun x => L x (b x)) l).
    { intros m Hm. apply map_ext_in. intros x Hx. unfold observing. destruct (Z.eqb_spec x i) as [->|]; [contradiction|reflexivity]. }
    induction l as [|x l IH]; [destruct Hi|]. inversion HD; subst. cbn [map]. rewrite !qprod_cons. destruct Hi as [->|Hi].
    - rewrite G by auto. unfold observing at 1. rewrite Z.eqb_refl, H1. destruct (string_dec (b i) v) as [->|E]; [rewrite String.eqb_refl; reflexivity|].
      apply String.eqb_neq in E. rewrite E. ring.
    - rewrite IH by auto. unfold observing. destruct (Z.eqb_spec x i) as [->|]; [contradiction|]. destruct (string_dec (b i) v); [reflexivity|ring].
  Qed.
  Lemma weight_observing i v b : In i (vars N) -> free N L i -> okon (dom N) (vars N) b ->
    weight N (observing L i v) b = if string_dec (b i) v then weight N L b else 0.
  Proof using HN.
    clear HL. intros Hi Hf Hb. unfold weight. rewrite (qprod_observing (vars N) i v b (ns_nd _ HN) Hi (Hf _ (Hb i Hi))). destruct (string_dec (b i) v); ring.
  Qed.

  (** both values *)
  Definition both i v k y : Qc := sums (dom N) (vars N) (fun a => if string_dec (a i) v then (if string_dec (a k) y then weight N L a else 0) else 0) no_asg.
  Lemma both_sym i v k y : both i v k y = both k y i v.
  Proof. clear. unfold both. apply sums_ext. intros a. destruct (string_dec (a i) v), (string_dec (a k) y); auto. Qed.
  Lemma total_observing i v : In i (vars N) -> free N L i -> total N (observing L i v) = mass_of N L i v.
  Proof using HN. clear HL. intros Hi Hf. unfold total, mass_of. apply sums_ext_gen. intros b _ Hb. apply weight_observing; auto. Qed.
  Lemma mass_observing i v k y : In i (vars N) -> free N L i -> mass_of N (observing L i v) k y = both i v k y.
  Proof using HN.
    clear HL. intros Hi Hf. unfold both, mass_of. apply sums_ext_gen. intros b _ Hb. rewrite weight_observing by auto. destruct (string_dec (b k) y), (string_dec (b i) v); auto.
  Qed.
  Lemma both_zero i v k y : mass_of N L i v = 0 -> both i v k y = 0.
  Proof using HN HL.
    intros E. apply sums_zero. intros b Hb Ho. destruct (string_dec (b i) v) as [E1|]; auto. destruct (string_dec (b k) y) as [E2|]; auto.
    assert (P : proper (fun a : asg => if string_dec (a i) v then weight N L a else 0)).
    { intros a a' Ha. rewrite (Ha i). rewrite (weight_proper N L a a' Ha). reflexivity. }
    pose proof (sums_zero_terms (dom N) (vars N) _ P no_asg) as S. cbv beta in S. specialize (S (fun c Hc Hoc => match string_dec (c i) v as s return (0 <= if s then weight N L c else 0) with left _ => weight_nonneg N L HN HL c Hoc | right _ => Qcle_refl 0 end) E b Hb Ho).
    rewrite E1 in S. destruct (string_dec v v); [exact S|congruence].
  Qed.
  Lemma product i v k y : In i (vars N) -> free N L i ->
    exact_posterior N L i v * exact_posterior N (observing L i v) k y = if Qc_eq_dec (total N L) 0 then 0 else both i v k y / total N L.
  Proof using HN HL.
    intros Hi Hf. unfold exact_posterior. rewrite total_observing, mass_observing by auto. destruct (Qc_eq_dec (total N L) 0) as [E|E]; [ring|].
    destruct (Qc_eq_dec (mass_of N L i v) 0) as [E0|E0]; [rewrite (both_zero i v k y E0); unfold Qcdiv; ring|]. field. auto.
  Qed.
  Lemma bayes i v k y : In i (vars N) -> In k (vars N) -> free N L i -> free N L k ->
    exact_posterior N L i v * exact_posterior N (observing L i v) k y = exact_posterior N L k y * exact_posterior N (observing L k y) i v.
  Proof using HN HL. intros Hi Hk Fi Fk. rewrite !product, both_sym by auto. reflexivity. Qed.
  Lemma both_sum i k y : In i (vars N) -> qsum (map (fun v => both i v k y) (dom N i)) = mass_of N L k y.
  Proof using HN.
    clear HL. intros Hi. pose proof (ns_nd _ HN) as HV. destruct (ns_dom _ HN i Hi) as [Hd _].
    assert (P : Permutation (vars N) ([i] ++ minus (vars N) [i])). { apply minus_perm; auto. constructor; [tauto|constructor]. intros z [<-|[]]; auto. }
    assert (Pr : proper (fun a : asg => if string_dec (a k) y then weight N L a else 0)).
    { intros a a' Ha. rewrite (Ha k). rewrite (weight_proper N L a a' Ha). reflexivity. }
    unfold mass_of. rewrite (sums_perm _ _ _ _ _ Pr P). rewrite sums_app. simpl. apply qsum_map_ext. intros x Hx.
    unfold both. apply (sums_split_select _ _ i x (fun a : asg => if string_dec (a k) y then weight N L a else 0)); auto.
  Qed.
  Lemma total_law i k y : In i (vars N) -> free N L i ->
    qsum (map (fun v => exact_posterior N L i v * exact_posterior N (observing L i v) k y) (dom N i)) = exact_posterior N L k y.
  Proof using HN HL.
    intros Hi Hf. rewrite (qsum_map_ext _ (fun v => if Qc_eq_dec (total N L) 0 then 0 else both i v k y / total N L)) by (intros v _; apply product; auto).
    unfold exact_posterior. destruct (Qc_eq_dec (total N L) 0) as [E|E]; [apply qsum_map_zero; auto|]. rewrite <- (both_sum i k y Hi).
    rewrite (qsum_map_ext _ (fun v => (1 / total N L) * both i v k y)) by (intros; field; auto). rewrite qsum_map_mult. field. auto.
  Qed.
End Net.

(** ** sessions *)
Lemma table_reported ops L j t k y : well_shaped ops -> get_posteriors j = Ok t -> exact_table (net_of ops) (net_name ops) L t -> In k (vars (net_of ops)) -> In y (dom (net_of ops) k) ->
  reported j (net_name ops k) y = Some (exact_posterior (net_of ops) L k y).
Proof.
  intros HW E [_ T] Hk Hy. unfold reported. rewrite E, (T k Hk). destruct (ws_dom _ HW k Hk) as [Hd _]. change (net_dom ops k) with (dom (net_of ops) k) in Hd.
  revert Hy Hd. generalize (dom (net_of ops) k) as l. induction l as [|z l IH]; intros Hy Hd; [destruct Hy|]. inversion Hd; subst. cbn [map dget]. destruct (eqb_spec y z) as [->|]; [reflexivity|].
  apply IH; auto. destruct Hy; [congruence|auto].
Qed.
Lemma prior_answers ops o h k y : well_shaped ops -> connected ops -> ord_ok o -> valid_history (net_of ops) h -> Forall hard_call (calls h) ->
  In k (vars (net_of ops)) -> In y (dom (net_of ops) k) -> answers o ops h (net_name ops k) y (exact_posterior (net_of ops) (in_force (net_of ops) (calls h)) k y).
Proof.
  intros HW Hc Ho Hh Hd Hk Hy. destruct (c02 ops o h HW Hc Ho Hh Hd) as (j & t & A1 & A2 & A3). exists j. split; auto. eapply table_reported; eauto.
Qed.
Lemma later_answers ops o h o' i v k y : well_shaped ops -> connected ops -> ord_ok o -> ord_ok o' -> valid_history (net_of ops) h -> Forall hard_call (calls h) ->
  In i (vars (net_of ops)) -> In v (dom (net_of ops) i) -> In k (vars (net_of ops)) -> In y (dom (net_of ops) k) ->
  answers o ops (h ++ [(o', observe (net_of ops) i v)]) (net_name ops k) y (exact_posterior (net_of ops) (observing (in_force (net_of ops) (calls h)) i v) k y).
Proof.
  intros HW Hc Ho Ho' Hh Hd Hi Hv Hk Hy. set (N := net_of ops) in *. set (e := mkEv i (dom N i) OBSERVATION [(v, 1)]).
  assert (K : known N e). { split; [exact Hi|]. split; [reflexivity|]. split; [repeat constructor; intros []|]. intros z [<-|[]]. exact Hv. }
  assert (Vh : valid_history N (h ++ [(o', observe N i v)])). { apply valid_app. split; auto. apply valid_one; auto. simpl. constructor; auto. }
  destruct (c02 ops o (h ++ [(o', observe N i v)]) HW Hc Ho Vh) as (j & t & A1 & A2 & A3).
  { rewrite app_calls. apply Forall_app. split; auto. constructor; [|constructor]. simpl. constructor; [discriminate|constructor]. }
  exists j. split; auto. eapply table_reported; eauto. eapply exact_table_agree; [|exact A3].
  rewrite app_calls. change (calls [(o', observe N i v)]) with [observe N i v]. rewrite in_force_snoc. fold N. cbn [effect observe fold_left].
  intros x z Hx Hz. unfold assimilate, observing. fold e. change (ev_node e) with i. destruct (Z.eqb_spec x i) as [->|]; auto. apply (like_observes N e v K); auto. split; reflexivity.
Qed.
Lemma force_pos ops h : valid_history (net_of ops) h -> forall i v, In i (vars (net_of ops)) -> In v (dom (net_of ops) i) -> 0 <= in_force (net_of ops) (calls h) i v.
Proof.
  intros _. assert (G : forall l L, unitL (net_of ops) L -> unitL (net_of ops) (fold_left (effect (net_of ops)) l L)) by (induction l as [|c l IH]; intros L HL; simpl; auto; apply IH, unit_effect; auto).
  intros i v Hi Hv. apply (G (calls h) no_evidence (unit_none _) i v Hi Hv).
Qed.

Theorem c95_bayes ops o h o1 o2 i v k y : well_shaped ops -> connected ops -> ord_ok o -> ord_ok o1 -> ord_ok o2 ->
  valid_history (net_of ops) h -> Forall hard_call (calls h) -> let N := net_of ops in let L := in_force N (calls h) in
  In i (vars N) -> In v (dom N i) -> free N L i -> In k (vars N) -> In y (dom N k) -> free N L k ->
  exists p q r s, answers o ops h (net_name ops i) v p /\ answers o ops (h ++ [(o1, observe N i v)]) (net_name ops k) y q /\
    answers o ops h (net_name ops k) y r /\ answers o ops (h ++ [(o2, observe N k y)]) (net_name ops i) v s /\ p * q = r * s.
Proof.
  intros HW Hc Ho Ho1 Ho2 Hh Hd N L Hi Hv Fi Hk Hy Fk. do 4 eexists.
  split; [apply prior_answers; auto|]. split; [apply later_answers; auto|]. split; [apply prior_answers; auto|]. split; [apply later_answers; auto|].
  apply bayes; auto. apply net_shape; auto. apply force_pos; auto.
Qed.
Theorem c95_total ops o h (os : string -> Ord) i k y : well_shaped ops -> connected ops -> ord_ok o -> (forall v, ord_ok (os v)) ->
  valid_history (net_of ops) h -> Forall hard_call (calls h) -> let N := net_of ops in let L := in_force N (calls h) in
  In i (vars N) -> free N L i -> In k (vars N) -> In y (dom N k) ->
  exists rows, Forall2 (fun v r => answers o ops h (net_name ops i) v (fst r) /\ answers o ops (h ++ [(os v, observe N i v)]) (net_name ops k) y (snd r)) (dom N i) rows /\
    answers o ops h (net_name ops k) y (qsum (map (fun r => fst r * snd r) rows)).
Proof.
  intros HW Hc Ho Hos Hh Hd N L Hi Fi Hk Hy. exists (map (fun v => (exact_posterior N L i v, exact_posterior N (observing L i v) k y)) (dom N i)). split.
  - assert (G : forall l, incl l (dom N i) -> Forall2 (fun v r => answers o ops h (net_name ops i) v (fst r) /\ answers o ops (h ++ [(os v, observe N i v)]) (net_name ops k) y (snd r)) l
      (map (fun v => (exact_posterior N L i v, exact_posterior N (observing L i v) k y)) l)).
    { induction l as [|v l IH]; intros Hl; constructor. { assert (Hv : In v (dom N i)) by (apply Hl; left; auto). split; [apply prior_answers|apply later_answers]; auto. }
      apply IH. intros z Hz. apply Hl. right. auto. }
    apply G. apply incl_refl.
  - rewrite map_map. cbn [fst snd]. rewrite total_law; auto; [apply prior_answers; auto|apply net_shape; auto|apply force_pos; auto].
Qed.
