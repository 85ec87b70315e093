(** A limit on the depth of recursion either changes nothing or shows as an error. *)
From Verif Require Import Py M_Graph M_Node M_Pptc M_Depth Spec SpecNet SpecEv SpecGraph L_Base L_PD.
Open Scope nat_scope.

(** [a] is [b], or cut short *)
Definition cut {A} (a b : res A) : Prop := a = b \/ a = Err OutOfFuel.
Lemma cut_refl {A} (a : res A) : cut a a.
Proof. left; auto. Qed.
Lemma cut_ok {A} (a b : res A) r : cut a b -> a = Ok r -> b = Ok r.
Proof. intros [->| ->]; congruence. Qed.
Lemma cut_bind {A B} (a b : res A) (f g : A -> res B) : cut a b -> (forall x, cut (f x) (g x)) -> cut (rbind a f) (rbind b g).
Proof. intros [->| ->] H; [|right; auto]. destruct b; simpl; auto. left; auto. Qed.
Lemma cut_foldM {A S} (f g : S -> A -> res S) l : (forall s x, In x l -> cut (f s x) (g s x)) -> forall s, cut (foldM f l s) (foldM g l s).
Proof.
  induction l as [|x l IH]; intros H s; simpl; [left; auto|]. apply cut_bind; [apply H; left; auto|]. intros s'. apply IH. intros; apply H; right; auto.
Qed.

(** ** the recursive functions *)
Section PD.
  Context {K : Type} `{EqB K} (adj : K -> list K) (stop : K).
  Lemma find_more f : forall f' seen i, f <= f' -> pd_find adj stop f seen i = pd_find adj stop f' seen i \/ pd_find adj stop f seen i = None.
  Proof.
    induction f as [|f IH]; intros f' seen i Hf; [right; auto|]. destruct f' as [|f']; [lia|]. rewrite !pd_find_S. destruct (mem stop (adj i)); [left; auto|].
    generalize (sadd seen i) as s0. generalize (adj i) as cs. induction cs as [|c cs IHc]; intros s0; simpl; [left; auto|]. destruct (mem c s0); auto.
    destruct (IH f' s0 c ltac:(lia)) as [E|E]; rewrite E; [|right; auto]. destruct (pd_find adj stop f' s0 c) as [[[|] s]|]; auto.
  Qed.
  Lemma exists_more f f' i : f <= f' -> cut (pd_exists adj stop f i) (pd_exists adj stop f' i).
  Proof.
    intros Hf. unfold pd_exists. destruct (eqb i stop); [left; auto|]. destruct (find_more f f' [] i Hf) as [E|E]; rewrite E; [left|right]; auto.
  Qed.
End PD.
Lemma walk_more o j f : forall f' st x s y, f <= f' -> cut (collect_walk o j f st x s y) (collect_walk o j f' st x s y).
Proof.
  induction f as [|f IH]; intros f' st x s y Hf; [right; auto|]. destruct f' as [|f']; [lia|]. simpl. apply cut_bind; [left; auto|]. intros nb. destruct (mark_new (snd st) nb) as [m todo].
  apply cut_bind; [|intros; left; auto]. apply cut_foldM. intros s' p _. apply IH. lia.
Qed.
Lemma dwalk_more o j f : forall f' st y, f <= f' -> cut (distribute_walk o j f st y) (distribute_walk o j f' st y).
Proof.
  induction f as [|f IH]; intros f' st y Hf; [right; auto|]. destruct f' as [|f']; [lia|]. simpl. apply cut_bind; [left; auto|]. intros nb. destruct (mark_new (snd st) nb) as [m todo].
  apply cut_foldM. intros s' p _. apply cut_bind; [left; auto|]. intros ps. apply IH. lia.
Qed.

(** ** Dag and Pdag *)
Section G.
  Context {N : Type} (nid : N -> Z).
  (** the keys of the two maps *)
  Definition keyed (V : list Z) (g : graph N) : Prop := NoDup (dkeys (g_emap g)) /\ incl (dkeys (g_emap g)) V /\ NoDup (dkeys (g_nbrs g)) /\ incl (dkeys (g_nbrs g)) V.
  Lemma keyed_fuel V g : keyed V g -> g_fuel g <= 2 + 2 * List.length V.
  Proof using.
    intros [A [B [C D]]]. unfold g_fuel. pose proof (NoDup_incl_length A B) as E1. pose proof (NoDup_incl_length C D) as E2. unfold dkeys in *. rewrite map_length in *. lia.
  Qed.
  Lemma keys_dsadd V m k x : NoDup (dkeys m) -> incl (dkeys m) V -> In k V -> NoDup (dkeys (dsadd m k x)) /\ incl (dkeys (dsadd m k x)) V.
  Proof using.
    intros H1 H2 H3. unfold dsadd. split; [apply dset_NoDup; auto|]. intros y Hy. apply dkeys_dset_In in Hy. destruct Hy as [Hy|Hy]; subst; auto.
  Qed.
  Lemma keyed_put V g e : keyed V g -> In (nid (e_i e)) V -> In (nid (e_j e)) V -> keyed V (put_edge nid g e).
  Proof using.
    intros [A [B [C D]]] Hi Hj. unfold put_edge. destruct (keys_dsadd V (g_emap g) (nid (e_i e)) (nid (e_j e)) A B Hi) as [A1 B1]. destruct (keys_dsadd V (g_nbrs g) (nid (e_i e)) (nid (e_j e)) C D Hi) as [C1 D1]. destruct (keys_dsadd V _ (nid (e_j e)) (nid (e_i e)) C1 D1 Hj) as [C2 D2].
    destruct (e_t e); unfold keyed; simpl; auto. destruct (keys_dsadd V _ (nid (e_j e)) (nid (e_i e)) A1 B1 Hj) as [A2 B2]. auto.
  Qed.
  Lemma keyed_node V g n : keyed V g -> keyed V (add_node nid g n).
  Proof using. unfold add_node. destruct (dmem _ _); auto. Qed.
  Lemma keys_rem V (m : list (Z * list Z)) i : NoDup (dkeys m) -> incl (dkeys m) V -> NoDup (dkeys (map (fun p => (fst p, srem (snd p) i)) (dpop m i))) /\ incl (dkeys (map (fun p => (fst p, srem (snd p) i)) (dpop m i))) V.
  Proof using.
    intros H1 H2. assert (E : dkeys (map (fun p => (fst p, srem (snd p) i)) (dpop m i)) = dkeys (dpop m i)) by (unfold dkeys; rewrite map_map; auto). rewrite E.
    split; [apply dpop_NoDup; auto|]. intros x Hx. apply dkeys_dpop_In in Hx. apply H2. tauto.
  Qed.
  Lemma keyed_remove V g i : keyed V g -> keyed V (remove_node g i).
  Proof using. intros [A [B [C D]]]. destruct (keys_rem V _ i A B) as [A1 B1]. destruct (keys_rem V _ i C D) as [C1 D1]. unfold keyed, remove_node; simpl; auto. Qed.

  (** every edge added joins nodes whose ids are in [V] *)
  Definition over (V : list Z) (ops : list (Ord * @gop N)) : Prop := forall o e, In (o, AddE e) ops -> In (nid (e_i e)) V /\ In (nid (e_j e)) V.
  Section Run.
    Context (d : nat) (V : list Z) (Hd : 2 + 2 * List.length V <= d).
    Lemma dag_edge_more o g e : keyed V g -> cut (dag_add_edge nid o g e) (dag_add_edge_d d nid o g e).
    Proof using Hd.
      intros HK. unfold dag_add_edge, dag_add_edge_d. apply cut_bind; [|intros; left; auto]. unfold dag_shouldadd, dag_shouldadd_d. destruct (e_t e); [left; auto|]. destruct (Z.eqb _ _); [left; auto|]. destruct (_ && _); [|left; auto].
      apply cut_bind; [|intros; left; auto]. apply exists_more. assert (K2 : keyed V (add_ends nid g e)) by (unfold add_ends; apply keyed_node, keyed_node; auto). pose proof (keyed_fuel _ _ K2). lia.
    Qed.
    Lemma pdag_edge_more o g e : keyed V g -> cut (pdag_add_edge nid o g e) (pdag_add_edge_d d nid o g e).
    Proof using Hd.
      intros HK. unfold pdag_add_edge, pdag_add_edge_d. apply cut_bind; [|intros; left; auto]. unfold pdag_shouldadd, pdag_shouldadd_d. destruct (Z.eqb _ _); [left; auto|]. destruct (_ && _); [|left; auto].
      apply cut_bind; [|intros; left; auto]. apply exists_more. assert (K2 : keyed V (add_ends nid g e)) by (unfold add_ends; apply keyed_node, keyed_node; auto). pose proof (keyed_fuel _ _ K2). lia.
    Qed.
    Lemma keyed_ends g (e : edge N) (b : bool) : keyed V g -> In (nid (e_i e)) V -> In (nid (e_j e)) V -> keyed V (if b then put_edge nid (add_ends nid g e) e else add_ends nid g e).
    Proof using. intros HK H1 H2. assert (K2 : keyed V (add_ends nid g e)) by (unfold add_ends; apply keyed_node, keyed_node; auto). destruct b; auto. apply keyed_put; auto. Qed.
    Lemma dag_more ops : forall g, over V ops -> keyed V g -> cut (foldM (dag_step nid) ops g) (foldM (dag_step_d d nid) ops g).
    Proof using Hd.
      induction ops as [|[o op] ops IH]; intros g Ho HK; [left; auto|]. simpl. assert (Ho' : over V ops) by (intros o' e' H; apply (Ho o' e'); right; auto).
      destruct op as [n|e|i]; unfold dag_step at 1, dag_step_d at 1; simpl.
      - apply IH; auto. apply keyed_node; auto.
      - destruct (dag_edge_more o g e HK) as [E|E]; rewrite E; [|right; auto]. rewrite <- E. destruct (dag_add_edge nid o g e) as [g'|x] eqn:E'; simpl; [|left; auto]. apply IH; auto.
        unfold dag_add_edge in E'. apply rbind_Ok in E'. destruct E' as [b [_ E']]. inversion E'; subst. destruct (Ho o e (or_introl eq_refl)). apply keyed_ends; auto.
      - apply IH; auto. apply keyed_remove; auto.
    Qed.
    Lemma pdag_more ops : forall g, over V ops -> keyed V g -> cut (foldM (pdag_step nid) ops g) (foldM (pdag_step_d d nid) ops g).
    Proof using Hd.
      induction ops as [|[o op] ops IH]; intros g Ho HK; [left; auto|]. simpl. assert (Ho' : over V ops) by (intros o' e' H; apply (Ho o' e'); right; auto).
      destruct op as [n|e|i]; unfold pdag_step at 1, pdag_step_d at 1; simpl.
      - apply IH; auto. apply keyed_node; auto.
      - destruct (pdag_edge_more o g e HK) as [E|E]; rewrite E; [|right; auto]. rewrite <- E. destruct (pdag_add_edge nid o g e) as [g'|x] eqn:E'; simpl; [|left; auto]. apply IH; auto.
        unfold pdag_add_edge in E'. apply rbind_Ok in E'. destruct E' as [b [_ E']]. inversion E'; subst. destruct (Ho o e (or_introl eq_refl)). apply keyed_ends; auto.
      - apply IH; auto. apply keyed_remove; auto.
    Qed.
    Lemma keyed_empty : keyed V g_empty.
    Proof using. unfold keyed; simpl. repeat split; try constructor; intros x []. Qed.
  End Run.
End G.

(** ** inference *)
Section Inf.
  Context (d : nat).
  Lemma propagate_more o j : walk_fuel j <= d -> cut (propagate o j) (propagate_d d o j).
  Proof using.
    intros Hd. unfold propagate, propagate_d. destruct (isort cl_leb (jt_cliques j)) as [|x l]; [left; auto|]. apply cut_bind.
    - unfold collect, collect_d. apply cut_bind; [left; auto|]. intros nb. apply cut_foldM. intros s p _. apply walk_more; auto.
    - intros st. apply cut_bind; [|intros; left; auto]. unfold distribute, distribute_d. apply cut_bind; [left; auto|]. intros nb. apply cut_foldM. intros s p _. apply cut_bind; [left; auto|]. intros ps. apply dwalk_more; auto.
  Qed.
  Lemma jadd_more o j s : jt_fuel j <= d -> cut (jt_add_edge o j s) (jt_add_edge_d d o j s).
  Proof using.
    intros Hd. unfold jt_add_edge, jt_add_edge_d. apply cut_bind; [|intros; left; auto]. unfold jt_shouldadd, jt_shouldadd_d. destruct (eqb _ _); [left; auto|]. apply cut_bind; [|intros; left; auto]. apply exists_more; auto.
  Qed.
  (** the other way round: what remains with little room *)
  Lemma jadd_less o j s : (exists b, jt_shouldadd o j s = Ok b) -> cut (jt_add_edge_d d o j s) (jt_add_edge o j s).
  Proof using.
    intros [b Hb]. unfold jt_add_edge, jt_add_edge_d. apply cut_bind; [|intros; left; auto]. rewrite Hb. revert Hb. unfold jt_shouldadd, jt_shouldadd_d. destruct (eqb _ _); [intros <-; left; auto|].
    set (adj := fun i => sord o i (jt_neighbors j i)). intros Hb. apply rbind_Ok in Hb. destruct Hb as [c [Hc Eb]]. inversion Eb; subst b. destruct (pd_exists adj (cl_id (ss_right s)) d (cl_id (ss_left s))) as [c'|x] eqn:E.
    - left. simpl. f_equal. f_equal. destruct (le_ge_dec d (jt_fuel j)) as [H|H]; pose proof (exists_more adj (cl_id (ss_right s)) _ _ (cl_id (ss_left s)) H) as C; [apply (cut_ok _ _ _ C) in E|apply (cut_ok _ _ _ C) in Hc]; congruence.
    - right. simpl. f_equal. revert E. unfold pd_exists. destruct (eqb _ _); [discriminate|]. destruct (pd_find _ _ _ _ _) as [[? ?]|]; congruence.
  Qed.
End Inf.

(** ** the size of the tree under construction *)
Definition named (j : jtree) : Prop := NoDup (dkeys (jt_nbrs j)) /\ incl (dkeys (jt_nbrs j)) (dkeys (jt_nodes j)).
Lemma named_fuel j : named j -> jt_fuel j <= 2 + List.length (jt_nodes j).
Proof. intros [A B]. unfold jt_fuel. pose proof (NoDup_incl_length A B) as E. unfold dkeys in E. rewrite !map_length in E. lia. Qed.
Lemma node_grows j n : jt_nbrs (jt_add_node j n) = jt_nbrs j /\ In (j_id n) (dkeys (jt_nodes (jt_add_node j n))) /\ incl (dkeys (jt_nodes j)) (dkeys (jt_nodes (jt_add_node j n))) /\ List.length (jt_nodes j) <= List.length (jt_nodes (jt_add_node j n)).
Proof.
  unfold jt_add_node. destruct (dmem (jt_nodes j) (j_id n)) eqn:E.
  - apply dmem_In in E. repeat split; auto. intros x; auto.
  - simpl. split; auto. split; [apply dkeys_dset_In; auto|]. split; [intros x Hx; apply dkeys_dset_In; auto|]. clear. induction (jt_nodes j) as [|[k v] l IH]; simpl; [lia|]. destruct (String.eqb (j_id n) k); simpl; lia.
Qed.
Lemma named_node j n : named j -> named (jt_add_node j n).
Proof. intros [A B]. destruct (node_grows j n) as [E [_ [I _]]]. unfold named. rewrite E. split; auto. intros x Hx. auto. Qed.
Lemma named_dsadds (V : list string) m k x : NoDup (dkeys m) /\ incl (dkeys m) V -> In k V -> NoDup (dkeys (dsadds m k x)) /\ incl (dkeys (dsadds m k x)) V.
Proof. intros [H1 H2] H3. unfold dsadds. split; [apply dset_NoDup; auto|]. intros y Hy. apply dkeys_dset_In in Hy. destruct Hy as [Hy|Hy]; subst; auto. Qed.
Lemma named_edge o j s j' : jt_add_edge o j s = Ok j' -> named j -> named j' /\ List.length (jt_nodes j) <= List.length (jt_nodes j').
Proof.
  unfold jt_add_edge. destruct (jt_shouldadd o j s) as [[|]|]; cbn [rbind]; try discriminate; intros E HN; inversion E; subst; clear E; [|split; auto].
  set (j1 := jt_add_node j (JS s)). set (j2 := jt_add_node j1 (JC (ss_left s))). set (j3 := jt_add_node j2 (JC (ss_right s))).
  destruct (node_grows j (JS s)) as [_ [I1 [C1 L1]]]. destruct (node_grows j1 (JC (ss_left s))) as [_ [I2 [C2 L2]]]. destruct (node_grows j2 (JC (ss_right s))) as [_ [I3 [C3 L3]]]. fold j1 in I1, C1, L1. fold j2 in I2, C2, L2. fold j3 in I3, C3, L3. simpl in I1, I2, I3.
  assert (N3 : named j3) by (apply named_node, named_node, named_node; auto). split; [|cbn [jt_nodes]; lia]. unfold named in *. cbn [jt_nbrs jt_nodes]. repeat apply named_dsadds; auto.
Qed.
Lemma named_edges o L : forall j j', foldM (jt_add_edge o) L j = Ok j' -> named j -> named j' /\ List.length (jt_nodes j) <= List.length (jt_nodes j').
Proof.
  induction L as [|s L IH]; intros j j' E HN; simpl in E. { inversion E; subst; auto. }
  apply rbind_Ok in E. destruct E as [j1 [E1 E2]]. destruct (named_edge _ _ _ _ E1 HN) as [N1 L1]. destruct (IH _ _ E2 N1) as [N2 L2]. split; auto. lia.
Qed.
Lemma named_start h cs : named (fold_left (fun j c => jt_add_node j (JC c)) cs (jt_empty h)).
Proof.
  assert (G : forall j, named j -> named (fold_left (fun j c => jt_add_node j (JC c)) cs j)). { induction cs as [|c cs IH]; intros j Hj; simpl; auto. apply IH, named_node; auto. }
  apply G. split; simpl; [constructor|intros x []].
Qed.
Lemma transform_more d o h cs j : transform o h cs = Ok j -> 2 + List.length (jt_nodes j) <= d -> transform_d d o h cs = Ok j.
Proof.
  unfold transform, transform_d. generalize (named_start h cs). set (j0 := fold_left _ cs _). clearbody j0. revert j0. induction (get_sep_sets (h_weight h) cs) as [|s L IH]; intros j0 HN E Hd; simpl in *; auto.
  apply rbind_Ok in E. destruct E as [j1 [E1 E2]]. destruct (named_edge _ _ _ _ E1 HN) as [N1 L1]. destruct (named_edges _ _ _ _ E2 N1) as [_ L2]. rewrite (cut_ok _ _ _ (jadd_more d o j0 s ltac:(pose proof (named_fuel _ HN); lia)) E1). cbn [rbind]. apply IH; auto.
Qed.
Lemma transform_less d o h cs j : transform o h cs = Ok j -> cut (transform_d d o h cs) (Ok j).
Proof.
  unfold transform, transform_d. set (j0 := fold_left _ cs _). clearbody j0. revert j0. induction (get_sep_sets (h_weight h) cs) as [|s L IH]; intros j0 E; simpl in *; [left; congruence|].
  apply rbind_Ok in E. destruct E as [j1 [E1 E2]]. assert (Hs : exists b, jt_shouldadd o j0 s = Ok b). { unfold jt_add_edge in E1. destruct (jt_shouldadd o j0 s); [eauto|discriminate]. }
  destruct (jadd_less d o j0 s Hs) as [Q|Q]; rewrite Q; [|right; auto]. rewrite E1. cbn [rbind]. apply IH; auto.
Qed.
