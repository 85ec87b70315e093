(** Posteriors depend on the joint distribution only. *)
From Verif Require Import Py M_Graph M_Node M_Pptc Spec SpecNet SpecEv SpecIso L_Base L_PD L_Sums L_Table L_Exact L_Apply L_Net L_Claims L_P1.
Open Scope nat_scope.

Lemma weight_dep N L : (forall i, In i (vars N) -> incl (par N i) (vars N)) -> dep (vars N) (weight N L).
Proof.
  intros H. unfold weight. apply dep_mult; apply dep_qprod; intros v Hv.
  - eapply dep_mono; [|apply cpt_entry_dep]. intros u Hu. apply in_app_or in Hu. destruct Hu as [Hu|[<-|[]]]; auto. apply (H v); auto.
  - intros a b E. rewrite E; auto.
Qed.

Section Iso.
  Context (f : Z -> Z) (N N' : net) (HI : same_joint f N N').
  Context (Hp : forall i, In i (vars N) -> incl (par N i) (vars N)).
  Notation pull := (fun (a : asg) (v : Z) => a (f v)).

  Lemma sums_pull vs : incl vs (vars N) -> forall g, dep (vars N) g -> forall a,
    sums (dom N') (map f vs) (fun b => g (pull b)) a = sums (dom N) vs g (pull a).
  Proof using HI.
    induction vs as [|v vs IH]; intros Hi g Hg a; auto.
    assert (Hv : In v (vars N)) by (apply Hi; left; auto). assert (Hi' : incl vs (vars N)) by (intros u Hu; apply Hi; right; auto).
    cbn [map sums]. rewrite (qsum_perm _ _ (Permutation_map _ (sj_dom _ _ _ HI v Hv))). apply qsum_map_ext. intros x Hx.
    rewrite (IH Hi' g Hg). 
    assert (D : dep (vars N) (sums (dom N) vs g)) by (eapply sums_dep'; [exact Hg|intros u Hu; left; auto]).
    apply D. intros u Hu. cbv beta. unfold upd. destruct (Z.eqb_spec (f u) (f v)) as [E|E].
    - rewrite (sj_inj _ _ _ HI u v Hu Hv E), Z.eqb_refl. auto.
    - destruct (Z.eqb_spec u v) as [->|]; congruence.
  Qed.

  Lemma sums_pull_all g g' : dep (vars N) g -> proper g' ->
    (forall a, okon (dom N') (vars N') a -> g' a = g (pull a)) ->
    sums (dom N') (vars N') g' no_asg = sums (dom N) (vars N) g no_asg.
  Proof using HI.
    intros Hg Hg' E. rewrite <- (sums_perm (dom N') _ _ g' no_asg Hg' (sj_vars _ _ _ HI)).
    transitivity (sums (dom N') (map f (vars N)) (fun b => g (pull b)) no_asg).
    - apply sums_ext_gen. intros b _ Hb. apply E. intros v Hv. apply Hb. apply (Permutation_in _ (Permutation_sym (sj_vars _ _ _ HI))). auto.
    - apply (sums_pull (vars N) (incl_refl _) g Hg no_asg).
  Qed.

  (** the likelihoods of the two networks correspond *)
  Definition relates (L L' : likelihood) : Prop := forall i v, In i (vars N) -> In v (dom N i) -> L' (f i) v = L i v.

  Lemma qprod_perm' {A} (g : A -> Qc) l l' : Permutation l l' -> qprod (map g l) = qprod (map g l').
  Proof. intros P. apply qprod_perm, Permutation_map, P. Qed.

  Lemma dom_in i v : In i (vars N) -> In v (dom N' (f i)) <-> In v (dom N i).
  Proof using HI. intros Hi. split; apply Permutation_in; [|symmetry]; apply (sj_dom _ _ _ HI); auto. Qed.
  Lemma pull_ok a : okon (dom N') (vars N') a -> okon (dom N) (vars N) (pull a).
  Proof using HI. intros Ha i Hi. apply dom_in; auto. apply Ha. apply (Permutation_in _ (sj_vars _ _ _ HI)). apply in_map; auto. Qed.

  Lemma weight_split M L a : weight M L a = (weight M no_evidence a * qprod (map (fun v => L v (a v)) (vars M)))%Qc.
  Proof.
    unfold weight, no_evidence. assert (E : qprod (map (fun _ : Z => 1%Qc) (vars M)) = 1%Qc).
    { induction (vars M) as [|v l IH]; [reflexivity|]. cbn [map]. rewrite qprod_cons, IH. ring. }
    rewrite E. ring.
  Qed.
  Lemma weight_pull L L' a : relates L L' -> okon (dom N') (vars N') a -> weight N' L' a = weight N L (pull a).
  Proof using HI.
    intros R Ha. rewrite (weight_split N'), (weight_split N), (sj_joint _ _ _ HI a Ha). f_equal.
    rewrite <- (qprod_perm' _ _ _ (sj_vars _ _ _ HI)), map_map. apply qprod_map_ext. intros i Hi. apply R; auto. apply (pull_ok a Ha); auto.
  Qed.
  Lemma total_pull L L' : relates L L' -> total N' L' = total N L.
  Proof using HI Hp.
    intros R. apply sums_pull_all. { apply weight_dep, Hp. } { apply weight_proper. } intros a Ha. apply weight_pull; auto.
  Qed.
  Lemma mass_pull L L' i y : relates L L' -> In i (vars N) -> mass_of N' L' (f i) y = mass_of N L i y.
  Proof using HI Hp.
    intros R Hi. unfold mass_of. apply sums_pull_all.
    - intros a b E. rewrite (E i Hi). destruct (string_dec (b i) y); auto. apply (weight_dep N L Hp); auto.
    - intros a b E. rewrite (E (f i)). destruct (string_dec (b (f i)) y); auto. apply weight_proper; auto.
    - intros a Ha. cbv beta. destruct (string_dec (a (f i)) y); auto. apply weight_pull; auto.
  Qed.
  Lemma posterior_pull L L' i y : relates L L' -> In i (vars N) -> exact_posterior N' L' (f i) y = exact_posterior N L i y.
  Proof using HI Hp. intros R Hi. unfold exact_posterior. rewrite (total_pull L L' R), (mass_pull L L' i y R Hi). auto. Qed.

  (** ** evidence *)
  Lemma f_eqb i k : In i (vars N) -> In k (vars N) -> Z.eqb (f i) (f k) = Z.eqb i k.
  Proof using HI.
    intros Hi Hk. destruct (Z.eqb_spec i k) as [->|Hn]; [apply Z.eqb_refl|]. apply Z.eqb_neq. intros E. apply Hn. apply (sj_inj _ _ _ HI); auto.
  Qed.
  Lemma relates_assimilate L L' e e' : relates L L' -> same_evidence f e e' -> In (ev_node e) (vars N) -> relates (assimilate L e) (assimilate L' e').
  Proof using HI.
    intros R [E1 [E2 _]] Hn i v Hi Hv. unfold assimilate. rewrite E1, (f_eqb i (ev_node e) Hi Hn). destruct (Z.eqb i (ev_node e)); auto.
  Qed.
  Lemma relates_fold es es' : Forall2 (same_evidence f) es es' -> forall L L', relates L L' -> (forall e, In e es -> In (ev_node e) (vars N)) ->
    relates (fold_left assimilate es L) (fold_left assimilate es' L').
  Proof using HI.
    induction 1 as [|e e' es es' H1 H2 IH]; intros L L' R Hn; auto. simpl. apply IH.
    - apply relates_assimilate; auto. apply Hn; left; auto.
    - intros; apply Hn; right; auto.
  Qed.
  Lemma relates_withdraw L L' ns : relates L L' -> incl ns (vars N) -> relates (withdraw L ns) (withdraw L' (map f ns)).
  Proof using HI.
    intros R Hn i v Hi Hv. unfold withdraw. replace (mem (f i) (map f ns)) with (mem i ns); [destruct (mem i ns); auto|].
    destruct (mem_spec i ns) as [H|H]; symmetry.
    - apply mem_In, in_map; auto.
    - apply mem_false. intros Hc. apply in_map_iff in Hc. destruct Hc as [k [E Hk]]. apply H. rewrite <- (sj_inj _ _ _ HI k i); auto.
  Qed.
  Lemma filter_ones L L' i : relates L L' -> In i (vars N) ->
    Permutation (filter (fun v => qeqb 1%Qc (L' (f i) v)) (dom N' (f i))) (filter (fun v => qeqb 1%Qc (L i v)) (dom N i)).
  Proof using HI.
    intros R Hi. rewrite (filter_ext_in (fun v => qeqb 1%Qc (L' (f i) v)) (fun v => qeqb 1%Qc (L i v))).
    - pose proof (sj_dom _ _ _ HI i Hi) as P. clear - P. induction P; simpl; auto.
      + destruct (qeqb 1%Qc (L i x)); auto.
      + destruct (qeqb 1%Qc (L i x)), (qeqb 1%Qc (L i y)); auto using perm_swap.
      + eapply perm_trans; eauto.
    - intros v Hv. apply dom_in in Hv; auto. rewrite R; auto.
  Qed.
  Lemma perm_single {A B} (l l' : list A) (g : A -> B) (d : B) : Permutation l l' ->
    match l with [y] => g y | _ => d end = match l' with [y] => g y | _ => d end.
  Proof.
    intros P. pose proof (Permutation_length P) as E. destruct l as [|x [|y l]], l' as [|x' [|y' l']]; simpl in E; try lia; auto.
    apply Permutation_length_1 in P. subst; auto.
  Qed.
  Lemma toggles_pull L L' e e' : relates L L' -> same_evidence f e e' -> In (ev_node e) (vars N) -> toggles N' L' e' = toggles N L e.
  Proof using HI.
    intros R [E1 [E2 E3]] Hn. unfold toggles. rewrite E1, E3. 
    rewrite (perm_single _ _ (fun y => match first_one e with Some k => String.eqb y k | None => false end) false (filter_ones L L' (ev_node e) R Hn)). auto.
  Qed.
  Lemma relates_effect L L' c c' : relates L L' -> same_call f c c' -> valid_call N c -> relates (effect N L c) (effect N' L' c').
  Proof using HI.
    intros R HC HV. destruct c as [es|ns| |e], c' as [es'|ns'| |e']; simpl in HC; try contradiction; simpl.
    - apply relates_fold; auto. intros e He. simpl in HV. rewrite Forall_forall in HV. apply (HV e He).
    - rewrite HC. apply relates_withdraw; auto. simpl in HV. rewrite Forall_forall in HV. intros i Hi. apply in_map_iff in Hi. destruct Hi as [n [<- Hi]]. apply (HV n Hi).
    - intros i v _ _; auto.
    - simpl in HV. destruct HV as [[HV _] _]. rewrite (toggles_pull L L' e e') by auto. destruct (toggles N L e).
      + destruct HC as [E _]. rewrite E. apply (relates_withdraw L L' [ev_node e]); auto. intros i [<-|[]]; auto.
      + apply relates_assimilate; auto.
  Qed.

  Lemma forallb_perm {A} (g : A -> bool) l l' : Permutation l l' -> forallb g l = forallb g l'.
  Proof.
    induction 1; simpl; auto.
    - rewrite IHPermutation; auto.
    - destruct (g x), (g y); auto.
    - congruence.
  Qed.
  Lemma forallb_ext_in {A} (g g' : A -> bool) l : (forall x, In x l -> g x = g' x) -> forallb g l = forallb g' l.
  Proof. induction l; simpl; intros H; auto. rewrite H, IHl; auto. Qed.

  Lemma forallb_map' {A B} (g : B -> bool) (k : A -> B) l : forallb g (map k l) = forallb (fun x => g (k x)) l.
  Proof. induction l; simpl; auto. rewrite IHl; auto. Qed.

  Lemma quiet_pull L L' e e' : relates L L' -> ev_node e' = f (ev_node e) -> (forall v, like_of e' v = like_of e v) -> In (ev_node e) (vars N) ->
    quiet N' L' e' = quiet N L e.
  Proof using HI.
    intros R E1 E2 Hn. unfold quiet, sole. rewrite E1. f_equal.
    - rewrite (forallb_perm _ _ _ (sj_dom _ _ _ HI _ Hn)). apply forallb_ext_in. intros v Hv. rewrite R, E2; auto.
    - assert (G : forall L L', relates L L' ->
         match filter (fun v => qeqb 1%Qc (L' (f (ev_node e)) v)) (dom N' (f (ev_node e))) with [y] => Some y | _ => None end =
         match filter (fun v => qeqb 1%Qc (L (ev_node e) v)) (dom N (ev_node e)) with [y] => Some y | _ => None end).
      { intros M M' RM. apply (perm_single _ _ (fun y => Some y) None), filter_ones; auto. }
      rewrite (G L L' R).
      rewrite (G (fun _ => like_of e) (fun _ => like_of e')); auto. intros i v _ _; apply E2.
  Qed.

  Lemma about_pull L L' c c' : relates L L' -> same_call f c c' -> valid_call N c ->
    forallb (quiet N' L') (about N' L' c') = forallb (quiet N L) (about N L c).
  Proof using HI.
    intros R HC HV. destruct c as [es|ns| |e], c' as [es'|ns'| |e']; simpl in HC; try contradiction; simpl.
    - simpl in HV. induction HC as [|e e' es es' H1 H2 IH]; auto. inversion HV as [|? ? V1 V2]; subst. simpl. rewrite IH by auto. f_equal.
      destruct H1 as [E1 [E2 _]]. apply quiet_pull; auto. apply V1.
    - simpl in HV. revert ns' HC. induction ns as [|n ns IH]; intros ns' HC; destruct ns' as [|n' ns']; simpl in HC; try discriminate; auto.
      injection HC as E1 E2. inversion HV as [|? ? V1 V2]; subst. simpl. rewrite (IH V2 ns' E2). f_equal. rewrite E1.
      apply quiet_pull; auto. apply V1.
    - rewrite !forallb_map'. rewrite <- (forallb_perm _ _ _ (sj_vars _ _ _ HI)), forallb_map'. apply forallb_ext_in. intros i Hi. apply quiet_pull; auto.
    - simpl in HV. destruct HV as [[HV _] _]. rewrite (toggles_pull L L' e e') by auto. destruct HC as [E1 [E2 E3]]. destruct (toggles N L e); simpl; f_equal.
      + rewrite E1. apply quiet_pull; auto.
      + apply quiet_pull; auto.
  Qed.

  Lemma relates_shown h h' : Forall2 (same_call f) h h' -> Forall (valid_call N) h -> relates (shown N h) (shown N' h').
  Proof using HI.
    intros HC HV. unfold shown.
    assert (G : forall s s', relates (fst s) (fst s') -> relates (snd s) (snd s') ->
       relates (snd (fold_left (step N) h s)) (snd (fold_left (step N') h' s'))).
    { revert HV. induction HC as [|c c' h h' H1 H2 IH]; intros HV s s' R1 R2; auto. inversion HV; subst. simpl. apply IH; auto; unfold step; simpl.
      - apply relates_effect; auto.
      - rewrite (about_pull (fst s) (fst s') c c') by auto. destruct (forallb _ _); auto. apply relates_effect; auto. }
    apply G; simpl; intros i v _ _; auto.
  Qed.
End Iso.

Lemma dget_in_keys {V} (t : list (string * V)) k l : dget t k = Some l -> In k (map fst t).
Proof. intros E. destruct (in_dec string_dec k (dkeys t)) as [H|H]; [exact H|]. apply dget_None in H. congruence. Qed.

Lemma Permutation_map_ext_in {A B} (g g' : A -> B) l : (forall x, In x l -> g x = g' x) -> Permutation (map g l) (map g' l).
Proof. intros H. rewrite (map_ext_in g g' l H). reflexivity. Qed.

Lemma c67 ops ops' f o o' h h' : well_shaped ops -> well_shaped ops' -> connected ops -> connected ops' -> ord_ok o -> ord_ok o' ->
  valid_history (net_of ops) h -> valid_history (net_of ops') h' ->
  same_joint f (net_of ops) (net_of ops') -> (forall i, In i (net_vars ops) -> net_name ops' (f i) = net_name ops i) ->
  Forall2 (same_call f) (calls h) (calls h') ->
  exists j t j' t', session o ops h = Ok j /\ get_posteriors j = Ok t /\ session o' ops' h' = Ok j' /\ get_posteriors j' = Ok t' /\ same_table t t'.
Proof.
  intros HW HW' Hc Hc' Ho Ho' Hh Hh' HI Hnm HC.
  destruct (session_exact ops o h HW Hc Ho Hh) as [j [t [A1 [A2 [A3 A4]]]]].
  destruct (session_exact ops' o' h' HW' Hc' Ho' Hh') as [j' [t' [B1 [B2 [B3 B4]]]]].
  exists j, t, j', t'. split; [exact A1|]. split; [exact A2|]. split; [exact B1|]. split; [exact B2|].
  assert (Hp : forall i, In i (vars (net_of ops)) -> incl (par (net_of ops) i) (vars (net_of ops))).
  { intros i Hi p Hpi. apply (ns_ends _ (net_shape ops HW) p i Hpi). }
  assert (R : relates f (net_of ops) (shown (net_of ops) (calls h)) (shown (net_of ops') (calls h'))).
  { apply relates_shown; auto. apply Hh. }
  split.
  - rewrite A3, B3, <- (sj_vars _ _ _ HI), map_map. apply Permutation_map_ext_in. intros i Hi. symmetry. apply Hnm, Hi.
  - intros k l E. assert (Hk : In k (map (net_name ops) (vars (net_of ops)))) by (apply (Permutation_in _ A3), (dget_in_keys _ _ _ E)).
    apply in_map_iff in Hk. destruct Hk as [i [<- Hi]]. rewrite (A4 i Hi) in E. injection E as <-.
    assert (Hi' : In (f i) (vars (net_of ops'))) by (apply (Permutation_in _ (sj_vars _ _ _ HI)), in_map, Hi).
    rewrite <- (Hnm i Hi). exists (map (fun y => (y, exact_posterior (net_of ops') (shown (net_of ops') (calls h')) (f i) y)) (dom (net_of ops') (f i))). split; [apply B4; auto|].
    rewrite (Permutation_map _ (sj_dom _ _ _ HI i Hi)). apply Permutation_map_ext_in. intros y _. f_equal. symmetry. apply posterior_pull; auto.
Qed.
