(** Potentials as tables of functions on assignments. *)
From Verif Require Import Py M_Node Spec L_Base L_Sums.
Open Scope Qc_scope.

Definition asg_of (ids : list Z) (vs : list string) : asg :=
  fun u => match dget (combine ids vs) u with Some x => x | None => EmptyString end.

(** the table of [f] over the variables [ids] *)
Definition tab (dom : Z -> list string) (ids : list Z) (f : asg -> Qc) : potential :=
  map (fun vs => mkPE (combine ids vs) (f (asg_of ids vs))) (cartesian (map dom ids)).

Lemma fold_dset_id_aux {K V} `{EqB K} (l : list (K * V)) d : NoDup (map fst (d ++ l)) ->
  fold_left (fun d kv => dset d (fst kv) (snd kv)) l d = d ++ l.
Proof.
  revert d; induction l as [|[k v] l IH]; intros d HN; simpl. rewrite app_nil_r; auto.
  rewrite dkeys_dset_notin.
  - rewrite IH; rewrite <- app_assoc; auto.
  - rewrite map_app in HN. simpl in HN. apply NoDup_remove_2 in HN. unfold dkeys. intros Hi. apply HN, in_or_app; auto.
Qed.
Lemma fold_dset_id {K V} `{EqB K} (l : list (K * V)) : NoDup (map fst l) ->
  fold_left (fun d kv => dset d (fst kv) (snd kv)) l [] = l.
Proof. intros. rewrite fold_dset_id_aux; auto. Qed.

Lemma map_fst_combine {A B} (l : list A) (l' : list B) : List.length l' = List.length l -> map fst (combine l l') = l.
Proof. revert l'; induction l; destruct l'; simpl; intros E; try discriminate; auto. f_equal; auto. Qed.
Lemma map_snd_combine {A B} (l : list A) (l' : list B) : List.length l' = List.length l -> map snd (combine l l') = l'.
Proof. revert l'; induction l; destruct l'; simpl; intros E; try discriminate; auto. f_equal; auto. Qed.

Lemma cartesian_In ls vs : In vs (cartesian ls) <-> Forall2 (fun v l => In v l) vs ls.
Proof.
  revert vs; induction ls as [|l ls IH]; intros vs; simpl.
  - split. intros [<-|[]]; constructor. intros H; inv H; auto.
  - rewrite in_flat_map. split.
    + intros [x [Hx Hi]]. apply in_map_iff in Hi. destruct Hi as [ws [<- Hw]]. constructor; auto. apply IH; auto.
    + intros H; inv H. exists x; split; auto. apply in_map_iff. exists l0; split; auto. apply IH; auto.
Qed.
Lemma cartesian_length ls vs : In vs (cartesian ls) -> List.length vs = List.length ls.
Proof. rewrite cartesian_In. intros H; induction H; simpl; auto. Qed.

Lemma NoDup_app_intro {A} (l1 l2 : list A) : NoDup l1 -> NoDup l2 -> (forall x, In x l1 -> ~ In x l2) -> NoDup (l1 ++ l2).
Proof.
  induction l1 as [|x l1 IH]; simpl; intros H1 H2 Hd; auto. inv H1. constructor.
  - rewrite in_app_iff. intros [?|?]; auto. apply (Hd x); auto.
  - apply IH; auto.
Qed.
Lemma NoDup_app_iff {A} (l1 l2 : list A) : NoDup (l1 ++ l2) <-> NoDup l1 /\ NoDup l2 /\ (forall x, In x l1 -> ~ In x l2).
Proof.
  split.
  - induction l1 as [|x l1 IH]; simpl; intros H. { split; [constructor|]. split; auto. }
    inv H. destruct IH as [H1 [H4 H5]]; auto. repeat split; auto.
    + constructor; auto. intros Hi; apply H2, in_or_app; auto.
    + intros y [<-|Hy]; auto. intros Hi; apply H2, in_or_app; auto.
  - intros [H1 [H2 H3]]; apply NoDup_app_intro; auto.
Qed.
Lemma NoDup_map_inj {A B} (f : A -> B) l : (forall x y, In x l -> In y l -> f x = f y -> x = y) -> NoDup l -> NoDup (map f l).
Proof.
  induction l as [|x l IH]; simpl; intros Hi HN. constructor. inv HN. constructor; auto.
  rewrite in_map_iff. intros [y [E Hy]]. apply Hi in E; auto. subst; auto.
Qed.

Lemma cartesian_NoDup ls : (forall l, In l ls -> NoDup l) -> NoDup (cartesian ls).
Proof.
  induction ls as [|l ls IH]; simpl; intros H. repeat constructor; auto.
  assert (Hc : NoDup (cartesian ls)) by auto. assert (Hl : NoDup l) by auto. clear H IH.
  induction l as [|x l IHl]; simpl. constructor. inv Hl. apply NoDup_app_intro; auto.
  - apply NoDup_map_inj; auto. intros a b _ _ E; inv E; auto.
  - intros vs Hv Hv'. apply in_map_iff in Hv. destruct Hv as [ws [<- _]].
    apply in_flat_map in Hv'. destruct Hv' as [y [Hy Hi]]. apply in_map_iff in Hi. destruct Hi as [us [E _]].
    inv E. auto.
Qed.

Section Tab.
  Context (dom : Z -> list string).
  Notation tab := (tab dom).
  Notation okon := (okon dom).
  Notation sums := (sums dom).

  Lemma cart_In ids vs : In vs (cartesian (map dom ids)) -> List.length vs = List.length ids.
  Proof. intros H. apply cartesian_length in H. rewrite map_length in H; auto. Qed.

  Lemma asg_of_cons v ids x vs u : asg_of (v :: ids) (x :: vs) u = if Z.eqb u v then x else asg_of ids vs u.
  Proof. unfold asg_of. simpl. destruct (Z.eqb u v); auto. Qed.

  Lemma asg_of_map ids vs : NoDup ids -> List.length vs = List.length ids -> map (asg_of ids vs) ids = vs.
  Proof.
    revert vs; induction ids as [|v ids IH]; intros [|x vs] HN E; simpl in *; try discriminate; auto.
    inv HN. rewrite asg_of_cons, Z.eqb_refl. f_equal.
    transitivity (map (asg_of ids vs) ids); [|apply IH; auto]. apply map_ext_in. intros u Hu. rewrite asg_of_cons.
    destruct (Z.eqb_spec u v); subst; tauto.
  Qed.
  Lemma asg_of_in ids (a : asg) u : In u ids -> asg_of ids (map a ids) u = a u.
  Proof.
    induction ids as [|v ids IH]; simpl; [tauto|]. intros H. rewrite asg_of_cons.
    destruct (Z.eqb_spec u v); subst; auto. destruct H; [congruence|auto].
  Qed.
  Lemma asg_of_ok ids vs : In vs (cartesian (map dom ids)) -> okon ids (asg_of ids vs).
  Proof.
    revert vs; induction ids as [|v ids IH]; intros vs Hi u Hu; simpl in *; [tauto|].
    apply in_flat_map in Hi. destruct Hi as [x [Hx Hi]]. apply in_map_iff in Hi. destruct Hi as [ws [<- Hw]].
    rewrite asg_of_cons. destruct (Z.eqb_spec u v); subst; auto. apply IH; auto. destruct Hu; [congruence|auto].
  Qed.
  Lemma map_okon ids (a : asg) : okon ids a -> In (map a ids) (cartesian (map dom ids)).
  Proof.
    intros Ho. apply cartesian_In. induction ids as [|v ids IH]; simpl; constructor.
    - apply Ho; simpl; auto.
    - apply IH. intros u Hu; apply Ho; simpl; auto.
  Qed.

  Lemma tab_ext ids f g : (forall a, okon ids a -> f a = g a) -> tab ids f = tab ids g.
  Proof. intros H. unfold L_Table.tab. apply map_ext_in. intros vs Hv. rewrite H; auto. apply asg_of_ok; auto. Qed.

  Lemma tab_inj ids f g : NoDup ids -> dep ids f -> dep ids g -> tab ids f = tab ids g -> forall a, okon ids a -> f a = g a.
  Proof.
    intros HN Hf Hg E a Ha. unfold L_Table.tab in E.
    assert (G : forall vs, In vs (cartesian (map dom ids)) -> f (asg_of ids vs) = g (asg_of ids vs)).
    { intros vs Hv. assert (E2 : map (fun vs => f (asg_of ids vs)) (cartesian (map dom ids)) = map (fun vs => g (asg_of ids vs)) (cartesian (map dom ids))).
      { apply (f_equal (map pe_val)) in E. rewrite !map_map in E. exact E. }
      clear E. revert E2 Hv. generalize (cartesian (map dom ids)) as l. induction l as [|w l IH]; simpl; intros E2 Hv; [tauto|].
      inv E2. destruct Hv; subst; auto. }
    specialize (G (map a ids) (map_okon ids a Ha)).
    rewrite (Hf a (asg_of ids (map a ids))), (Hg a (asg_of ids (map a ids))); auto;
      intros u Hu; rewrite asg_of_in; auto.
  Qed.

  Lemma potential_from_nodes_tab ids : NoDup ids -> potential_from_nodes (map (fun i => (i, dom i)) ids) = tab ids (fun _ => 1).
  Proof.
    intros HN. unfold potential_from_nodes, L_Table.tab. rewrite !map_map. simpl.
    replace (map (fun x => x) ids) with ids by (symmetry; apply map_id).
    apply map_ext_in. intros vs Hv. f_equal. apply fold_dset_id. rewrite map_fst_combine; auto. apply cart_In; auto.
  Qed.

  (** ** matching *)
  Lemma pe_matches_combine A B vs ws q q' : NoDup B -> incl B A ->
    List.length vs = List.length A -> List.length ws = List.length B ->
    pe_matches (mkPE (combine A vs) q) (mkPE (combine B ws) q') = agrees B (asg_of A vs) (asg_of B ws).
  Proof.
    intros HB Hi Ev Ew. unfold pe_matches, agrees. simpl.
    assert (Hget : forall u, In u A -> exists x, dget (combine A vs) u = Some x).
    { intros u Hu. apply dkeys_dget. unfold dkeys. rewrite map_fst_combine; auto. }
    assert (G : forall B' ws', List.length ws' = List.length B' -> incl B' A -> (forall u x, In (u, x) (combine B' ws') -> asg_of B ws u = x) ->
      forallb (fun kv => match dget (combine A vs) (fst kv) with Some v => String.eqb (snd kv) v | None => false end) (combine B' ws')
      = forallb (fun v => String.eqb (asg_of A vs v) (asg_of B ws v)) B').
    { induction B' as [|b B' IH]; intros [|w ws'] E Hincl Hsame; simpl in *; try discriminate; auto.
      rewrite IH; auto.
      - f_equal. rewrite (Hsame b w) by auto. unfold asg_of. destruct (Hget b) as [x ->]; [apply Hincl; left; auto|].
        apply String.eqb_sym.
      - intros u Hu; apply Hincl; right; auto. }
    apply G; auto. intros u x Hux. unfold asg_of. erewrite In_dget; eauto. unfold dkeys. rewrite map_fst_combine; auto.
  Qed.

  Lemma agrees_sym vs a b : agrees vs a b = agrees vs b a.
  Proof. unfold agrees. induction vs; simpl; auto. rewrite IHvs, String.eqb_sym; auto. Qed.

  Lemma agrees_ext vs a a' c : (forall v, In v vs -> a v = a' v) -> agrees vs a c = agrees vs a' c.
  Proof. unfold agrees. induction vs as [|v vs IH]; simpl; intros E; auto. rewrite IH, E; auto. Qed.

  (** ** multiply *)
  Lemma multiply_gen bigger smaller :
    multiply bigger smaller =
    map (fun x => mkPE (pe_map x) (pe_val x * qprod (map pe_val (filter (fun e => pe_matches x e) smaller)))) bigger.
  Proof.
    revert bigger; induction smaller as [|e s IH]; intros b; simpl.
    - unfold multiply; simpl. rewrite <- (map_id b) at 1. apply map_ext. intros [m q]; simpl. rewrite qprod_nil. f_equal. ring.
    - change (multiply b (e :: s)) with (multiply (map (fun x => if pe_matches x e then mkPE (pe_map x) (pe_val x * pe_val e) else x) b) s).
      rewrite IH, map_map. apply map_ext. intros x.
      destruct (pe_matches x e) eqn:E; simpl; auto. f_equal. rewrite qprod_cons.
      assert (Hm : filter (fun e0 => pe_matches {| pe_map := pe_map x; pe_val := pe_val x * pe_val e |} e0) s
                 = filter (fun e0 => pe_matches x e0) s) by (apply filter_ext; intros; reflexivity).
      rewrite Hm. ring.
  Qed.

  Lemma filter_unique {A} (p : A -> bool) l x : NoDup l -> In x l -> (forall y, In y l -> (p y = true <-> y = x)) -> filter p l = [x].
  Proof.
    intros HN Hi Hp. induction l as [|y l IH]; simpl in *; [tauto|]. inv HN. destruct Hi as [->|Hi].
    - destruct (p x) eqn:E. 2: { assert (p x = true) by (apply Hp; auto). congruence. }
      f_equal. clear IH. assert (G : forall z, In z l -> p z = false).
      { intros z Hz. destruct (p z) eqn:Ez; auto. apply Hp in Ez; auto. subst; tauto. }
      clear - G. induction l as [|z l IH]; simpl; auto. rewrite G by (left; auto). apply IH. intros; apply G; right; auto.
    - destruct (p y) eqn:E. { apply Hp in E; auto. subst; tauto. }
      apply IH; auto.
  Qed.

  Lemma filter_map {A B} (h : A -> B) p l : filter p (map h l) = map h (filter (fun x => p (h x)) l).
  Proof. induction l; simpl; auto. destruct (p (h a)); simpl; rewrite IHl; auto. Qed.

  Lemma multiply_tab A B f g : NoDup A -> NoDup B -> incl B A -> (forall v, In v B -> NoDup (dom v)) -> dep B g ->
    multiply (tab A f) (tab B g) = tab A (fun a => f a * g a).
  Proof.
    intros HA HB Hi Hd Hg. rewrite multiply_gen. unfold L_Table.tab at 2 3. rewrite map_map. apply map_ext_in.
    intros vs Hv. simpl. f_equal. f_equal.
    unfold L_Table.tab. rewrite filter_map, map_map. simpl.
    erewrite filter_ext_in.
    2: { intros ws Hw. rewrite pe_matches_combine; auto using cart_In. reflexivity. }
    rewrite (filter_unique _ _ (map (asg_of A vs) B)).
    - simpl. rewrite qprod_cons, qprod_nil. rewrite Qcmult_1_r. apply Hg. intros u Hu. apply asg_of_in; auto.
    - apply cartesian_NoDup. intros l Hl. apply in_map_iff in Hl. destruct Hl as [u [<- Hu]]; auto.
    - apply map_okon. eapply okon_mono; [eauto|]. apply asg_of_ok; auto.
    - intros ws Hw. rewrite agrees_spec. split.
      + intros E. rewrite <- (asg_of_map B ws) by (auto using cart_In). apply map_ext_in. intros u Hu. symmetry; auto.
      + intros ->. intros u Hu. rewrite asg_of_in; auto.
  Qed.

  (** multiplying by a single evidence entry *)
  Lemma multiply_entry A f i v q : NoDup A -> In i A ->
    multiply (tab A f) [mkPE [(i, v)] q] = tab A (fun a => f a * (if string_dec (a i) v then q else 1)).
  Proof.
    intros HA Hi. rewrite multiply_gen. unfold L_Table.tab. rewrite map_map. apply map_ext_in. intros vs Hv.
    simpl. f_equal. f_equal.
    assert (Em : pe_matches {| pe_map := combine A vs; pe_val := f (asg_of A vs) |} {| pe_map := [(i, v)]; pe_val := q |}
               = String.eqb (asg_of A vs i) v).
    { change [(i, v)] with (combine [i] [v]). rewrite pe_matches_combine.
      - unfold agrees. simpl. rewrite andb_true_r. f_equal. unfold asg_of. simpl. rewrite Z.eqb_refl; auto.
      - constructor; auto. constructor.
      - intros u [<-|[]]; auto.
      - apply cart_In; auto.
      - auto. }
    rewrite Em. destruct (String.eqb_spec (asg_of A vs i) v), (string_dec (asg_of A vs i) v); try congruence; simpl.
    rewrite qprod_cons, qprod_nil; ring. apply qprod_nil.
  Qed.

  (** ** sums over cartesian products *)
  Definition over (a : asg) (ids : list Z) (vs : list string) : asg :=
    fun u => match dget (combine ids vs) u with Some x => x | None => a u end.

  Lemma sums_cartesian ids F : NoDup ids -> proper F -> forall a,
    qsum (map (fun vs => F (over a ids vs)) (cartesian (map dom ids))) = sums ids F a.
  Proof.
    intros HN HF. induction ids as [|v ids IH]; intros a; simpl.
    - rewrite qsum_cons, qsum_nil. rewrite Qcplus_0_r. apply HF. intros u; reflexivity.
    - inv HN. transitivity (qsum (map (fun x => qsum (map (fun vs => F (over (upd a v x) ids vs)) (cartesian (map dom ids)))) (dom v))).
      + generalize (dom v) as l. induction l as [|x l IHl]; simpl; auto. rewrite map_app, qsum_app, qsum_cons, IHl. f_equal.
        rewrite map_map. apply qsum_map_ext. intros vs Hv. apply HF. intros u. unfold over, upd. simpl.
        destruct (Z.eqb_spec u v); subst; auto.
        destruct (dget (combine ids vs) v) eqn:E; auto. exfalso. apply dget_In in E. apply in_combine_l in E. auto.
      + apply qsum_map_ext. intros x _. apply IH; auto.
  Qed.

  Lemma over_no_asg ids vs u : over no_asg ids vs u = asg_of ids vs u.
  Proof. reflexivity. Qed.

  Lemma qsum_filter {A} (p : A -> bool) (F : A -> Qc) l : qsum (map F (filter p l)) = qsum (map (fun x => if p x then F x else 0) l).
  Proof. induction l; simpl; auto. rewrite qsum_cons. destruct (p a); simpl; rewrite ?qsum_cons, IHl; ring. Qed.

  Definition minus (A B : list Z) : list Z := filter (fun v => negb (mem v B)) A.
  Lemma minus_In A B v : In v (minus A B) <-> In v A /\ ~ In v B.
  Proof using. clear. unfold minus. rewrite filter_In, negb_true_iff, mem_false. reflexivity. Qed.
  Lemma minus_NoDup A B : NoDup A -> NoDup (minus A B).
  Proof using. apply NoDup_filter'. Qed.
  Lemma minus_perm A B : NoDup A -> NoDup B -> incl B A -> Permutation A (B ++ minus A B).
  Proof using.
    clear dom. intros HA HB Hi. apply NoDup_Permutation; auto.
    - apply NoDup_app_intro; auto using minus_NoDup. intros x Hx Hm. apply minus_In in Hm. tauto.
    - intros x. rewrite in_app_iff, minus_In. destruct (in_dec Z.eq_dec x B); intuition.
  Qed.

  Lemma marginalize_tab A B f : NoDup A -> NoDup B -> incl B A -> (forall v, In v B -> NoDup (dom v)) -> dep A f ->
    marginalize (tab A f) (map (fun i => (i, dom i)) B) = tab B (sums (minus A B) f).
  Proof.
    intros HA HB Hi Hd Hf. unfold marginalize. rewrite potential_from_nodes_tab by auto. unfold L_Table.tab at 2 3.
    rewrite map_map. apply map_ext_in. intros ws Hw. simpl. f_equal.
    unfold get_matching_entries, L_Table.tab. rewrite filter_map, map_map. simpl.
    erewrite filter_ext_in.
    2: { intros vs Hv. rewrite pe_matches_combine; auto using cart_In. reflexivity. }
    rewrite qsum_filter.
    set (b := asg_of B ws).
    assert (Hpf : proper f) by (eapply dep_proper; eauto).
    assert (Hp : proper (fun a => if agrees B a b then f a else 0)).
    { intros x y E. assert (Eag : agrees B x b = agrees B y b).
      { apply agrees_ext; auto. }
      rewrite Eag. destruct (agrees B y b); auto. }
    transitivity (sums A (fun a => if agrees B a b then f a else 0) no_asg).
    { rewrite <- sums_cartesian; auto. }
    rewrite (sums_perm dom A (B ++ minus A B)); auto using minus_perm. rewrite sums_app.
    transitivity (sums B (fun a => if agrees B a b then sums (minus A B) f a else 0) no_asg).
    { apply sums_ext. intros c. destruct (agrees B c b) eqn:E.
      - apply sums_ext_gen. intros d Hd' _. assert (Ed : agrees B d b = true).
        { apply agrees_spec. rewrite agrees_spec in E. intros v Hv. rewrite <- E by auto. apply Hd'.
          rewrite minus_In; tauto. }
        rewrite Ed; auto.
      - apply sums_zero. intros d Hd' _. assert (Ed : agrees B d b = false).
        { rewrite <- E. apply agrees_ext. intros v Hv. apply Hd'. rewrite minus_In; tauto. }
        rewrite Ed; auto. }
    rewrite sums_agree; auto.
    - assert (Hds : dep B (sums (minus A B) f)).
      { apply sums_dep' with A; auto. intros x Hx. rewrite minus_In. destruct (in_dec Z.eq_dec x B); tauto. }
      apply Hds. intros v Hv. apply updl_in; auto.
    - apply asg_of_ok; auto.
    - apply sums_proper; auto.
  Qed.

  (** ** divide *)
  Definition qquot (x y : Qc) : Qc := if is_zero x || is_zero y then 0 else x / y.
  Lemma divide_tab B f g : NoDup B -> divide (tab B f) (tab B g) = Ok (tab B (fun a => qquot (f a) (g a))).
  Proof.
    intros HB. unfold L_Table.tab. assert (Hl : forall vs, In vs (cartesian (map dom B)) -> List.length vs = List.length B) by (intros; apply cart_In; auto).
    revert Hl. generalize (cartesian (map dom B)) as l. induction l as [|vs l IH]; simpl; intros Hl; auto.
    rewrite IH by auto. simpl. f_equal. f_equal. f_equal. rewrite fold_dset_id; auto.
    rewrite map_fst_combine; auto.
  Qed.

  (** ** normalize *)
  Lemma tab_total A f : NoDup A -> proper f -> qsum (map pe_val (tab A f)) = sums A f no_asg.
  Proof. intros HA Hf. unfold L_Table.tab. rewrite map_map. simpl. rewrite <- sums_cartesian; auto. Qed.

  Lemma normalize_tab A f : NoDup A -> proper f ->
    normalize (tab A f) = tab A (fun a => if Qc_eq_dec (sums A f no_asg) 0 then f a else f a / sums A f no_asg).
  Proof.
    intros HA Hf. unfold normalize. rewrite tab_total by auto.
    destruct (Qc_eq_dec (sums A f no_asg) 0) as [E|E].
    - apply qeqb_true in E. rewrite E. apply qeqb_true in E. auto.
    - pose proof E as E'. apply qeqb_false in E'. rewrite E'. unfold L_Table.tab. rewrite map_map. apply map_ext. intros vs; simpl. auto.
  Qed.

  (** ** CPT layout *)
  Lemma pos_In x l : In x l -> nth (pos x l) l EmptyString = x /\ (pos x l < List.length l)%nat.
  Proof.
    induction l as [|y l IH]; simpl; [tauto|]. destruct (String.eqb_spec x y); subst.
    - split; auto. lia.
    - intros [E|Hi]; [congruence|]. destruct (IH Hi). split; auto. lia.
  Qed.

  Definition vindex (ls : list (list string)) (vs : list string) : nat :=
    (fix go ls vs := match ls, vs with
                     | l :: ls', v :: vs' => (pos v l * fold_right (fun l n => List.length l * n)%nat 1%nat ls' + go ls' vs')%nat
                     | _, _ => 0%nat
                     end) ls vs.
  Definition vsize (ls : list (list string)) : nat := fold_right (fun l n => List.length l * n)%nat 1%nat ls.

  Lemma vindex_cons l ls v vs : vindex (l :: ls) (v :: vs) = (pos v l * vsize ls + vindex ls vs)%nat.
  Proof. reflexivity. Qed.

  Lemma seq_app_mult n m k : seq k (S n * m)%nat = seq k m ++ seq (k + m)%nat (n * m)%nat.
  Proof. simpl. apply seq_app. Qed.

  Lemma map_add_seq k n s : map (fun i => (k + i)%nat) (seq s n) = seq (k + s)%nat n.
  Proof. revert s; induction n; intros s; simpl; auto. rewrite IHn. f_equal. f_equal. lia. Qed.

  Lemma vindex_seq ls : (forall l, In l ls -> NoDup l) -> map (vindex ls) (cartesian ls) = seq 0 (vsize ls).
  Proof.
    induction ls as [|l ls IH]; simpl; intros Hd; auto. specialize (IH (fun l' H => Hd l' (or_intror H))).
    assert (Hl : NoDup l) by auto. clear Hd.
    change (fold_right (fun l n => List.length l * n)%nat 1%nat ls) with (vsize ls) in *.
    assert (G : forall pre suf, l = pre ++ suf ->
      map (vindex (l :: ls)) (flat_map (fun x => map (cons x) (cartesian ls)) suf) = seq (List.length pre * vsize ls)%nat (List.length suf * vsize ls)%nat).
    { intros pre suf; revert pre. induction suf as [|x suf IHs]; intros pre E; auto.
      simpl flat_map. rewrite map_app. rewrite (IHs (pre ++ [x])) by (rewrite <- app_assoc; auto).
      simpl List.length. rewrite seq_app_mult. f_equal.
      - rewrite map_map. transitivity (map (fun i => (List.length pre * vsize ls + i)%nat) (map (vindex ls) (cartesian ls))).
        + rewrite map_map. apply map_ext. intros vs. rewrite vindex_cons. f_equal. f_equal.
          subst l. clear - Hl. induction pre as [|y pre IHp]; simpl. rewrite String.eqb_refl; auto.
          simpl in Hl. inv Hl. destruct (String.eqb_spec x y); subst.
          * exfalso; apply H1, in_or_app; right; left; auto.
          * f_equal; auto.
        + rewrite IH, map_add_seq. f_equal. lia.
      - f_equal. rewrite app_length; simpl; lia. }
    rewrite (G [] l) by auto. reflexivity.
  Qed.

  Lemma cartesian_len ls : List.length (cartesian ls) = vsize ls.
  Proof.
    induction ls as [|l ls IH]; simpl; auto. unfold vsize in *. simpl. rewrite <- IH. generalize (cartesian ls) as c. intros c.
    induction l as [|x l IHl]; simpl; auto. rewrite app_length, map_length, IHl. auto.
  Qed.

  Lemma fill_probs_gen {A} (m : A -> list (Z * string)) (v : A -> Qc) (idx : A -> nat) l : forall k probs,
    map idx l = seq k (List.length l) -> (List.length l <= List.length probs)%nat ->
    fill_probs (map (fun x => mkPE (m x) (v x)) l) probs = Ok (map (fun x => mkPE (m x) (nth (idx x - k) probs 0)) l).
  Proof.
    induction l as [|x l IH]; simpl; intros k probs E Hl; auto. inv E.
    destruct probs as [|q qs]; simpl in Hl; [lia|]. rewrite (IH (S (idx x)) qs); auto; [|lia]. simpl. f_equal.
    f_equal.
    - rewrite Nat.sub_diag; auto.
    - apply map_ext_in. intros y Hy. f_equal.
      assert (Hge : In (idx y) (seq (S (idx x)) (List.length l))) by (rewrite <- H1; apply in_map; auto).
      apply in_seq in Hge. replace (idx y - idx x)%nat with (S (idx y - S (idx x))) by lia. auto.
  Qed.

  Lemma fill_probs_short p : forall probs, (List.length probs < List.length p)%nat -> fill_probs p probs = Err IndexError.
  Proof.
    induction p as [|e p IH]; simpl; intros probs Hl; [lia|]. destruct probs as [|q qs]; auto. simpl in Hl.
    rewrite IH by lia. auto.
  Qed.

  Lemma vindex_row ids vs : NoDup ids -> List.length vs = List.length ids ->
    vindex (map dom ids) vs = row_index dom ids (asg_of ids vs).
  Proof.
    intros HN. revert vs. induction ids as [|v ids IH]; intros [|x vs] E; simpl in E; try discriminate; auto.
    inv HN. simpl map. rewrite vindex_cons. simpl row_index. rewrite asg_of_cons, Z.eqb_refl. f_equal.
    - f_equal. clear. induction ids; simpl; auto.
    - rewrite IH by auto. assert (G : forall l, ~ In v l -> row_index dom l (asg_of ids vs) = row_index dom l (asg_of (v :: ids) (x :: vs))).
      { induction l as [|u l IHl]; simpl; intros Hn; auto. rewrite IHl by tauto. rewrite asg_of_cons.
        destruct (Z.eqb_spec u v); subst; tauto. }
      apply G; auto.
  Qed.

  Lemma size_vsize ids : size dom ids = vsize (map dom ids).
  Proof. induction ids; simpl; auto. Qed.

  Lemma row_index_ext ids a b : (forall u, In u ids -> a u = b u) -> row_index dom ids a = row_index dom ids b.
  Proof. induction ids as [|v ids IH]; simpl; intros E; auto. rewrite IH, E; auto. Qed.

  Lemma fill_probs_tab ids f probs : NoDup ids -> (forall v, In v ids -> NoDup (dom v)) ->
    (size dom ids <= List.length probs)%nat ->
    fill_probs (tab ids f) probs = Ok (tab ids (fun a => nth (row_index dom ids a) probs 0)).
  Proof.
    intros HN Hd Hl. unfold L_Table.tab.
    rewrite (fill_probs_gen (combine ids) (fun vs => f (asg_of ids vs)) (vindex (map dom ids)) _ 0 probs).
    - f_equal. apply map_ext_in. intros vs Hv. f_equal. rewrite Nat.sub_0_r. f_equal. apply vindex_row; auto using cart_In.
    - rewrite vindex_seq, cartesian_len; auto. intros l Hl'. apply in_map_iff in Hl'. destruct Hl' as [u [<- Hu]]; auto.
    - rewrite cartesian_len, <- size_vsize; auto.
  Qed.
End Tab.
Close Scope Qc_scope.
