(** Open walks: shortening to simple paths, and walks through colliders with descendants at the ends. *)
From Verif Require Import Py Spec SpecNx SpecDo L_Base L_PD L_Do.
Open Scope nat_scope.

(** ** walks and their triples *)
Lemma chain_mid R l w r : chain R (l ++ w :: r) <-> chain R (l ++ [w]) /\ chain R (w :: r).
Proof.
  induction l as [|a l IH]; [simpl; tauto|]. destruct l as [|b l]; [simpl; tauto|]. change (R a b /\ chain R ((b :: l) ++ w :: r) <-> (R a b /\ chain R ((b :: l) ++ [w])) /\ chain R (w :: r)). rewrite IH. tauto.
Qed.
Lemma chain_two R l a b r : chain R (l ++ a :: b :: r) -> R a b.
Proof. intros H. apply chain_mid in H. destruct H as [_ H]. simpl in H. tauto. Qed.
Lemma chain_snoc R l a b : chain R (l ++ [a; b]) <-> chain R (l ++ [a]) /\ R a b.
Proof. rewrite chain_mid. simpl. tauto. Qed.
Lemma triple_mid l w r x z y : triple (l ++ w :: r) x z y ->
  triple (l ++ [w]) x z y \/ triple (w :: r) x z y \/ (z = w /\ (exists l', l = l' ++ [x]) /\ exists r', r = y :: r').
Proof.
  induction l as [|a l IH]; simpl; auto. intros H. apply triple_cons in H. destruct H as [[-> (s & E)]|H].
  - destruct l as [|b [|c l]]; simpl in E.
    + injection E as <- ->. right; right. split; auto. split; [exists []; auto|eauto].
    + injection E as <- <- <-. left. exists [], []. auto.
    + injection E as <- <- <-. left. exists [], (l ++ [w]). auto.
  - destruct (IH H) as [H1|[H1|(-> & (l' & ->) & H1)]]; auto.
    + left. apply triple_cons. auto.
    + right; right. split; auto. split; auto. exists (a :: l'). auto.
Qed.
Lemma triple_l l w r x z y : triple (l ++ [w]) x z y -> triple (l ++ w :: r) x z y.
Proof. intros (s & t & E). exists s, (t ++ r). change (l ++ w :: r) with (l ++ [w] ++ r). rewrite app_assoc, E, <- app_assoc. reflexivity. Qed.
Lemma triple_r l r x z y : triple r x z y -> triple (l ++ r) x z y.
Proof. intros (s & t & ->). exists (l ++ s), t. rewrite <- app_assoc. auto. Qed.
Lemma triple_rev p x z y : triple p x z y -> triple (rev p) y z x.
Proof. intros (l & r & ->). exists (rev r), (rev l). rewrite rev_app_distr. simpl. rewrite <- !app_assoc. reflexivity. Qed.
Lemma chain_rev (R : Z -> Z -> Prop) p : (forall a b, R a b -> R b a) -> chain R p -> chain R (rev p).
Proof.
  intros HR. induction p as [|a p IH]; auto. intros H. simpl. destruct p as [|b p]; [simpl; auto|]. destruct H as [H1 H2]. specialize (IH H2). simpl in IH |- *.
  rewrite <- app_assoc. simpl. apply chain_snoc. split; auto.
Qed.
Lemma hd_rev_app {A} (l r : list A) : r <> [] -> hd_error (rev (l ++ r)) = hd_error (rev r).
Proof. intros H. rewrite rev_app_distr. destruct (rev r) eqn:E; auto. apply (f_equal (@rev A)) in E. rewrite rev_involutive in E. tauto. Qed.
Lemma hd_rev_cons {A} (a b : A) r : hd_error (rev (a :: b :: r)) = hd_error (rev (b :: r)).
Proof. apply (hd_rev_app [a]). discriminate. Qed.
Lemma hd_app {A} (l r s : list A) w : hd_error (l ++ w :: r) = hd_error (l ++ w :: s).
Proof. destruct l; auto. Qed.
Lemma last_any {A} (l : list A) a b : l <> [] -> last l a = last l b.
Proof. induction l as [|c l IH]; intros H; [tauto|]. destruct l; auto. simpl in *. apply IH. discriminate. Qed.
Lemma dup_split (p : list Z) : ~ NoDup p -> exists l w m r, p = l ++ w :: m ++ w :: r.
Proof.
  induction p as [|a p IH]; intros H. destruct H; constructor.
  destruct (in_dec Z.eq_dec a p) as [Hi|Hi].
  - apply in_split in Hi. destruct Hi as (m & r & ->). exists [], a, m, r. auto.
  - destruct IH as (l & w & m & r & ->). { intros Hn. apply H. constructor; auto. } exists (a :: l), w, m, r. auto.
Qed.

Section Walks.
  Variable es : list (Z * Z).
  Hypothesis A : acyclic (arc es).
  Variable ev : list Z.
  Notation ar := (arc es).
  Notation walk := (chain (sym ar)).

  Lemma arc_dec a b : {ar a b} + {~ ar a b}.
  Proof. apply in_dec. intros [x y] [u v]. destruct (Z.eq_dec x u), (Z.eq_dec y v); [left; congruence|right; congruence..]. Qed.
  Lemma coll_dec x z y : {collides es x z y} + {~ collides es x z y}.
  Proof. unfold collides. destruct (arc_dec x z), (arc_dec y z); [left; auto|right; tauto..]. Qed.
  Lemma no_loop a : ~ sym ar a a.
  Proof. intros [H|H]; apply (A a a H); constructor. Qed.
  Lemma one_way a b : ar a b -> ~ ar b a.
  Proof. intros H1 H2. apply (A a b H1). apply path_one. auto. Qed.

  Lemma open_mid l w r : open_path es ev (l ++ [w]) -> open_path es ev (w :: r) ->
    (forall l' a b r', l = l' ++ [a] -> r = b :: r' -> (collides es a w b -> exists v, path ar w v /\ In v ev) /\ (~ collides es a w b -> ~ In w ev)) ->
    open_path es ev (l ++ w :: r).
  Proof. intros H1 H2 H3 x z y Ht. apply triple_mid in Ht. destruct Ht as [Ht|[Ht|(-> & (l' & El) & r' & Er)]]; eauto. Qed.
  Lemma open_l l w r : open_path es ev (l ++ w :: r) -> open_path es ev (l ++ [w]).
  Proof. intros H x z y Ht. apply H, triple_l, Ht. Qed.
  Lemma open_r l r : open_path es ev (l ++ r) -> open_path es ev r.
  Proof. intros H x z y Ht. apply H, triple_r, Ht. Qed.
  Lemma open_rev p : open_path es ev p -> open_path es ev (rev p).
  Proof.
    intros H x z y Ht. apply triple_rev in Ht. rewrite rev_involutive in Ht. destruct (H _ _ _ Ht) as [H1 H2]. unfold collides in *. split; intros Hc; [apply H1|apply H2]; tauto.
  Qed.

  (** a walk that starts downwards and comes back downwards to its end meets a collider below its start *)
  Lemma turn m : forall u v c m', m = c :: m' -> walk (u :: m ++ [v]) -> ar u c -> ar v (last m c) ->
    exists a z b, triple (u :: m ++ [v]) a z b /\ collides es a z b /\ path ar u z.
  Proof.
    induction m as [|c0 m IH]; intros u v c m' E Hw Hu Hv; [discriminate|]. injection E as <- <-. destruct m as [|d m].
    - simpl in Hv. exists u, c0, v. split; [exists [], []; auto|]. split; [split; auto|apply path_one; auto].
    - destruct (arc_dec d c0) as [Hd|Hd].
      + exists u, c0, d. split; [exists [], (m ++ [v]); auto|]. split; [split; auto|apply path_one; auto].
      + assert (Hcd : ar c0 d). { simpl in Hw. destruct Hw as (_ & [H|H] & _); auto. tauto. }
        destruct (IH c0 v d m eq_refl) as (a & z & b & Ht & Hc & Hp); auto.
        * simpl in Hw |- *. tauto.
        * change (last (c0 :: d :: m) c0) with (last (d :: m) c0) in Hv. rewrite (last_any (d :: m) d c0) by discriminate. exact Hv.
        * exists a, z, b. split; [apply triple_cons; auto|]. split; auto. apply path_step with c0; auto.
  Qed.

  (** cutting out a loop keeps a walk open *)
  Lemma splice l w m r : walk (l ++ w :: m ++ w :: r) -> open_path es ev (l ++ w :: m ++ w :: r) ->
    walk (l ++ w :: r) /\ open_path es ev (l ++ w :: r).
  Proof.
    intros Hw Ho. assert (Hm : m <> []). { intros ->. simpl in Hw. apply chain_two in Hw. exact (no_loop w Hw). }
    pose proof Hw as Hw0. apply chain_mid in Hw. destruct Hw as [W1 W2]. pose proof W2 as W2'. change (w :: m ++ w :: r) with ((w :: m) ++ w :: r) in W2. apply chain_mid in W2. destruct W2 as [W2 W3].
    split; [apply chain_mid; auto|].
    assert (Or : open_path es ev (w :: r)). { apply open_r with (l ++ w :: m). rewrite <- app_assoc. exact Ho. }
    apply open_mid; auto; [eapply open_l; eauto|].
    intros l' a b r' -> ->. destruct m as [|c m]; [tauto|]. clear Hm.
    assert (T1 : triple ((l' ++ [a]) ++ w :: (c :: m) ++ w :: b :: r') a w c). { exists l', (m ++ w :: b :: r'). rewrite <- app_assoc. reflexivity. }
    destruct (exists_last (l := c :: m)) as (m0 & c2 & Em); [discriminate|].
    assert (T2 : triple ((l' ++ [a]) ++ w :: (c :: m) ++ w :: b :: r') c2 w b).
    { rewrite Em. exists ((l' ++ [a]) ++ w :: m0), r'. rewrite <- !app_assoc. reflexivity. }
    destruct (Ho _ _ _ T1) as [C1 N1]. destruct (Ho _ _ _ T2) as [C2 N2].
    pose proof (triple_chain _ _ _ _ _ Hw0 T1) as [S1 S1']. pose proof (triple_chain _ _ _ _ _ Hw0 T2) as [S2 S2'].
    split.
    - intros [Ha Hb]. destruct (coll_dec a w c) as [K|K]; auto. destruct (coll_dec c2 w b) as [K'|K']; auto.
      assert (Hc : ar w c). { destruct S1' as [H|H]; auto. exfalso. apply K. split; auto. }
      assert (Hc2 : ar w c2). { destruct S2 as [H|H]; auto. exfalso. apply K'. split; auto. }
      destruct (turn (c :: m) w w c m eq_refl) as (x & z & y & Ht & Hc' & Hp); auto.
      { rewrite Em, last_last. auto. }
      destruct (Ho x z y) as [Hz _].
      { apply triple_r. change (w :: (c :: m) ++ w :: b :: r') with ((w :: c :: m) ++ w :: b :: r'). apply triple_l. exact Ht. }
      destruct (Hz Hc') as (v & Hv & Hi). exists v. split; auto. eapply path_trans; eauto.
    - intros K. destruct (arc_dec a w) as [Ha|Ha]; [destruct (arc_dec b w) as [Hb|Hb]|].
      + exfalso. apply K. split; auto.
      + apply N2. intros [_ H]. exact (Hb H).
      + apply N1. intros [H _]. exact (Ha H).
  Qed.
  Lemma shorten x y : forall n p, List.length p <= n -> walk p -> open_path es ev p -> hd_error p = Some x -> hd_error (rev p) = Some y ->
    exists q, simple_path es x y q /\ open_path es ev q.
  Proof.
    induction n as [|n IH]; intros p Hl Hw Ho Hx Hy. { destruct p; [discriminate|simpl in Hl; lia]. }
    destruct (ListDec.NoDup_dec Z.eq_dec p) as [HN|HN]. { exists p. split; auto. split; auto. }
    apply dup_split in HN. destruct HN as (l & w & m & r & ->). destruct (splice l w m r Hw Ho) as [W1 O1].
    apply (IH (l ++ w :: r)); auto.
    - rewrite !app_length in *. simpl in *. rewrite app_length in Hl. simpl in Hl. lia.
    - rewrite <- Hx. apply hd_app.
    - rewrite <- Hy. rewrite hd_rev_app by discriminate. change (l ++ w :: m ++ w :: r) with (l ++ (w :: m) ++ w :: r). rewrite app_assoc, hd_rev_app by discriminate. auto.
  Qed.

  (** a path along the arrows as a list *)
  Lemma path_list u t : path ar u t -> exists l, chain ar (u :: l) /\ hd_error (rev (u :: l)) = Some t /\ forall z, In z (u :: l) -> path ar u z.
  Proof.
    induction 1 as [u|u v t Huv Hp IH].
    - exists []. split; [simpl; auto|]. split; auto. intros z [<-|[]]. constructor.
    - destruct IH as (l & H1 & H2 & H3). exists (v :: l). split; [split; auto|]. split; [rewrite hd_rev_cons; auto|].
      intros z [<-|Hz]. constructor. apply path_step with v; auto.
  Qed.
  (** arrows never collide on it, so it is open unless it meets the evidence *)
  Lemma directed_open p : chain ar p -> (forall z, In z p -> ~ In z ev) -> walk p /\ open_path es ev p.
  Proof.
    intros Hc Hz. split. { clear Hz. induction p as [|a p IH]; auto. destruct p as [|b p]; auto. destruct Hc as [H1 H2]. split; [left; auto|auto]. }
    intros x z y Ht. destruct (triple_chain _ _ _ _ _ Hc Ht) as [H1 H2]. split.
    - intros [_ H]. destruct (one_way _ _ H2 H).
    - intros _. apply Hz. apply (triple_In _ _ _ _ Ht).
  Qed.

  (** ** walks whose colliders have a descendant in the evidence or at one of the ends *)
  Variables (X : list Z) (y : Z).
  Definition lower (z : Z) : Prop := exists t, path ar z t /\ (In t X \/ t = y \/ In t ev).
  Definition loose (p : list Z) : Prop := forall a z b, triple p a z b -> (collides es a z b -> lower z) /\ (~ collides es a z b -> ~ In z ev).
  Hypothesis evdec : forall z, (exists v, path ar z v /\ In v ev) \/ ~ (exists v, path ar z v /\ In v ev).

  Lemma tighten r : forall q a u x, In x X -> hd_error (q ++ [a; u]) = Some x -> walk (q ++ [a; u]) -> open_path es ev (q ++ [a; u]) ->
    walk (a :: u :: r) -> hd_error (rev (u :: r)) = Some y -> loose (a :: u :: r) ->
    exists x' p, In x' X /\ hd_error p = Some x' /\ hd_error (rev p) = Some y /\ walk p /\ open_path es ev p.
  Proof.
    induction r as [|b r IH]; intros q a u x Hx Hh Hw Ho Hw' Hy Hl.
    - exists x, (q ++ [a; u]). split; auto. split; auto. split; auto. rewrite hd_rev_app by discriminate. exact Hy.
    - assert (T : triple (a :: u :: b :: r) a u b) by (exists [], r; auto). destruct (Hl _ _ _ T) as [L1 L2].
      assert (Hub : sym ar u b) by (simpl in Hw'; tauto). assert (Hau : sym ar a u) by (simpl in Hw'; tauto).
      assert (Hy' : hd_error (rev (b :: r)) = Some y) by (rewrite <- Hy; rewrite hd_rev_cons; auto).
      assert (Hl' : loose (u :: b :: r)). { intros p z s Ht. apply Hl. apply triple_cons. auto. }
      assert (Ext : (collides es a u b -> exists v, path ar u v /\ In v ev) ->
        exists x' p, In x' X /\ hd_error p = Some x' /\ hd_error (rev p) = Some y /\ walk p /\ open_path es ev p).
      { intros K. apply (IH (q ++ [a]) u b x); auto.
        - rewrite <- app_assoc. simpl. rewrite <- Hh. apply hd_app.
        - rewrite <- app_assoc. simpl. replace (q ++ [a; u; b]) with ((q ++ [a]) ++ [u; b]) by (rewrite <- app_assoc; auto). apply chain_snoc. split; auto. rewrite <- app_assoc. auto.
        - apply open_mid.
          + rewrite <- app_assoc. auto.
          + intros x0 z0 y0 (l0 & r0 & E). destruct l0 as [|? [|? [|? ?]]]; discriminate.
          + intros l' a' b' r' E1 E2. apply app_inj_tail in E1. destruct E1 as [-> ->]. injection E2 as <- <-. split; auto.
        - simpl in Hw' |- *. tauto. }
      destruct (coll_dec a u b) as [K|K]; [|apply Ext; tauto]. destruct (evdec u) as [Hev|Hev]; [apply Ext; auto|]. clear Ext.
      destruct (L1 K) as (t & Hp & Ht). destruct (path_list u t Hp) as (l & D1 & D2 & D3).
      assert (D4 : forall z, In z (u :: l) -> ~ In z ev). { intros z Hz Hi. apply Hev. exists z. split; auto. }
      destruct (directed_open _ D1 D4) as [W O]. destruct Ht as [Ht|[->|Ht]].
      + (* from an element of X upwards to [u] *)
        apply (IH (rev l) u b t); auto.
        * clear -D2. simpl in D2. destruct (rev l) as [|c s]; simpl in *; auto.
        * apply chain_snoc. split; auto. change (walk (rev (u :: l))). apply chain_rev; auto. intros ? ? [?|?]; [right|left]; auto.
        * apply open_mid.
          -- change (open_path es ev (rev (u :: l))). apply open_rev; auto.
          -- intros x0 z0 y0 (l0 & r0 & E). destruct l0 as [|? [|? [|? ?]]]; discriminate.
          -- intros l' c b' r' E1 E2. injection E2 as <- <-. split.
             ++ intros [Hc _]. exfalso. assert (Hin : exists s, l = c :: s). { apply (f_equal (@rev Z)) in E1. rewrite rev_involutive, rev_app_distr in E1. simpl in E1. eauto. }
                destruct Hin as [s ->]. simpl in D1. apply (one_way u c); tauto.
             ++ intros _. apply D4. simpl; auto.
        * simpl in Hw' |- *. tauto.
      + (* down to [y] *)
        exists x, ((q ++ [a]) ++ u :: l). split; auto. split. { rewrite <- Hh. rewrite <- app_assoc. simpl. apply hd_app. }
        split. { rewrite hd_rev_app by discriminate. auto. }
        split. { apply chain_mid. split; auto. rewrite <- app_assoc. auto. }
        apply open_mid; auto. { rewrite <- app_assoc. auto. }
        intros l' c b' r' _ ->. split.
        * intros [_ H]. exfalso. simpl in D1. apply (one_way u b'); tauto.
        * intros _. apply D4. simpl; auto.
      + exfalso. apply Hev. exists t. split; auto.
  Qed.
  Lemma tighten_walk p x : In x X -> walk p -> loose p -> hd_error p = Some x -> hd_error (rev p) = Some y ->
    exists x' q, In x' X /\ simple_path es x' y q /\ open_path es ev q.
  Proof.
    intros Hx Hw Hl Hh Hy. assert (G : exists x' p, In x' X /\ hd_error p = Some x' /\ hd_error (rev p) = Some y /\ walk p /\ open_path es ev p).
    { destruct p as [|a [|u r]]; [discriminate| |].
      - exists x, [a]. do 4 (split; [assumption|]). intros x0 z0 y0 (l0 & r0 & E). destruct l0 as [|? [|? ?]]; discriminate.
      - apply (tighten r [] a u x); auto.
        + simpl in Hw |- *. tauto.
        + intros x0 z0 y0 (l0 & r0 & E). destruct l0 as [|? [|? [|? ?]]]; discriminate.
        + rewrite <- Hy. rewrite hd_rev_cons. auto. }
    destruct G as (x' & q & G1 & G2 & G3 & G4 & G5). destruct (shorten x' y (List.length q) q) as (s & S1 & S2); auto. exists x', s. auto.
  Qed.
End Walks.
