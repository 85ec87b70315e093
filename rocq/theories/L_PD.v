(** Correctness of the depth-first search shared by the three PathDetector classes. *)
From Verif Require Import Py M_Graph Spec L_Base.

Lemma path_trans {K} (R : K -> K -> Prop) x y z : path R x y -> path R y z -> path R x z.
Proof. induction 1; auto. intros. econstructor; eauto. Qed.
Lemma path_one {K} (R : K -> K -> Prop) x y : R x y -> path R x y.
Proof. intros. econstructor; eauto. constructor. Qed.
Lemma path_mono {K} (R S : K -> K -> Prop) x y : (forall a b, R a b -> S a b) -> path R x y -> path S x y.
Proof. induction 2. constructor. econstructor; eauto. Qed.
Lemma path_last {K} (R : K -> K -> Prop) x y : path R x y -> x = y \/ exists z, path R x z /\ R z y.
Proof.
  induction 1; auto. right. destruct IHpath as [->|[w [H1 H2]]].
  - exists x; split; auto. constructor.
  - exists w; split; auto. econstructor; eauto.
Qed.
Lemma path_sym {K} (R : K -> K -> Prop) x y : (forall a b, R a b -> R b a) -> path R x y -> path R y x.
Proof. induction 2. constructor. eapply path_trans; eauto. apply path_one; auto. Qed.
Lemma path_inv {K} (R : K -> K -> Prop) (P : K -> Prop) x y :
  (forall a b, P a -> R a b -> P b) -> P x -> path R x y -> P y.
Proof. intros H Hx Hp. induction Hp; auto. apply IHHp; eauto. Qed.

Section PD.
  Context {K : Type} `{EqB K} (adj : K -> list K) (stop : K).
  Definition R (x y : K) : Prop := In y (adj x).

  Fixpoint pd_loop (find : list K -> K -> option (bool * list K)) (seen cs : list K) : option (bool * list K) :=
    match cs with
    | [] => Some (false, seen)
    | c :: cs' => if mem c seen then pd_loop find seen cs'
                  else match find seen c with
                       | None => None
                       | Some (true, s) => Some (true, s)
                       | Some (false, s) => pd_loop find s cs'
                       end
    end.

  Lemma pd_find_S f seen i :
    pd_find adj stop (S f) seen i =
    if mem stop (adj i) then Some (true, seen) else pd_loop (pd_find adj stop f) (sadd seen i) (adj i).
  Proof.
    simpl. destruct (mem stop (adj i)); auto. generalize (sadd seen i) as s. generalize (adj i) as l.
    induction l as [|c l IH]; intros s; simpl; auto. destruct (mem c s); auto.
    destruct (pd_find adj stop f s c) as [[[|] s']|]; auto.
  Qed.

  Lemma pd_find_true f : forall seen i s, pd_find adj stop f seen i = Some (true, s) -> path R i stop.
  Proof.
    induction f as [|f IH]; intros seen i s E; [discriminate|]. rewrite pd_find_S in E.
    destruct (mem_spec stop (adj i)) as [Hi|Hi]. { apply path_one; auto. }
    assert (G : forall cs seen s, incl cs (adj i) -> pd_loop (pd_find adj stop f) seen cs = Some (true, s) -> path R i stop).
    { clear E s seen. induction cs as [|c cs IHc]; intros seen s Hcs E; simpl in E; [discriminate|].
      assert (Hc : In c (adj i)) by (apply Hcs; left; auto).
      assert (Hcs' : incl cs (adj i)) by (intros x Hx; apply Hcs; right; auto).
      destruct (mem c seen); eauto.
      destruct (pd_find adj stop f seen c) as [[[|] s']|] eqn:E'; try discriminate.
      - econstructor; [exact Hc|]. eapply IH; eauto.
      - eauto. }
    eapply G; eauto. apply incl_refl.
  Qed.

  Definition closed_at (s : list K) (x : K) : Prop := forall y, In y (adj x) -> In y s /\ y <> stop.

  Lemma pd_find_false f : forall seen i s, pd_find adj stop f seen i = Some (false, s) ->
    incl (i :: seen) s /\ (forall x, In x s -> In x seen \/ closed_at s x).
  Proof.
    induction f as [|f IH]; intros seen i s E; [discriminate|]. rewrite pd_find_S in E.
    destruct (mem_spec stop (adj i)) as [Hi|Hi]. { discriminate. }
    assert (G : forall cs seen s, pd_loop (pd_find adj stop f) seen cs = Some (false, s) ->
               incl seen s /\ incl cs s /\ (forall x, In x s -> In x seen \/ closed_at s x)).
    { clear E s seen. induction cs as [|c cs IHc]; intros seen s E; simpl in E.
      - inv E. repeat split; auto using incl_refl. intros x Hx; inv Hx.
      - destruct (mem_spec c seen) as [Hc|Hc].
        + apply IHc in E. destruct E as [E1 [E2 E3]]. repeat split; auto. intros x [<-|Hx]; auto.
        + destruct (pd_find adj stop f seen c) as [[[|] s']|] eqn:E'; try discriminate.
          apply IH in E'. destruct E' as [F1 F2]. apply IHc in E. destruct E as [E1 [E2 E3]].
          repeat split.
          * intros x Hx. apply E1, F1. right; auto.
          * intros x [<-|Hx]; auto. apply E1, F1; left; auto.
          * intros x Hx. destruct (E3 x Hx) as [Hx'|Hx']; auto.
            destruct (F2 x Hx') as [|Hcl]; auto. right. intros y Hy. destruct (Hcl y Hy). split; auto. }
    apply G in E. destruct E as [E1 [E2 E3]]. split.
    - intros x [<-|Hx]; apply E1; apply sadd_In; auto.
    - intros x Hx. destruct (E3 x Hx) as [Hx'|]; auto. apply sadd_In in Hx'. destruct Hx' as [Hq|Hq]; [|subst]; auto.
      right. intros y Hy. split; auto. intros ->; auto.
  Qed.

  Lemma pd_exists_spec f start b : pd_exists adj stop f start = Ok b -> (b = true <-> path R start stop).
  Proof.
    unfold pd_exists. destruct (eqb_spec start stop) as [->|Hn].
    - intros E; inv E. split; auto. constructor.
    - destruct (pd_find adj stop f [] start) as [[b' s]|] eqn:E; [|discriminate]. intros E'; inv E'.
      destruct b; split; auto; intros Hp; try congruence.
      + eapply pd_find_true; eauto.
      + exfalso. apply pd_find_false in E. destruct E as [E1 E2].
        assert (G : In stop s /\ stop <> stop); [|destruct G; congruence].
        eapply (path_inv R (fun x => In x s /\ x <> stop)) with (x := start); eauto.
        * simpl. intros a b [Ha _] Hab. destruct (E2 a Ha) as [F|Hcl]; [destruct F|]. apply Hcl; auto.
        * simpl. split; auto. apply E1; left; auto.
  Qed.

  (** enough fuel *)
  Definition unseen (U seen : list K) : nat := List.length (filter (fun x => negb (mem x seen)) U).

  Lemma unseen_mono U s s' : incl s s' -> unseen U s' <= unseen U s.
  Proof.
    intros Hi. unfold unseen. induction U as [|x U IH]; simpl; auto.
    destruct (mem_spec x s), (mem_spec x s'); simpl; try lia. exfalso; auto.
  Qed.
  Lemma unseen_lt U s s' i : incl s s' -> In i U -> ~ In i s -> In i s' -> unseen U s' < unseen U s.
  Proof.
    intros Hi. unfold unseen. induction U as [|x U IH]; simpl; [tauto|]. intros [<-|HU] Hn Hs.
    - destruct (mem_spec x s), (mem_spec x s'); simpl; try tauto. pose proof (unseen_mono U s s' Hi). unfold unseen in *. lia.
    - specialize (IH HU Hn Hs). destruct (mem_spec x s), (mem_spec x s'); simpl; try lia. exfalso; auto.
  Qed.

  Context (U : list K) (Uclosed : forall x y, In x U -> In y (adj x) -> In y U).

  Lemma pd_find_fuel f : forall seen i, In i U -> ~ In i seen -> unseen U seen <= f ->
    exists b s, pd_find adj stop f seen i = Some (b, s) /\ incl seen s.
  Proof.
    induction f as [|f IH]; intros seen i Hi Hn Hf.
    - exfalso. assert (unseen U (sadd seen i) < unseen U seen); [|lia].
      apply unseen_lt with i; auto using sadd_incl. apply sadd_In; auto.
    - rewrite pd_find_S. destruct (mem stop (adj i)). { exists true, seen; split; auto using incl_refl. }
      assert (G : forall cs s0, incl cs (adj i) -> incl (sadd seen i) s0 ->
                 exists b s, pd_loop (pd_find adj stop f) s0 cs = Some (b, s) /\ incl seen s).
      { induction cs as [|c cs IHc]; intros s0 Hcs Hs0; simpl.
        - exists false, s0; split; auto. intros x Hx; apply Hs0, sadd_In; auto.
        - assert (Hcs' : incl cs (adj i)) by (intros x Hx; apply Hcs; right; auto).
          destruct (mem_spec c s0) as [Hc|Hc]; auto.
          assert (Hlt : unseen U s0 <= f).
          { assert (unseen U s0 < unseen U seen); [|lia]. apply unseen_lt with i; auto.
            - intros x Hx; apply Hs0, sadd_In; auto.
            - apply Hs0, sadd_In; auto. }
          destruct (IH s0 c) as [b [s [E Hs]]]; auto.
          { eapply Uclosed; eauto. apply Hcs; left; auto. }
          rewrite E. destruct b.
          + exists true, s; split; auto. intros x Hx; apply Hs, Hs0, sadd_In; auto.
          + apply IHc; auto. intros x Hx; apply Hs, Hs0; auto. }
      apply G; auto using incl_refl.
  Qed.

  Lemma pd_exists_fuel f start : In start U -> List.length U <= f -> exists b, pd_exists adj stop f start = Ok b.
  Proof.
    intros Hi Hf. unfold pd_exists. destruct (eqb start stop); eauto.
    destruct (pd_find_fuel f [] start) as [b [s [E _]]]; auto.
    - eapply Nat.le_trans; [|eassumption]. unfold unseen.
      clear. generalize U as l. induction l as [|x l IH]; simpl in *; lia.
    - rewrite E. eauto.
  Qed.
End PD.
