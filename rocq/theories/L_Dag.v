(** Finite acyclic relations. *)
From Coq Require Import ListDec.
From Verif Require Import Py Spec L_Base L_PD.

Lemma path_acyclic_inv {K} (R : K -> K -> Prop) x y : acyclic R -> path R x y -> path R y x -> x = y.
Proof. intros A H1 H2. inversion H1 as [|a b c Hab Hbc]; subst; auto. exfalso. eapply A; [exact Hab|]. eapply path_trans; eauto. Qed.

Section Sink.
  Context (R : Z -> Z -> Prop) (Rdec : forall x y, {R x y} + {~ R x y}) (HA : acyclic R).

  Fixpoint walk (vs : list Z) (x : Z) (n : nat) : list Z :=
    match n with
    | O => []
    | S m => x :: match find (fun y => if Rdec x y then true else false) vs with Some y => walk vs y m | None => [] end
    end.
  Lemma walk_path vs x n y : In y (walk vs x n) -> path R x y.
  Proof.
    revert x; induction n as [|n IH]; intros x; simpl; [tauto|]. intros [<-|H]; [constructor|].
    destruct (find _ vs) as [z|] eqn:E; [|destruct H]. apply find_some in E. destruct E as [_ E]. destruct (Rdec x z); [|discriminate].
    econstructor; eauto.
  Qed.
  Lemma walk_NoDup vs x n : NoDup (walk vs x n).
  Proof using HA.
    revert x; induction n as [|n IH]; intros x; simpl; [constructor|]. destruct (find _ vs) as [z|] eqn:E; [|constructor; [intros []|constructor]].
    constructor; auto. intros H. apply walk_path in H. apply find_some in E. destruct E as [_ E]. destruct (Rdec x z); [|discriminate]. eapply HA; eauto.
  Qed.
  Lemma walk_incl vs x n : In x vs -> incl (walk vs x n) vs.
  Proof.
    revert x; induction n as [|n IH]; intros x Hx y; simpl; [tauto|]. intros [<-|H]; auto.
    destruct (find _ vs) as [z|] eqn:E; [|destruct H]. apply find_some in E. eapply IH; [apply E|exact H].
  Qed.
  Lemma walk_length vs x n : (forall v, In v vs -> exists w, In w vs /\ R v w) -> In x vs -> List.length (walk vs x n) = n.
  Proof.
    intros H. revert x; induction n as [|n IH]; intros x Hx; simpl; auto. f_equal.
    destruct (find _ vs) as [z|] eqn:E.
    - apply IH. apply find_some in E. tauto.
    - exfalso. destruct (H x Hx) as [w [Hw Hr]]. pose proof (find_none _ _ E w Hw) as F. simpl in F. destruct (Rdec x w); [discriminate|tauto].
  Qed.
  Lemma sink vs : vs <> [] -> exists v, In v vs /\ forall w, In w vs -> ~ R v w.
  Proof using HA Rdec.
    intros Hne. destruct (find (fun v => forallb (fun w => if Rdec v w then false else true) vs) vs) as [v|] eqn:E.
    - apply find_some in E. destruct E as [E1 E2]. exists v. split; auto. intros w Hw Hr. rewrite forallb_forall in E2. specialize (E2 w Hw). destruct (Rdec v w); [discriminate|tauto].
    - exfalso. assert (H : forall v, In v vs -> exists w, In w vs /\ R v w).
      { intros v Hv. pose proof (find_none _ _ E v Hv) as F. simpl in F.
        destruct (find (fun w => if Rdec v w then true else false) vs) as [w|] eqn:G.
        - apply find_some in G. exists w. destruct G as [G1 G2]. split; auto. destruct (Rdec v w); [auto|discriminate].
        - exfalso. assert (T : forallb (fun w => if Rdec v w then false else true) vs = true); [|congruence].
          apply forallb_forall. intros w Hw. pose proof (find_none _ _ G w Hw) as F'. simpl in F'. destruct (Rdec v w); [discriminate|auto]. }
      destruct vs as [|x vs']; [congruence|]. set (vs := x :: vs') in *. assert (Hx : In x vs) by (left; auto).
      pose proof (NoDup_incl_length (walk_NoDup vs x (S (List.length vs))) (walk_incl vs x _ Hx)) as L. rewrite (walk_length vs x _ H Hx) in L. lia.
  Qed.
End Sink.
