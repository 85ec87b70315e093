(** Shallow copies. *)
From Verif Require Import Py M_Copy Spec SpecCopy L_Base L_Copy.
Open Scope nat_scope.

Lemma leads_same g p p' ob : nth_error g p = Some ob -> nth_error g p' = Some ob -> forall k ks w, leads g (Rf p) (k :: ks) w -> leads g (Rf p') (k :: ks) w.
Proof. intros E E' k ks w H. inversion H as [|? ob' ? v ? ? E1 H1 H2]; subst. rewrite E in E1. injection E1 as <-. econstructor; eauto. Qed.

Lemma c87 h p ob : nth_error h p = Some ob -> exists h' p', copy_obj h p = Ok (h', p') /\ p' = List.length h /\ List.length h' = S (List.length h) /\
  (forall q, q < List.length h -> nth_error h' q = nth_error h q) /\ nth_error h' p' = Some ob /\
  (forall g, nth_error g p = Some ob -> nth_error g p' = Some ob -> forall k ks w, leads g (Rf p') (k :: ks) w <-> leads g (Rf p) (k :: ks) w) /\
  (forall g, nth_error g p' = Some ob -> forall k v, leads g (Rf p') [k] v <-> In (k, v) (o_slots ob)).
Proof.
  intros E. unfold copy_obj. rewrite E. exists (h ++ [mkObj (o_cls ob) (o_slots ob)]), (List.length h). split; auto. split; auto. split; [rewrite app_length; simpl; lia|].
  split; [intros q Hq; apply nth_error_app1; auto|]. split; [rewrite nth_error_app2, Nat.sub_diag by lia; destruct ob; auto|]. split.
  - intros g E1 E2 k ks w. split; apply leads_same with ob; auto.
  - intros g E' k v. split.
    + intros H. inversion H as [|? ob' ? v' ? ? E1 H1 H2]; subst. rewrite E' in E1. injection E1 as <-. inversion H2; subst. auto.
    + intros H. econstructor; eauto. constructor.
Qed.
(** the old objects, and so everything that could be reached, are where they were *)
Lemma c87_deep h p ob : closed h -> nth_error h p = Some ob -> forall h' p', copy_obj h p = Ok (h', p') ->
  forall q, reached h' [Rf p'] q <-> q = p' \/ exists k r, In (k, Rf r) (o_slots ob) /\ path (refers h) r q.
Proof.
  intros Hc E h' p' Ec. destruct (c87 h p ob E) as (h2 & p2 & E2 & Ep & El & Hold & Hnew & _). rewrite Ec in E2. injection E2 as <- <-.
  assert (Hp : p < List.length h) by (apply nth_error_Some; congruence).
  assert (Up : forall a b, a < List.length h -> refers h' a b <-> refers h a b).
  { intros a b Ha. unfold refers. rewrite Hold by auto. tauto. }
  assert (Dn : forall a b, path (refers h') a b -> a < List.length h -> path (refers h) a b).
  { intros a b H. induction H as [|x y z H1 H2 IH]; intros Hx; [constructor|]. apply Up in H1; auto. apply path_step with y; auto. apply IH. apply (Hc x y H1). }
  assert (Dn' : forall a b, path (refers h) a b -> a < List.length h -> path (refers h') a b).
  { intros a b H. induction H as [|x y z H1 H2 IH]; intros Hx; [constructor|]. apply path_step with y. apply Up; auto. apply IH. apply (Hc x y H1). }
  intros q. unfold reached. split.
  - intros (r & [Hr|[]] & H). injection Hr as <-. inversion H as [|x y z H1 H2]; subst; auto. right. destruct H1 as (ob' & k & E1 & H1). rewrite Hnew in E1. injection E1 as <-.
    exists k, y. split; auto. apply Dn; auto. apply (Hc p y). exists ob, k. auto.
  - intros [->|(k & r & H1 & H2)]; exists p'; (split; [left; auto|]); [constructor|]. apply path_step with r. { exists ob, k. auto. } apply Dn'; auto. apply (Hc p r). exists ob, k. auto.
Qed.
