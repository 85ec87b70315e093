(** Identifiers of cliques and separation sets do not collide. *)
From Coq Require Import Sorted DecimalString DecimalZ Decimal.
From Verif Require Import Py M_Graph M_Node M_Pptc Spec L_Base.

Definition digit (c : ascii) : Prop := c <> "-"%char.
Fixpoint all_digits (s : string) : Prop := match s with EmptyString => True | String c t => digit c /\ all_digits t end.
Lemma uint_digits u : all_digits (NilEmpty.string_of_uint u).
Proof. induction u; simpl; auto; split; auto; discriminate. Qed.
Lemma uint_digits0 u : all_digits (NilZero.string_of_uint u) /\ NilZero.string_of_uint u <> EmptyString.
Proof.
  destruct u; simpl; try (split; [split; [discriminate|apply uint_digits]|discriminate]).
  split; [split; [discriminate|exact I]|discriminate].
Qed.

Lemma str_of_Z_shape z : exists d, all_digits d /\ d <> EmptyString /\ (str_of_Z z = d \/ str_of_Z z = String "-" d).
Proof.
  unfold str_of_Z. destruct (Z.to_int z) as [u|u]; simpl; destruct (uint_digits0 u) as [H1 H2]; eauto.
Qed.

Lemma to_int_nn z : Z.to_int z <> Pos Nil /\ Z.to_int z <> Neg Nil.
Proof.
  destruct z as [|p|p]; simpl; split; try discriminate; intros E; inversion E as [E']; revert E'; apply DecimalPos.Unsigned.to_uint_nonnil.
Qed.
Lemma str_of_Z_inj a b : str_of_Z a = str_of_Z b -> a = b.
Proof.
  unfold str_of_Z. intros E. destruct (to_int_nn a) as [A1 A2]. destruct (to_int_nn b) as [B1 B2].
  pose proof (NilZero.isi _ A1 A2) as H1. pose proof (NilZero.isi _ B1 B2) as H2. rewrite E, H2 in H1. inversion H1 as [H3].
  rewrite <- (DecimalZ.of_to a), <- (DecimalZ.of_to b). congruence.
Qed.

(** what may follow a number in an identifier *)
Definition ends_ok (r : string) : Prop := r = EmptyString \/ exists r', r = String "-" r'.
Lemma digits_prefix d1 : forall d2 r1 r2, all_digits d1 -> all_digits d2 -> ends_ok r1 -> ends_ok r2 ->
  (d1 ++ r1 = d2 ++ r2)%string -> d1 = d2 /\ r1 = r2.
Proof.
  induction d1 as [|c d1 IH]; intros [|c2 d2] r1 r2 H1 H2 E1 E2 E; simpl in *; auto.
  - exfalso. destruct E1 as [->|[r' ->]]; [discriminate|]. inversion E. subst. apply (proj1 H2); auto.
  - exfalso. destruct E2 as [->|[r' ->]]; [discriminate|]. inversion E. subst. apply (proj1 H1); auto.
  - inversion E as [[Q1 Q2]]. destruct (IH d2 r1 r2) as [Q3 Q4]; try tauto. subst. auto.
Qed.
Lemma str_prefix a b r1 r2 : ends_ok r1 -> ends_ok r2 -> (str_of_Z a ++ r1 = str_of_Z b ++ r2)%string -> a = b /\ r1 = r2.
Proof.
  intros E1 E2 E. destruct (str_of_Z_shape a) as [d1 [H1 [N1 S1]]]. destruct (str_of_Z_shape b) as [d2 [H2 [N2 S2]]].
  assert (G : str_of_Z a = str_of_Z b /\ r1 = r2).
  { destruct S1 as [S1|S1], S2 as [S2|S2]; rewrite S1, S2 in *.
    - apply digits_prefix; auto.
    - exfalso. destruct d1 as [|c d1]; [congruence|]. simpl in E. inversion E. subst. apply (proj1 H1); auto.
    - exfalso. destruct d2 as [|c d2]; [congruence|]. simpl in E. inversion E. subst. apply (proj1 H2); auto.
    - simpl in E. inversion E as [E']. destruct (digits_prefix d1 d2 r1 r2) as [Q1 Q2]; auto. rewrite Q1; auto. }
  destruct G as [G ->]. split; auto. apply str_of_Z_inj; auto.
Qed.

Lemma str_app_nil s : (s ++ "" = s)%string.
Proof. induction s; simpl; congruence. Qed.

Lemma ids_str_cons z l : ids_str (z :: l) = (str_of_Z z ++ match l with [] => "" | _ => String "-" (ids_str l) end)%string.
Proof. unfold ids_str, join. destruct l; simpl; auto. rewrite str_app_nil; auto. Qed.

Lemma ids_str_inj l : forall l', ids_str l = ids_str l' -> l = l'.
Proof.
  induction l as [|z l IH]; intros [|z' l'] E; auto.
  - exfalso. rewrite ids_str_cons in E. destruct (str_of_Z_shape z') as [d [_ [N [S|S]]]]; rewrite S in E; [|discriminate].
    destruct d; [congruence|discriminate].
  - exfalso. rewrite ids_str_cons in E. destruct (str_of_Z_shape z) as [d [_ [N [S|S]]]]; rewrite S in E; [|discriminate].
    destruct d; [congruence|discriminate].
  - rewrite !ids_str_cons in E. apply str_prefix in E.
    + destruct E as [-> E]. f_equal. destruct l, l'; try discriminate; auto. inversion E as [E']. apply IH; auto.
    + destruct l; [left|right]; eauto.
    + destruct l'; [left|right]; eauto.
Qed.

(** ** strictly increasing lists *)
Definition incr (l : list Z) : Prop := StronglySorted Z.lt l.
Lemma isort_incr l : NoDup l -> incr (isort Z.leb l).
Proof.
  intros HN. pose proof (isort_sorted Z.leb Zleb_total Zleb_trans l) as HS.
  assert (HN' : NoDup (isort Z.leb l)) by (eapply Permutation_NoDup; [symmetry; apply isort_perm|auto]).
  revert HS HN'. generalize (isort Z.leb l) as m. induction 1 as [|x m Hm IH HF]; intros HN'; constructor.
  - apply IH. inversion HN'; auto.
  - inversion HN' as [|? ? N1 N2]; subst. rewrite Forall_forall in *. intros y Hy. specialize (HF y Hy). apply Z.leb_le in HF.
    assert (x <> y) by (intros ->; auto). lia.
Qed.

Lemma incr_app A B : incr (A ++ B) -> forall a b, In a A -> In b B -> (a < b)%Z.
Proof.
  induction A as [|x A IH]; simpl; intros H a b Ha Hb; [tauto|]. inversion H as [|? ? H1 H2]; subst. rewrite Forall_forall in H2.
  destruct Ha as [<-|Ha]; [apply H2, in_or_app; auto|auto].
Qed.

(** two decompositions that both stop at a non-ascent are the same *)
Lemma decode A : forall A' X X', incr A -> incr A' ->
  (forall x Y, X = x :: Y -> exists a, In a A /\ (x <= a)%Z) -> (forall x Y, X' = x :: Y -> exists a, In a A' /\ (x <= a)%Z) ->
  A ++ X = A' ++ X' -> A = A' /\ X = X'.
Proof.
  intros A' X X' HA HA' HX HX' E.
  assert (G : forall A A' X X', incr A' -> (forall x Y, X = x :: Y -> exists a, In a A /\ (x <= a)%Z) -> A ++ X = A' ++ X' ->
     (List.length A <= List.length A')%nat -> A = A').
  { clear. intros A A' X X' HA' HX E Hl. assert (Hp : exists Z, A' = A ++ Z).
    { clear HA' HX. revert A' E Hl. induction A as [|a A IH]; intros A' E Hl. exists A'; auto. destruct A' as [|a' A']; simpl in *; [lia|].
      inversion E as [[E1 E2]]. destruct (IH A' E2) as [Z ->]; [lia|]. exists Z; auto. }
    destruct Hp as [Z ->]. destruct Z as [|z Z]; [rewrite app_nil_r; auto|]. exfalso. rewrite <- app_assoc in E. apply app_inv_head in E.
    destruct X as [|x Y]; [discriminate|]. inversion E; subst. destruct (HX _ _ eq_refl) as [a [Ha Hle]].
    pose proof (incr_app A (z :: Z) HA' a z Ha (or_introl eq_refl)). lia. }
  assert (A = A'). { destruct (Nat.le_ge_cases (List.length A) (List.length A')). eapply G; eauto. symmetry. eapply G; eauto. }
  subst. split; auto. eapply app_inv_head; eauto.
Qed.

Lemma incr_head_le x l y : incr (x :: l) -> In y (x :: l) -> (x <= y)%Z.
Proof. intros H Hy. inversion H as [|? ? H1 H2]; subst. rewrite Forall_forall in H2. destruct Hy as [<-|Hy]; [lia|]. specialize (H2 y Hy). lia. Qed.

(** ** separation sets *)
Definition inter (a b : clique) : list Z := filter (fun x => mem x (cl_nodes b)) (cl_nodes a).
Lemma inter_In a b x : In x (inter a b) <-> In x (cl_nodes a) /\ In x (cl_nodes b).
Proof. unfold inter. rewrite filter_In, mem_In. reflexivity. Qed.
Lemma intersects_true a b : inter a b <> [] ->
  intersects a b = (true, isort Z.leb (cl_nodes a), isort Z.leb (cl_nodes b), isort Z.leb (inter a b)).
Proof. intros H. unfold intersects. fold (inter a b). destruct (inter a b) as [|x l] eqn:E; [congruence|]. rewrite <- E. rewrite E. reflexivity. Qed.
Lemma intersects_false a b : inter a b = [] -> intersects a b = (false, cl_nodes a, cl_nodes b, []).
Proof. intros H. unfold intersects. fold (inter a b). rewrite H. auto. Qed.
Lemma mk_sepset_nodes a b : ss_nodes (mk_sepset a b) = inter a b.
Proof.
  unfold mk_sepset. destruct (inter a b) as [|x l] eqn:E.
  - rewrite intersects_false by auto. simpl. clear. induction (cl_nodes a); simpl; auto.
  - rewrite intersects_true by congruence. simpl. rewrite <- E. unfold inter at 2. apply filter_ext_in. intros y Hy.
    destruct (mem_spec y (isort Z.leb (inter a b))) as [H|H]; rewrite isort_In, inter_In in H; destruct (mem_spec y (cl_nodes b)); tauto.
Qed.
Lemma mk_sepset_id a b : inter a b <> [] ->
  ss_id (mk_sepset a b) = ids_str (isort Z.leb (cl_nodes a) ++ isort Z.leb (inter a b) ++ isort Z.leb (cl_nodes b)).
Proof. intros H. unfold mk_sepset. rewrite intersects_true by auto. reflexivity. Qed.
Lemma mk_sepset_left a b : ss_left (mk_sepset a b) = a.
Proof. unfold mk_sepset. destruct (intersects a b) as [[[? ?] ?] ?]. auto. Qed.
Lemma mk_sepset_right a b : ss_right (mk_sepset a b) = b.
Proof. unfold mk_sepset. destruct (intersects a b) as [[[? ?] ?] ?]. auto. Qed.

Definition cl_ok (c : clique) : Prop := NoDup (cl_nodes c) /\ cl_id c = ids_str (isort Z.leb (cl_nodes c)).

Lemma cl_id_inj a b : cl_ok a -> cl_ok b -> cl_id a = cl_id b -> Permutation (cl_nodes a) (cl_nodes b).
Proof.
  intros [_ E1] [_ E2] E. rewrite E1, E2 in E. apply ids_str_inj in E. rewrite <- (isort_perm Z.leb (cl_nodes a)), E. apply isort_perm.
Qed.

Lemma nonascent A B C : incr A -> incr B -> (forall x, In x B -> In x A) -> B <> [] -> forall x Y, B ++ C = x :: Y -> exists a, In a A /\ (x <= a)%Z.
Proof. intros _ _ Hi Hne x Y E. destruct B as [|b B]; [congruence|]. inversion E; subst. exists x. split; [apply Hi; left; auto|lia]. Qed.
Lemma nonascent2 B C : incr B -> incr C -> (forall x, In x B -> In x C) -> B <> [] -> forall x Y, C = x :: Y -> exists a, In a B /\ (x <= a)%Z.
Proof. intros HB HC Hi Hne x Y ->. destruct B as [|b B]; [congruence|]. exists b. split; [left; auto|]. eapply incr_head_le; eauto. apply Hi; left; auto. Qed.

Lemma sorted3 a b : cl_ok a -> cl_ok b -> inter a b <> [] ->
  incr (isort Z.leb (cl_nodes a)) /\ incr (isort Z.leb (inter a b)) /\ incr (isort Z.leb (cl_nodes b)) /\
  isort Z.leb (inter a b) <> [] /\ (forall x, In x (isort Z.leb (inter a b)) -> In x (isort Z.leb (cl_nodes a)) /\ In x (isort Z.leb (cl_nodes b))).
Proof.
  intros [Na _] [Nb _] H. split; [apply isort_incr; auto|]. split; [apply isort_incr; apply NoDup_filter; auto|]. split; [apply isort_incr; auto|]. split.
  - intros E. apply H. apply Permutation_nil. rewrite <- E. apply isort_perm.
  - intros x Hx. rewrite isort_In, inter_In in Hx. rewrite !isort_In. auto.
Qed.

Lemma ss_id_inj a b c d : cl_ok a -> cl_ok b -> cl_ok c -> cl_ok d -> inter a b <> [] -> inter c d <> [] ->
  ss_id (mk_sepset a b) = ss_id (mk_sepset c d) -> cl_id a = cl_id c /\ cl_id b = cl_id d.
Proof.
  intros Ha Hb Hc Hd N1 N2 E. rewrite !mk_sepset_id in E by auto. apply ids_str_inj in E.
  destruct (sorted3 a b Ha Hb N1) as [A1 [A2 [A3 [A4 A5]]]]. destruct (sorted3 c d Hc Hd N2) as [B1 [B2 [B3 [B4 B5]]]].
  apply decode in E; auto.
  - destruct E as [E1 E]. apply decode in E; auto.
    + destruct E as [E2 E3]. destruct Ha as [_ ->], Hb as [_ ->], Hc as [_ ->], Hd as [_ ->]. rewrite E1, E3. auto.
    + apply nonascent2; auto. intros x Hx; apply A5; auto.
    + apply nonascent2; auto. intros x Hx; apply B5; auto.
  - apply nonascent; auto. intros x Hx; apply A5; auto.
  - apply nonascent; auto. intros x Hx; apply B5; auto.
Qed.

Lemma ss_cl_id a b c : cl_ok a -> cl_ok b -> cl_ok c -> inter a b <> [] -> ss_id (mk_sepset a b) <> cl_id c.
Proof.
  intros Ha Hb [Nc Ec] N1 E. rewrite mk_sepset_id, Ec in E by auto. apply ids_str_inj in E.
  destruct (sorted3 a b Ha Hb N1) as [A1 [A2 [A3 [A4 A5]]]].
  assert (HS : incr (isort Z.leb (cl_nodes a) ++ isort Z.leb (inter a b) ++ isort Z.leb (cl_nodes b))) by (rewrite E; apply isort_incr; auto).
  destruct (isort Z.leb (inter a b)) as [|x l] eqn:Ex; [congruence|].
  pose proof (incr_app _ _ HS x x (proj1 (A5 x (or_introl eq_refl)))) as H. simpl in H. specialize (H (or_introl eq_refl)). lia.
Qed.

(** ** keys of the edges between cliques *)

(** two dashes in a row *)
Fixpoint twodash (s : string) : bool :=
  match s with
  | String c t => (Ascii.eqb c "-" && match t with String d _ => Ascii.eqb d "-" | EmptyString => false end) || twodash t
  | EmptyString => false
  end.
Lemma twodash_mid x y : twodash (x ++ String "-" (String "-" y)) = true.
Proof. induction x as [|c x IH]; simpl; auto. rewrite IH. apply orb_true_r. Qed.
Lemma twodash_digits d r : all_digits d -> d <> EmptyString -> twodash (d ++ r) = twodash r.
Proof.
  revert r. induction d as [|c d IH]; intros r H Hn; [congruence|]. destruct H as [H1 H2]. simpl.
  assert (E : Ascii.eqb c "-" = false) by (apply Ascii.eqb_neq; exact H1). rewrite E. simpl. destruct d as [|c' d]; auto. apply IH; auto. discriminate.
Qed.
Lemma nonneg_digits z : (0 <= z)%Z -> all_digits (str_of_Z z) /\ str_of_Z z <> EmptyString.
Proof.
  intros H. unfold str_of_Z. destruct z as [|p|p]; [split; simpl; [split; auto; discriminate|discriminate]|simpl; apply uint_digits0|lia].
Qed.
Lemma ids_str_nonneg l : Forall (Z.le 0) l -> twodash (ids_str l) = false.
Proof.
  induction 1 as [|z l Hz Hl IH]; auto. rewrite ids_str_cons. destruct (nonneg_digits z Hz) as [D1 D2]. rewrite twodash_digits by auto.
  destruct l as [|z' l]; auto. change (twodash (String "-" (ids_str (z' :: l)))) with
    ((Ascii.eqb "-" "-" && match ids_str (z' :: l) with String d _ => Ascii.eqb d "-" | EmptyString => false end) || twodash (ids_str (z' :: l))).
  rewrite IH, orb_false_r. rewrite ids_str_cons. inversion Hl as [|? ? Hz' _]; subst. destruct (nonneg_digits z' Hz') as [D1' D2'].
  destruct (str_of_Z z') as [|c t]; [congruence|]. simpl. apply Ascii.eqb_neq. apply (proj1 D1').
Qed.
Lemma str_assoc a b c : ((a ++ b) ++ c = a ++ (b ++ c))%string.
Proof. induction a; simpl; congruence. Qed.

Lemma dash_ends x : ends_ok (String "-" x). Proof. right; eauto. Qed.
Lemma key_mixed (B A' B' : list Z) : incr B -> B <> [] -> A' <> [] ->
  String "-" (ids_str B) = (ids_str A' ++ String "-" (String "-" (ids_str B')))%string -> False.
Proof.
  intros HB HBn HAn E. destruct A' as [|a A']; [congruence|]. rewrite ids_str_cons, str_assoc in E.
  destruct (str_of_Z_shape a) as [d [D1 [D2 D3]]]. destruct D3 as [D3|D3]; rewrite D3 in E.
  - destruct d as [|c d]; [congruence|]. simpl in E. inversion E; subst. apply (proj1 D1); auto.
  - simpl in E. inversion E as [E']. destruct d as [|c d]; [congruence|].
    assert (Hb : Forall (Z.le 0) B).
    { destruct B as [|b B]; [congruence|]. assert (H0 : (0 <= b)%Z).
      { destruct (Z.le_gt_cases 0 b) as [|Hlt]; auto. exfalso. rewrite ids_str_cons in E'. unfold str_of_Z in E'. destruct b as [|p|p]; try lia.
        simpl in E'. inversion E'; subst. apply (proj1 D1); auto. }
      apply Forall_forall. intros x Hx. pose proof (incr_head_le b B x HB Hx). lia. }
    apply ids_str_nonneg in Hb. rewrite E' in Hb. rewrite <- str_assoc in Hb. rewrite twodash_mid in Hb. discriminate.
Qed.
Lemma key_inj A : forall A' B B', A <> [] -> A' <> [] -> incr A -> incr A' -> incr B -> incr B' -> B <> [] -> B' <> [] ->
  (ids_str A ++ String "-" (String "-" (ids_str B)) = ids_str A' ++ String "-" (String "-" (ids_str B')))%string -> A = A' /\ B = B'.
Proof.
  induction A as [|a A IH]; intros A' B B' HA HA' I1 I2 I3 I4 HB HB' E; [congruence|]. destruct A' as [|a' A']; [congruence|].
  rewrite !ids_str_cons, !str_assoc in E. apply str_prefix in E.
  - destruct E as [-> E]. inversion I1; subst. inversion I2; subst. destruct A as [|x A], A' as [|x' A']; simpl in E; inversion E as [E'].
    + apply ids_str_inj in E'. subst; auto.
    + exfalso. eapply key_mixed; [exact I3|exact HB| |exact E']. discriminate.
    + exfalso. symmetry in E'. eapply key_mixed; [exact I4|exact HB'| |exact E']. discriminate.
    + destruct (IH (x' :: A') B B') as [Q1 Q2]; auto; try discriminate. inversion Q1; subst. auto.
  - destruct A; simpl; apply dash_ends.
  - destruct A'; simpl; apply dash_ends.
Qed.
Lemma edge_key_inj s s' : cl_ok (ss_left s) -> cl_ok (ss_right s) -> cl_ok (ss_left s') -> cl_ok (ss_right s') ->
  cl_nodes (ss_left s) <> [] -> cl_nodes (ss_right s) <> [] -> cl_nodes (ss_left s') <> [] -> cl_nodes (ss_right s') <> [] ->
  jt_edge_key s = jt_edge_key s' ->
  (cl_id (ss_left s) = cl_id (ss_left s') /\ cl_id (ss_right s) = cl_id (ss_right s')) \/
  (cl_id (ss_left s) = cl_id (ss_right s') /\ cl_id (ss_right s) = cl_id (ss_left s')).
Proof.
  intros H1 H2 H3 H4 N1 N2 N3 N4 E.
  assert (G : forall a b c d, cl_ok a -> cl_ok b -> cl_ok c -> cl_ok d -> cl_nodes a <> [] -> cl_nodes b <> [] -> cl_nodes c <> [] -> cl_nodes d <> [] ->
    (cl_id a ++ "--" ++ cl_id b = cl_id c ++ "--" ++ cl_id d)%string -> cl_id a = cl_id c /\ cl_id b = cl_id d).
  { clear. intros a b c d [A1 A2] [B1 B2] [C1 C2] [D1 D2] Na Nb Nc Nd E. rewrite A2, B2, C2, D2 in *. simpl in E.
    assert (S : forall l, l <> [] -> isort Z.leb l <> []). { intros l Hl E0. apply Hl. apply Permutation_nil. rewrite <- E0. apply isort_perm. }
    destruct (key_inj _ _ _ _ (S _ Na) (S _ Nc) (isort_incr _ A1) (isort_incr _ C1) (isort_incr _ B1) (isort_incr _ D1) (S _ Nb) (S _ Nd) E) as [-> ->]. auto. }
  unfold jt_edge_key in E.
  destruct (str_leb (cl_id (ss_left s)) (cl_id (ss_right s))), (str_leb (cl_id (ss_left s')) (cl_id (ss_right s'))); apply G in E; auto; tauto.
Qed.
