(** Splitting, stripping and lines. *)
From Coq Require Import Ascii DecimalString DecimalZ Decimal.
From Verif Require Import Py M_Graph M_Node M_Pptc M_Serde M_Factory M_Csv Spec SpecNet SpecCsv L_Base L_Ids L_Serde.
Open Scope nat_scope.

Notation chars := list_ascii_of_string.
Definition free (c : ascii) (s : string) : Prop := ~ In c (chars s).

Lemma chars_app a b : chars (a ++ b)%string = chars a ++ chars b.
Proof. induction a as [|x a IH]; [reflexivity|]. simpl. rewrite IH. reflexivity. Qed.
Lemma free_app c a b : free c (a ++ b)%string <-> free c a /\ free c b.
Proof. unfold free. rewrite chars_app, in_app_iff. tauto. Qed.
Lemma free_cons c x a : free c (String x a) <-> x <> c /\ free c a.
Proof. unfold free. simpl. split; [intros H; split; auto|intros [H1 H2] [E|E]; auto]. Qed.
Lemma free_nil c : free c EmptyString.
Proof. intros []. Qed.
Lemma app_assoc_s a b c : ((a ++ b) ++ c)%string = (a ++ (b ++ c))%string.
Proof. induction a as [|x a IH]; [reflexivity|]. simpl. rewrite IH. reflexivity. Qed.
Lemma app_nil_s a : (a ++ EmptyString)%string = a.
Proof. induction a as [|x a IH]; [reflexivity|]. simpl. rewrite IH. reflexivity. Qed.

(** ** split *)
Lemma split_some c s : exists h r, split c s = h :: r.
Proof. induction s as [|a s [h [r E]]]; simpl; [eauto|]. destruct (Ascii.eqb a c); [eauto|]. rewrite E. eauto. Qed.
Lemma split_free c s : free c s -> split c s = [s].
Proof.
  induction s as [|a s IH]; intros H; [reflexivity|]. apply free_cons in H. destruct H as [H1 H2]. simpl. apply Ascii.eqb_neq in H1. rewrite H1, (IH H2). reflexivity.
Qed.
Lemma split_app c a b : split c (a ++ String c b)%string = split c a ++ split c b.
Proof.
  induction a as [|x a IH]; simpl; [rewrite Ascii.eqb_refl; reflexivity|]. rewrite IH. destruct (Ascii.eqb x c); [reflexivity|].
  destruct (split_some c a) as [h [r E]]. rewrite E. reflexivity.
Qed.

(** ** strip *)
Lemma white_whiteb c : whiteb c = true <-> white c.
Proof.
  unfold whiteb, white. rewrite !orb_true_iff, !andb_true_iff, !Nat.leb_le, !Nat.eqb_eq. cbn [In]. lia.
Qed.
Lemma not_white c : ~ white c -> whiteb c = false.
Proof. rewrite <- white_whiteb. destruct (whiteb c); [congruence|reflexivity]. Qed.
Lemma snoc_s s : s <> EmptyString -> exists t c, s = (t ++ String c EmptyString)%string.
Proof.
  induction s as [|a s IH]; [congruence|]. intros _. destruct s as [|b s]; [exists EmptyString, a; reflexivity|].
  destruct IH as [t [c E]]; [discriminate|]. exists (String a t), c. rewrite E. reflexivity.
Qed.
Lemma rstrip_keep t c : whiteb c = false -> rstrip (t ++ String c EmptyString)%string = (t ++ String c EmptyString)%string.
Proof.
  intros H. induction t as [|a t IH]; simpl; [rewrite H; reflexivity|]. rewrite IH. destruct t; reflexivity.
Qed.
Lemma rstrip_drop s c : whiteb c = true -> rstrip (s ++ String c EmptyString)%string = rstrip s.
Proof. intros H. induction s as [|a t IH]; simpl; [rewrite H; reflexivity|]. rewrite IH. reflexivity. Qed.
Lemma clean_lstrip s t : clean s -> lstrip (s ++ t)%string = (s ++ t)%string.
Proof.
  intros [H1 _ H2 _]. destruct s as [|a s]; [congruence|]. simpl. rewrite not_white; [reflexivity|]. apply (H2 a (chars s)). reflexivity.
Qed.
Lemma clean_rstrip s : clean s -> rstrip s = s.
Proof.
  intros [H1 _ _ H2]. destruct (snoc_s s H1) as [t [c ->]]. apply rstrip_keep, not_white. apply (H2 c (chars t)). apply chars_app.
Qed.
Lemma clean_strip s : clean s -> strip s = s.
Proof. intros H. unfold strip. rewrite <- (app_nil_s s) at 1. rewrite clean_lstrip, app_nil_s by exact H. apply clean_rstrip, H. Qed.
Lemma clean_strip_nl s : clean s -> strip (s ++ String nl EmptyString) = s.
Proof. intros H. unfold strip. rewrite clean_lstrip, rstrip_drop by (auto; reflexivity). apply clean_rstrip, H. Qed.
Lemma clean_free s c : clean s -> special c -> free c s.
Proof. intros H S I. exact (cn_free _ H c I S). Qed.
Lemma sp_comma : special comma. Proof. left. reflexivity. Qed.
Lemma sp_bar : special bar. Proof. right; left. reflexivity. Qed.
Lemma sp_nl : special nl. Proof. do 2 right; left. reflexivity. Qed.
Lemma sp_cr : special cr. Proof. do 3 right; left. reflexivity. Qed.

(** ** items *)
Lemma items_app a b : items (a ++ String comma b) = items a ++ items b.
Proof. unfold items. rewrite split_app, map_app, filter_app. reflexivity. Qed.
Lemma items_nil : items EmptyString = [].
Proof. reflexivity. Qed.
Lemma items_nl : items (String nl EmptyString) = [].
Proof. reflexivity. Qed.
Lemma items_one s x : free comma s -> strip s = x -> x <> EmptyString -> items s = [x].
Proof. intros H E N. unfold items. rewrite split_free by exact H. cbn [map filter]. rewrite E. destruct x; [congruence|reflexivity]. Qed.
Lemma items_clean s : clean s -> items s = [s].
Proof. intros H. apply items_one; [apply clean_free; auto using sp_comma|apply clean_strip, H|apply (cn_some _ H)]. Qed.
Lemma join_cons x y l : join "," (x :: y :: l) = (x ++ String comma (join "," (y :: l)))%string.
Proof. reflexivity. Qed.
Lemma items_join l : Forall clean l -> items (join "," l) = l.
Proof.
  induction l as [|x [|y l] IH]; intros H; [reflexivity| |]; inversion H; subst.
  - apply items_clean. assumption.
  - rewrite join_cons, items_app, IH, items_clean by assumption. reflexivity.
Qed.
Lemma items_join_nl l : Forall clean l -> items (join "," l ++ String nl EmptyString) = l.
Proof.
  induction l as [|x [|y l] IH]; intros H; [reflexivity| |]; inversion H; subst.
  - apply items_one; [apply free_app; split; [apply clean_free; auto using sp_comma|]|apply clean_strip_nl; assumption|apply cn_some; assumption].
    apply free_cons. split; [discriminate|apply free_nil].
  - rewrite join_cons, app_assoc_s. cbn [append]. rewrite items_app, IH, items_clean by assumption. reflexivity.
Qed.
Lemma join_free c l : c <> comma -> Forall (free c) l -> free c (join "," l).
Proof.
  intros Hc. induction l as [|x [|y l] IH]; intros H; [apply free_nil| |]; inversion H; subst; [assumption|].
  rewrite join_cons. apply free_app. split; [assumption|]. apply free_cons. split; [congruence|]. apply IH. assumption.
Qed.

(** ** lines *)
Lemma universal_id s : free cr s -> universal s = s.
Proof.
  induction s as [|a s IH]; intros H; [reflexivity|]. apply free_cons in H. destruct H as [H1 H2]. simpl. apply Ascii.eqb_neq in H1. rewrite H1, (IH H2). reflexivity.
Qed.
Lemma lines_cons x y : free nl x -> lines (x ++ String nl y) = (x ++ String nl EmptyString)%string :: lines y.
Proof.
  induction x as [|a x IH]; intros H; [reflexivity|]. apply free_cons in H. destruct H as [H1 H2]. cbn [append lines]. apply Ascii.eqb_neq in H1. rewrite H1, (IH H2). reflexivity.
Qed.
Notation ended := (fun l => (l ++ String nl EmptyString)%string).
Lemma concat_nil_cons x l : String.concat EmptyString (x :: l) = (x ++ String.concat EmptyString l)%string.
Proof. destruct l; [simpl; rewrite app_nil_s; reflexivity|reflexivity]. Qed.
Lemma lines_all ls : Forall (free nl) ls -> lines (String.concat EmptyString (map ended ls)) = map ended ls.
Proof.
  induction 1 as [|x l Hx Hl IH]; [reflexivity|]. cbn [map]. rewrite concat_nil_cons, app_assoc_s. cbn [append]. rewrite lines_cons, IH by exact Hx. reflexivity.
Qed.
Lemma concat_free c ls : c <> nl -> Forall (free c) ls -> free c (String.concat EmptyString (map ended ls)).
Proof.
  intros Hc. induction 1 as [|x l Hx Hl IH]; [apply free_nil|]. cbn [map]. rewrite concat_nil_cons, app_assoc_s. apply free_app. split; [exact Hx|].
  apply free_cons. split; [congruence|exact IH].
Qed.

(** ** numbers *)
Lemma uint_chars u c : In c (chars (NilEmpty.string_of_uint u)) -> 48 <= nat_of_ascii c <= 57.
Proof. induction u; simpl; [tauto|..]; (intros [<-|H]; [split; vm_compute; repeat constructor|auto]). Qed.
Lemma int_chars z c : In c (chars (str_of_Z z)) -> nat_of_ascii c = 45 \/ 48 <= nat_of_ascii c <= 57.
Proof.
  assert (G : forall u, In c (chars (NilZero.string_of_uint u)) -> 48 <= nat_of_ascii c <= 57).
  { intros u. destruct u; try apply (uint_chars (_ u)). intros [<-|[]]. split; vm_compute; repeat constructor. }
  unfold str_of_Z. destruct (Z.to_int z) as [u|u]; cbn [NilZero.string_of_int]; [intros H; right; apply (G u H)|]. intros [<-|H]; [left; reflexivity|right; apply (G u H)].
Qed.
Lemma int_clean z : clean (str_of_Z z).
Proof.
  constructor.
  - destruct (str_of_Z_shape z) as (d & _ & H & [E|E]); rewrite E; [exact H|discriminate].
  - intros c H S. apply int_chars in H. unfold special in S. cbn [In] in S. lia.
  - intros c l E S. assert (H : In c (chars (str_of_Z z))) by (rewrite E; left; reflexivity). apply int_chars in H. unfold white in S. cbn [In] in S. lia.
  - intros c l E S. assert (H : In c (chars (str_of_Z z))) by (rewrite E; apply in_or_app; right; left; reflexivity). apply int_chars in H. unfold white in S. cbn [In] in S. lia.
Qed.
Lemma int_of_int z : int_of (str_of_Z z) = Ok z.
Proof. unfold int_of. rewrite clean_strip by apply int_clean. apply int_of_str_of. Qed.
