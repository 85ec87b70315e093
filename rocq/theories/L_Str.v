(** Printed tables read back. *)
From Coq Require Import Ascii Sorting.Sorted Decimal DecimalString DecimalZ DecimalN Lqa.
From Verif Require Import Py M_Graph M_Node M_Pptc M_Serde M_Csv M_Text M_Str Spec SpecNet SpecPot SpecText SpecStr L_Base L_Ids L_Csv L_Text L_P4.
Open Scope nat_scope.
Local Open Scope list_scope.

(** ** fields and cuts *)
Lemma fields_split c s : fields c s = split c s.
Proof. induction s as [|x s IH]; simpl; auto. all: rewrite ?IH; destruct (Ascii.eqb x c); auto; destruct (split c s); auto. Qed.
Lemma cut_free c a b : free c a -> cut c (a ++ String c b) = Some (a, b).
Proof.
  induction a as [|x a IH]; intros H; simpl. { rewrite Ascii.eqb_refl. auto. }
  apply free_cons in H. destruct H as [H1 H2]. apply Ascii.eqb_neq in H1. rewrite H1, IH; auto.
Qed.
Lemma split_join_c c l : l <> [] -> Forall (free c) l -> split c (join (String c EmptyString) l) = l.
Proof.
  induction l as [|x [|y l] IH]; intros Hl F; [congruence| |]; inversion F; subst.
  - apply split_free; auto.
  - change (join (String c "") (x :: y :: l)) with (x ++ String c (join (String c "") (y :: l)))%string. rewrite split_app, split_free, IH by (auto; discriminate). reflexivity.
Qed.
Lemma every_map {A B C} (f : B -> option C) (g : A -> B) (h : A -> C) l : (forall a, In a l -> f (g a) = Some (h a)) -> every f (map g l) = Some (map h l).
Proof. induction l as [|a l IH]; intros H; simpl; auto. rewrite H by (left; auto). rewrite IH; auto. intros; apply H; right; auto. Qed.
Lemma every_Forall2 {A B C} (f : B -> option C) (g : A -> B) (R : C -> A -> Prop) l : (forall a, In a l -> exists c, f (g a) = Some c /\ R c a) ->
  exists m, every f (map g l) = Some m /\ Forall2 R m l.
Proof.
  induction l as [|a l IH]; intros H. { exists []. auto. }
  destruct (H a (or_introl eq_refl)) as [c [E1 E2]]. destruct IH as [m [E3 E4]]. { intros; apply H; right; auto. }
  exists (c :: m). simpl. rewrite E1, E3. auto.
Qed.

(** ** integers *)
Open Scope Z_scope.
Fixpoint dval (acc : Z) (u : uint) : Z :=
  match u with
  | Nil => acc | D0 u => dval (10 * acc) u | D1 u => dval (10 * acc + 1) u | D2 u => dval (10 * acc + 2) u | D3 u => dval (10 * acc + 3) u
  | D4 u => dval (10 * acc + 4) u | D5 u => dval (10 * acc + 5) u | D6 u => dval (10 * acc + 6) u | D7 u => dval (10 * acc + 7) u
  | D8 u => dval (10 * acc + 8) u | D9 u => dval (10 * acc + 9) u
  end.
Lemma digits_uint u : forall acc, digits acc (NilEmpty.string_of_uint u) = Some (dval acc u).
Proof. induction u as [|u IH|u IH|u IH|u IH|u IH|u IH|u IH|u IH|u IH|u IH]; intros acc; cbn [NilEmpty.string_of_uint digits]; auto;
  match goal with |- context [digit_value ?c] => let d := eval vm_compute in (digit_value c) in change (digit_value c) with d end; cbv iota; rewrite ?Z.add_0_r; apply IH. Qed.
Lemma dval_acc u : forall p, Zpos (Pos.of_uint_acc u p) = dval (Zpos p) u.
Proof. induction u as [|u IH|u IH|u IH|u IH|u IH|u IH|u IH|u IH|u IH|u IH]; intros p; cbn [Pos.of_uint_acc dval]; auto; rewrite IH; f_equal; lia. Qed.
Lemma dval_of_uint u : Z.of_uint u = dval 0 u.
Proof.
  unfold Z.of_uint. induction u as [|u IH|u IH|u IH|u IH|u IH|u IH|u IH|u IH|u IH|u IH]; simpl Pos.of_uint; simpl dval; auto; simpl Z.of_N; apply dval_acc.
Qed.
Lemma to_int_pos k : 0 <= k -> exists u, Z.to_int k = Pos u /\ dval 0 u = k /\ u <> Nil.
Proof.
  intros H. assert (E := DecimalZ.of_to k). destruct (Z.to_int k) as [u|u] eqn:Eu; simpl in E.
  - exists u. split; auto. split. { rewrite <- dval_of_uint. auto. } intros ->. destruct (to_int_nn k) as [Q _]. congruence.
  - exfalso. destruct k; simpl in Eu; try discriminate. lia.
Qed.
Lemma unsigned_str k : 0 <= k -> unsigned (str_of_Z k) = Some k.
Proof.
  intros H. destruct (to_int_pos k H) as [u [E [E1 E2]]]. unfold str_of_Z. rewrite E. cbn [NilZero.string_of_int].
  assert (EE : NilZero.string_of_uint u = NilEmpty.string_of_uint u) by (destruct u; auto; congruence). rewrite EE. unfold unsigned.
  destruct (NilEmpty.string_of_uint u) eqn:Es. { destruct u; discriminate || congruence. }
  rewrite <- Es, digits_uint, E1. auto.
Qed.
Lemma unsigned_head k : 0 <= k -> minus_sign (str_of_Z k) = (false, str_of_Z k).
Proof.
  intros H. destruct (nonneg_digits k H) as [D N]. destruct (str_of_Z k) as [|c s]; [congruence|].
  destruct D as [Hc _]. unfold digit in Hc.
  unfold minus_sign. destruct c as [[] [] [] [] [] [] [] []]; auto. congruence.
Qed.
Lemma str_of_neg k : k < 0 -> str_of_Z k = String "-" (str_of_Z (- k)).
Proof. intros H. destruct k as [|p|p]; try lia. unfold str_of_Z. simpl. auto. Qed.
Lemma integer_str z : integer (str_of_Z z) = Some z.
Proof.
  unfold integer. destruct (Z_lt_le_dec z 0) as [H|H].
  - rewrite str_of_neg by auto. cbn [minus_sign]. rewrite unsigned_str by lia. simpl. f_equal. lia.
  - rewrite unsigned_head by auto. rewrite unsigned_str by auto. auto.
Qed.

(** ** numbers *)
Lemma digit_ok d : 0 <= d <= 9 -> digit_value (M_Str.digit d) = Some d.
Proof.
  intros H. assert (K : d = 0 \/ d = 1 \/ d = 2 \/ d = 3 \/ d = 4 \/ d = 5 \/ d = 6 \/ d = 7 \/ d = 8 \/ d = 9) by lia.
  repeat (destruct K as [->|K]; [vm_compute; reflexivity|]). subst. vm_compute. reflexivity.
Qed.
Lemma fives_ok f : 0 <= f < 100000 -> unsigned (fives f) = Some f.
Proof.
  intros H. unfold unsigned, fives. cbn [digits].
  assert (M : forall x, 0 <= x mod 10 <= 9) by (intros x; pose proof (Z.mod_pos_bound x 10 ltac:(lia)); lia).
  rewrite (digit_ok (f / 10000)) by (split; [apply Z.div_pos; lia|apply Z.lt_succ_r; apply Z.div_lt_upper_bound; lia]). repeat rewrite digit_ok by apply M.
  f_equal. pose proof (Z.div_mod f 10 ltac:(lia)). pose proof (Z.div_mod (f / 10) 10 ltac:(lia)). pose proof (Z.div_mod (f / 100) 10 ltac:(lia)).
  pose proof (Z.div_mod (f / 1000) 10 ltac:(lia)).
  assert (E1 : f / 100 = f / 10 / 10) by (rewrite Z.div_div by lia; reflexivity).
  assert (E2 : f / 1000 = f / 100 / 10) by (rewrite Z.div_div by lia; reflexivity).
  assert (E3 : f / 10000 = f / 1000 / 10) by (rewrite Z.div_div by lia; reflexivity).
  lia.
Qed.
Lemma rounded_ok n d : 0 <= n -> 0 <= rounded n d /\ 2 * n - Zpos d <= 2 * rounded n d * Zpos d <= 2 * n + Zpos d.
Proof.
  intros H. unfold rounded. pose proof (Z.div_mod n (Zpos d) ltac:(lia)) as E. pose proof (Z.mod_pos_bound n (Zpos d) ltac:(lia)) as B.
  pose proof (Z.div_pos n (Zpos d) H ltac:(lia)) as P. set (q := n / Zpos d) in *. set (r := n mod Zpos d) in *.
  destruct (Z.compare_spec (2 * r) (Zpos d)) as [C|C|C]; [destruct (Z.even q)|..]; nia.
Qed.
Lemma int_free_dot k : free "." (str_of_Z k).
Proof. apply int_free; vm_compute; [discriminate|left; lia]. Qed.
Definition scaled (v : Qc) : Z := (if Qnum (this v) <? 0 then -1 else 1) * rounded (100000 * Z.abs (Qnum (this v))) (Qden (this v)).
Lemma number_ok v : number (fmt5 v) = Some (qfrac (scaled v) 100000).
Proof.
  unfold fmt5, number, scaled. set (n := Qnum (this v)). set (d := Qden (this v)). destruct (rounded_ok (100000 * Z.abs n) d ltac:(lia)) as [P _].
  set (k := rounded (100000 * Z.abs n) d) in *.
  assert (A : 0 <= k / 100000) by (apply Z.div_pos; lia). assert (B : 0 <= k mod 100000 < 100000) by (apply Z.mod_pos_bound; lia).
  assert (C : cut "." (str_of_Z (k / 100000) ++ "." ++ fives (k mod 100000))%string = Some (str_of_Z (k / 100000), fives (k mod 100000))) by (apply cut_free, int_free_dot).
  assert (D : minus_sign (str_of_Z (k / 100000) ++ "." ++ fives (k mod 100000))%string = (false, str_of_Z (k / 100000) ++ "." ++ fives (k mod 100000))%string).
  { destruct (nonneg_digits _ A) as [D N]. destruct (str_of_Z (k / 100000)) as [|c s]; [congruence|]. destruct D as [Hc _]. unfold L_Ids.digit in Hc.
    unfold minus_sign. cbn [String.append]. destruct c as [[] [] [] [] [] [] [] []]; auto. congruence. }
  assert (K : Zpos 100000 * (k / 100000) + k mod 100000 = k) by (rewrite <- Z.div_mod; lia).
  set (body := (str_of_Z (k / 100000) ++ "." ++ fives (k mod 100000))%string) in *.
  destruct (n <? 0); [change (minus_sign ("-" ++ body)%string) with (true, body)|change (minus_sign ("" ++ body)%string) with (minus_sign body); rewrite D]; cbv iota beta; rewrite C, unsigned_str, fives_ok by auto;
    change (Pos.pow 10 (Pos.of_nat (String.length (fives (k mod 100000))))) with 100000%positive; rewrite (Z.mul_comm _ (Zpos 100000)), K; f_equal.
  - apply Qc_is_canon. unfold qfrac, Qcopp, Q2Qc. cbn [this]. rewrite !Qred_correct. unfold Qeq. unfold Qopp. cbn [Qnum Qden]. lia.
  - rewrite Z.mul_1_l. reflexivity.
Qed.
Lemma scaled_close v : close (qfrac (scaled v) 100000) v.
Proof.
  assert (B : (2 * 100000 * Qnum (this v) - Zpos (Qden (this v)) <= 2 * scaled v * Zpos (Qden (this v)) <= 2 * 100000 * Qnum (this v) + Zpos (Qden (this v)))%Z).
  { unfold scaled. destruct (rounded_ok (100000 * Z.abs (Qnum (this v))) (Qden (this v)) ltac:(lia)) as [_ B]. destruct (Z.ltb_spec (Qnum (this v)) 0); lia. }
  unfold close, Qcle, Qcminus, Qcplus, Qcopp, qfrac, Q2Qc. cbn [this]. rewrite !Qred_correct. destruct (this v) as [n d]. cbn [Qnum Qden] in *. unfold Qle, Qplus, Qopp. cbn [Qnum Qden].
  split; rewrite ?Pos2Z.inj_mul; nia.
Qed.

(** ** rows and tables *)
Open Scope nat_scope.
Lemma plain_free v : plain_value v -> free "," v /\ free "|" v /\ free line_feed v.
Proof. intros H. repeat split; intros K; destruct (H _ K) as [H1 [H2 H3]]; congruence. Qed.
Lemma item_free c p : nat_of_ascii c <> 45 -> (nat_of_ascii c < 48 \/ 57 < nat_of_ascii c) -> c <> "="%char -> free c (snd p) -> free c (item p).
Proof.
  intros H1 H2 H3 H4. unfold item. apply free_app. split; [apply int_free; auto|]. apply free_cons. split; [congruence|auto].
Qed.
Lemma read_item_ok p : read_item (item p) = Some p.
Proof.
  destruct p as [i v]. unfold read_item, item. cbn [fst snd]. change (str_of_Z i ++ "=" ++ v)%string with (str_of_Z i ++ String "=" v)%string. rewrite (cut_free "=" (str_of_Z i) v) by (apply int_free; vm_compute; [discriminate|right; lia]).
  rewrite integer_str. reflexivity.
Qed.
Lemma char_free c d a : free c (String d a) -> free c a.
Proof. intros H. apply free_cons in H. apply H. Qed.
Lemma digit_free d : (0 <= d <= 9)%Z -> M_Str.digit d <> line_feed.
Proof.
  intros H. assert (K : (d = 0 \/ d = 1 \/ d = 2 \/ d = 3 \/ d = 4 \/ d = 5 \/ d = 6 \/ d = 7 \/ d = 8 \/ d = 9)%Z) by lia.
  repeat (destruct K as [->|K]; [vm_compute; discriminate|]). subst. vm_compute. discriminate.
Qed.
Lemma fmt5_free v : free line_feed (fmt5 v).
Proof.
  unfold fmt5. set (n := Qnum (this v)). set (d := Qden (this v)). destruct (rounded_ok (100000 * Z.abs n) d ltac:(lia)) as [P _].
  set (k := rounded (100000 * Z.abs n) d) in *. apply free_app. split. { destruct (Z.ltb n 0); [apply free_cons; split; [discriminate|]|]; apply free_nil. }
  apply free_app. split. { apply int_free; vm_compute; [discriminate|left; lia]. }
  apply free_cons. split; [discriminate|]. unfold fives.
  pose proof (Z.mod_pos_bound k 100000 ltac:(lia)) as B. set (f := (k mod 100000)%Z) in *.
  assert (M : forall x, (0 <= x mod 10 <= 9)%Z) by (intros x; pose proof (Z.mod_pos_bound x 10 ltac:(lia)); lia).
  repeat (apply free_cons; split; [apply digit_free; auto|]); [|apply free_nil]. split; [apply Z.div_pos; lia|apply Z.lt_succ_r; apply Z.div_lt_upper_bound; lia].
Qed.
Lemma items_free e : printable e -> forall s, In s (map item (get_entry_keys e)) -> free "," s /\ free "|" s /\ free line_feed s.
Proof.
  intros [_ H] s Hs. apply in_map_iff in Hs. destruct Hs as [[k v] [<- Hp]]. unfold get_entry_keys in Hp. apply isort_In in Hp.
  destruct (plain_free v (H k v Hp)) as [F1 [F2 F3]]. repeat split; apply item_free; auto; try discriminate; vm_compute; try (left; lia); try (right; lia); discriminate.
Qed.
Lemma entry_str_eq e : entry_str e = (join "," (map item (get_entry_keys e)) ++ String "|" (fmt5 (pe_val e)))%string.
Proof. reflexivity. Qed.
Lemma join_free_c c l : c <> ","%char -> Forall (free c) l -> free c (join "," l).
Proof. apply join_free. Qed.
Lemma read_entry_ok e : printable e -> read_entry (entry_str e) = Some (get_entry_keys e, qfrac (scaled (pe_val e)) 100000).
Proof.
  intros H. rewrite entry_str_eq. pose proof (items_free e H) as F. unfold read_entry. rewrite cut_free.
  2:{ apply join_free_c; [discriminate|]. apply Forall_forall. intros s Hs. apply F; auto. }
  assert (K : match join "," (map item (get_entry_keys e)) with EmptyString => [] | _ => fields "," (join "," (map item (get_entry_keys e))) end = map item (get_entry_keys e)).
  { destruct (get_entry_keys e) as [|p l] eqn:E; auto.
    assert (N : join "," (map item (p :: l)) <> EmptyString). { cbn [map]. assert (Q := item_some p). destruct l as [|q l]; [exact Q|]. cbn [map]. rewrite join_cons. destruct (item p); [congruence|discriminate]. }
    rewrite fields_split, (split_join_c "," (map item (p :: l))); [|discriminate|apply Forall_forall; intros s Hs; apply F; auto]. destruct (join "," (map item (p :: l))); [congruence|auto]. }
  rewrite K, number_ok. rewrite (every_map read_item item (fun p => p)) by (intros; apply read_item_ok). rewrite map_id. auto.
Qed.
Lemma keys_sorted e : NoDup (map fst (pe_map e)) -> Permutation (get_entry_keys e) (pe_map e) /\ StronglySorted Z.lt (map fst (get_entry_keys e)).
Proof.
  intros N. unfold get_entry_keys. split; [apply isort_perm|].
  assert (L : forall l, StronglySorted (fun p q : Z * string => Z.leb (fst p) (fst q) = true) (isort (fun p q => Z.leb (fst p) (fst q)) l)).
  { apply isort_sorted. { intros x y. destruct (Z.leb_spec (fst x) (fst y)), (Z.leb_spec (fst y) (fst x)); auto; lia. } { intros x y z. rewrite !Z.leb_le. lia. } }
  specialize (L (pe_map e)).
  assert (N' : NoDup (map fst (isort (fun p q : Z * string => Z.leb (fst p) (fst q)) (pe_map e)))) by (eapply Permutation_NoDup; [|exact N]; apply Permutation_map, Permutation_sym, isort_perm).
  revert L N'. generalize (isort (fun p q : Z * string => Z.leb (fst p) (fst q)) (pe_map e)). induction l as [|p l IH]; intros S M; simpl; constructor; inversion S as [|? ? S1 S2]; inversion M as [|? ? M1 M2]; subst.
  - auto.
  - apply Forall_forall. intros i Hi. apply in_map_iff in Hi. destruct Hi as [q [<- Hq]]. rewrite Forall_forall in S2. specialize (S2 q Hq). apply Z.leb_le in S2.
    assert (fst p <> fst q) by (intros E; apply M1; rewrite E; apply in_map; auto). lia.
Qed.
Theorem c78_number v : exists q, number (fmt5 v) = Some q /\ close q v.
Proof. exists (qfrac (scaled v) 100000). split; [apply number_ok|apply scaled_close]. Qed.
Theorem c78_entry e : printable e -> exists r, read_entry (entry_str e) = Some r /\ reads r e.
Proof.
  intros H. eexists. split; [apply read_entry_ok; auto|]. destruct (keys_sorted e (proj1 H)) as [K1 K2]. split; [|split]; cbn [fst snd]; auto. apply scaled_close.
Qed.
Lemma entry_free e : printable e -> free line_feed (entry_str e).
Proof.
  intros H. rewrite entry_str_eq. apply free_app. split.
  - apply join_free_c; [discriminate|]. apply Forall_forall. intros s Hs. apply (items_free e H s Hs).
  - apply free_cons. split; [discriminate|]. apply fmt5_free.
Qed.
Theorem c78_table p : p <> [] -> Forall printable p -> exists rows, read_table (potential_str p) = Some rows /\ Forall2 reads rows p.
Proof.
  intros Hp F. rewrite Forall_forall in F. unfold read_table, potential_str. change newline with (String line_feed EmptyString).
  rewrite fields_split, split_join_c.
  - apply every_Forall2. intros e He. apply c78_entry. auto.
  - destruct p; [congruence|discriminate].
  - apply Forall_forall. intros s Hs. apply in_map_iff in Hs. destruct Hs as [e [<- He]]. apply entry_free. auto.
Qed.
