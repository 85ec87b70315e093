(** Printed Gaussians read back. *)
From Coq Require Import Ascii.
From Verif Require Import Py M_Graph M_Node M_Pptc M_Serde M_Csv M_Text M_Str M_Gauss M_Show Spec SpecNet SpecPot SpecText SpecStr SpecGauss SpecPrint SpecShow L_Base L_Ids L_Csv L_Text L_P4 L_Str L_Print L_Gauss.
Open Scope Z_scope.
Local Open Scope list_scope.

Lemma threes_ok f : 0 <= f < 1000 -> unsigned (threes f) = Some f.
Proof.
  intros H. unfold unsigned, threes. cbn [digits].
  assert (M : forall x, 0 <= x mod 10 <= 9) by (intros x; pose proof (Z.mod_pos_bound x 10 ltac:(lia)); lia).
  rewrite (digit_ok (f / 100)) by (split; [apply Z.div_pos; lia|apply Z.lt_succ_r; apply Z.div_lt_upper_bound; lia]). repeat rewrite digit_ok by apply M.
  f_equal. pose proof (Z.div_mod f 10 ltac:(lia)). pose proof (Z.div_mod (f / 10) 10 ltac:(lia)).
  assert (E1 : f / 100 = f / 10 / 10) by (rewrite Z.div_div by lia; reflexivity). lia.
Qed.
Definition scaled3 (v : Qc) : Z := (if Qnum (this v) <? 0 then -1 else 1) * rounded (1000 * Z.abs (Qnum (this v))) (Qden (this v)).
Definition val3 (v : Qc) : Qc := qfrac (scaled3 v) 1000.
Lemma number3_ok v : number (fmt3 v) = Some (val3 v).
Proof.
  unfold fmt3, number, val3, scaled3. set (n := Qnum (this v)). set (d := Qden (this v)). destruct (rounded_ok (1000 * Z.abs n) d ltac:(lia)) as [P _].
  set (k := rounded (1000 * Z.abs n) d) in *.
  assert (A : 0 <= k / 1000) by (apply Z.div_pos; lia). assert (B : 0 <= k mod 1000 < 1000) by (apply Z.mod_pos_bound; lia).
  assert (C : cut "." (str_of_Z (k / 1000) ++ "." ++ threes (k mod 1000))%string = Some (str_of_Z (k / 1000), threes (k mod 1000))) by (apply cut_free, int_free_dot).
  assert (D : minus_sign (str_of_Z (k / 1000) ++ "." ++ threes (k mod 1000))%string = (false, str_of_Z (k / 1000) ++ "." ++ threes (k mod 1000))%string).
  { destruct (nonneg_digits _ A) as [D N]. destruct (str_of_Z (k / 1000)) as [|c s]; [congruence|]. destruct D as [Hc _]. unfold L_Ids.digit in Hc.
    unfold minus_sign. cbn [String.append]. destruct c as [[] [] [] [] [] [] [] []]; auto. congruence. }
  assert (K : Zpos 1000 * (k / 1000) + k mod 1000 = k) by (rewrite <- Z.div_mod; lia).
  set (body := (str_of_Z (k / 1000) ++ "." ++ threes (k mod 1000))%string) in *.
  destruct (n <? 0); [change (minus_sign ("-" ++ body)%string) with (true, body)|change (minus_sign ("" ++ body)%string) with (minus_sign body); rewrite D]; cbv iota beta; rewrite C, unsigned_str, threes_ok by auto;
    change (Pos.pow 10 (Pos.of_nat (String.length (threes (k mod 1000))))) with 1000%positive; rewrite (Z.mul_comm _ (Zpos 1000)), K; f_equal.
  - apply Qc_is_canon. unfold qfrac, Qcopp, Q2Qc. cbn [this]. rewrite !Qred_correct. unfold Qeq. unfold Qopp. cbn [Qnum Qden]. lia.
  - rewrite Z.mul_1_l. reflexivity.
Qed.
Lemma val3_close v : close3 (val3 v) v.
Proof.
  assert (B : (2 * 1000 * Qnum (this v) - Zpos (Qden (this v)) <= 2 * scaled3 v * Zpos (Qden (this v)) <= 2 * 1000 * Qnum (this v) + Zpos (Qden (this v)))%Z).
  { unfold scaled3. destruct (rounded_ok (1000 * Z.abs (Qnum (this v))) (Qden (this v)) ltac:(lia)) as [_ B]. destruct (Z.ltb_spec (Qnum (this v)) 0); lia. }
  unfold val3, close3, Qcle, Qcminus, Qcplus, Qcopp, qfrac, Q2Qc. cbn [this]. rewrite !Qred_correct. destruct (this v) as [n d]. cbn [Qnum Qden] in *. unfold Qle, Qplus, Qopp. cbn [Qnum Qden].
  split; rewrite ?Pos2Z.inj_mul; nia.
Qed.

(** ** characters *)
Open Scope nat_scope.
Definition mark (c : ascii) : Prop := nat_of_ascii c <> 45 /\ nat_of_ascii c <> 46 /\ (nat_of_ascii c < 48 \/ 57 < nat_of_ascii c).
Lemma digit_code d : (0 <= d <= 9)%Z -> 48 <= nat_of_ascii (M_Str.digit d) <= 57.
Proof.
  intros H. unfold M_Str.digit. rewrite nat_ascii_embedding; lia.
Qed.
Lemma fmt3_free c v : mark c -> free c (fmt3 v).
Proof.
  intros (M1 & M2 & M3). unfold fmt3. set (n := Qnum (this v)). set (d := Qden (this v)). destruct (rounded_ok (1000 * Z.abs n) d ltac:(lia)) as [P _].
  set (k := rounded (1000 * Z.abs n) d) in *. apply free_app. split. { destruct (Z.ltb n 0); [apply free_cons; split; [intros <-; apply M1; reflexivity|]|]; apply free_nil. }
  apply free_app. split. { apply int_free; auto. }
  apply free_cons. split; [intros <-; apply M2; reflexivity|]. unfold threes. pose proof (Z.mod_pos_bound k 1000 ltac:(lia)) as B. set (f := (k mod 1000)%Z) in *.
  assert (M : forall x, (0 <= x mod 10 <= 9)%Z) by (intros x; pose proof (Z.mod_pos_bound x 10 ltac:(lia)); lia).
  assert (F : forall x, (0 <= x <= 9)%Z -> M_Str.digit x <> c) by (intros x Hx <-; pose proof (digit_code x Hx); lia).
  repeat (apply free_cons; split; [apply F; auto|]); [|apply free_nil]. split; [apply Z.div_pos; lia|apply Z.lt_succ_r; apply Z.div_lt_upper_bound; lia].
Qed.
Lemma join_mark sep c l : free c sep -> Forall (free c) l -> free c (join sep l).
Proof.
  intros Hs. induction l as [|x [|y l] IH]; intros F; inversion F; subst; [apply free_nil|auto|]. change (join sep (x :: y :: l)) with (x ++ sep ++ join sep (y :: l))%string.
  apply free_app. split; auto. apply free_app. split; auto.
Qed.
Lemma unb_app a b : unbracketed (a ++ b)%string = (unbracketed a ++ unbracketed b)%string.
Proof. unfold unbracketed. induction a as [|x a IH]; [reflexivity|]. cbn [String.append list_ascii_of_string filter]. destruct (negb (Ascii.eqb x "[")); cbn [string_of_list_ascii String.append]; rewrite IH; reflexivity. Qed.
Lemma unb_free s : free "[" s -> unbracketed s = s.
Proof. unfold unbracketed. induction s as [|x s IH]; intros F; [reflexivity|]. apply free_cons in F. destruct F as [F1 F2]. cbn [list_ascii_of_string filter]. apply Ascii.eqb_neq in F1. rewrite F1. cbn [negb string_of_list_ascii]. rewrite IH; auto. Qed.

(** ** lists of numbers and rows *)
Definition numbers (l : list Qc) : string := join "," (map fmt3 l).
Lemma numbers_free c l : mark c -> c <> ","%char -> free c (numbers l).
Proof. intros M N. unfold numbers. apply join_free_c; auto. apply Forall_forall. intros s Hs. apply in_map_iff in Hs. destruct Hs as (v & <- & _). apply fmt3_free; auto. Qed.
Ltac marks := split; [vm_compute; discriminate|split; [vm_compute; discriminate|vm_compute; lia]].
Lemma numbers_read l : l <> [] -> read_numbers (numbers l) = Some (map val3 l).
Proof.
  intros N. unfold read_numbers, numbers. rewrite fields_join.
  - apply every_map. intros v _. apply number3_ok.
  - destruct l; [congruence|discriminate].
  - apply Forall_forall. intros s Hs. apply in_map_iff in Hs. destruct Hs as (v & <- & _). apply fmt3_free. marks.
Qed.
Definition rowtext (l : list Qc) : string := ("[" ++ numbers l ++ "]")%string.
Lemma read_row_ok a l z : l <> [] -> a = ""%string \/ a = "["%string -> read_row (a ++ rowtext l ++ z)%string = Some (map val3 l).
Proof.
  intros N Ha. unfold read_row, rowtext.
  assert (X : (a ++ ("[" ++ numbers l ++ "]") ++ z)%string = ((a ++ "[" ++ numbers l) ++ String "]" z)%string) by (rewrite !sapp_assoc; cbn [String.append]; rewrite ?sapp_assoc; reflexivity).
  assert (F : free "]" (numbers l)) by (apply numbers_free; [marks|discriminate]). assert (G : free "[" (numbers l)) by (apply numbers_free; [marks|discriminate]).
  rewrite X, cut_free.
  - rewrite !unb_app, (unb_free (numbers l)) by auto. destruct Ha as [ ->| ->]; apply numbers_read; auto.
  - destruct Ha as [ ->| ->]; repeat (apply free_cons; split; [discriminate|]); exact F.
Qed.
Lemma rows_read z : free "|" z -> forall ls a, ls <> [] -> Forall (fun l => l <> []) ls -> a = ""%string \/ a = "["%string ->
  every read_row (fields "|" (a ++ join "|" (map rowtext ls) ++ z)%string) = Some (map (map val3) ls).
Proof.
  intros Fz. assert (FR : forall l, free "|" (rowtext l)). { intros l. unfold rowtext. apply free_cons. split; [discriminate|]. apply free_app. split; [apply numbers_free; [marks|discriminate]|]. apply free_cons. split; [discriminate|apply free_nil]. }
  induction ls as [|l [|l' ls] IH]; intros a Hn F Ha; [congruence| |]; inversion F as [|? ? F1 F2]; subst; assert (Fa : free "|" a) by (destruct Ha as [ ->| ->]; [apply free_nil|apply free_cons; split; [discriminate|apply free_nil]]).
  - change (join "|" (map rowtext [l])) with (rowtext l). rewrite fields_split, split_free; [cbn [every]; rewrite read_row_ok by auto; reflexivity|]. apply free_app. split; auto. apply free_app. split; auto.
  - change (join "|" (map rowtext (l :: l' :: ls))) with (rowtext l ++ "|" ++ join "|" (map rowtext (l' :: ls)))%string.
    assert (X : (a ++ (rowtext l ++ "|" ++ join "|" (map rowtext (l' :: ls))) ++ z)%string = ((a ++ rowtext l ++ "") ++ String "|" ("" ++ join "|" (map rowtext (l' :: ls)) ++ z))%string).
    { rewrite !sapp_assoc. cbn [String.append]. rewrite ?sapp_assoc. reflexivity. }
    specialize (IH ""%string ltac:(discriminate) F2 (or_introl eq_refl)). set (more := ("" ++ join "|" (map rowtext (l' :: ls)) ++ z)%string) in *.
    rewrite X, fields_split, split_app, split_free by (apply free_app; split; auto; apply free_app; split; auto; apply free_nil).
    clearbody more. clear X. rewrite fields_split in IH. cbn [app every]. rewrite read_row_ok by auto. rewrite IH. reflexivity.
Qed.
Definition seentext (p : string * Qc) : string := (fst p ++ "=" ++ fmt3 (snd p))%string.
Lemma seen_read l : Forall plain_seen (map fst l) -> every read_seen (match join "," (map seentext l) with EmptyString => [] | _ => fields "," (join "," (map seentext l)) end) = Some (map (fun p => (fst p, val3 (snd p))) l).
Proof.
  intros F. assert (R : forall p, In p l -> read_seen (seentext p) = Some (fst p, val3 (snd p))).
  { intros p Hp. rewrite Forall_forall in F. destruct (F (fst p) (in_map fst _ _ Hp)) as (P1 & P2 & P3). unfold read_seen, seentext. change (fst p ++ "=" ++ fmt3 (snd p))%string with (fst p ++ String "=" (fmt3 (snd p)))%string.
    rewrite cut_free by auto. rewrite number3_ok. reflexivity. }
  destruct l as [|p l]; [reflexivity|]. set (l' := p :: l) in *.
  assert (X : match join "," (map seentext l') with EmptyString => [] | _ => fields "," (join "," (map seentext l')) end = map seentext l').
  { transitivity (fields "," (join "," (map seentext l'))).
    - assert (Y : join "," (map seentext l') <> ""%string). { unfold l'. destruct l as [|q l]; cbn [map join]; unfold seentext; destruct (fst p); discriminate. }
      destruct (join "," (map seentext l')); [congruence|reflexivity].
    - apply fields_join; [discriminate|]. apply Forall_forall. intros s Hs. apply in_map_iff in Hs. destruct Hs as (q & <- & Hq). rewrite Forall_forall in F. destruct (F (fst q) (in_map fst _ _ Hq)) as (P1 & P2 & P3).
      unfold seentext. apply free_app. split; auto. apply free_cons. split; [discriminate|]. apply fmt3_free. marks. }
  rewrite X. apply every_map. exact R.
Qed.

Theorem read_gaussian_ok g : gi_H g <> [] -> gi_M g <> [] -> gi_n g <> 0 -> Forall plain_header (gi_H g) -> Forall plain_seen (map fst (gi_meta g)) ->
  read_gaussian (ginf_repr g) = Some (gi_H g, map val3 (gi_M g), map (fun r => map (fun c => val3 (gi_E g r c)) (seq 0 (gi_n g))) (seq 0 (gi_n g)), map (fun p => (fst p, val3 (snd p))) (gi_meta g)).
Proof.
  intros NH NM Nn FH FS. unfold ginf_repr. cbv zeta.
  set (hs := join "," (gi_H g)). change (join "," (map fmt3 (gi_M g))) with (numbers (gi_M g)). set (ms := numbers (gi_M g)). change (map (fun p : string * Qc => (fst p ++ "=" ++ fmt3 (snd p))%string) (gi_meta g)) with (map seentext (gi_meta g)).
  set (os := join "," (map seentext (gi_meta g))).
  set (ls := map (fun r => map (gi_E g r) (seq 0 (gi_n g))) (seq 0 (gi_n g))).
  assert (Er : map (fun r => ("[" ++ join "," (map (fun c => fmt3 (gi_E g r c)) (seq 0 (gi_n g))) ++ "]")%string) (seq 0 (gi_n g)) = map rowtext ls).
  { unfold ls. rewrite map_map. apply map_ext. intros r. unfold rowtext, numbers. rewrite map_map. reflexivity. }
  rewrite Er. set (es := join "|" (map rowtext ls)).
  set (R4 := (", E=" ++ ("[" ++ es ++ "]") ++ ", meta=" ++ ("{" ++ os ++ "}") ++ "]")%string).
  change ("GaussianInference[H=[" ++ hs ++ "], M=[" ++ ms ++ "]" ++ R4)%string with ("GaussianInference" ++ String "[" ("H=" ++ String "[" (hs ++ "], M=[" ++ ms ++ "]" ++ R4)))%string.
  assert (Fh : free "]" hs). { apply join_free_c; [discriminate|]. apply Forall_forall. intros s Hs. rewrite Forall_forall in FH. apply (FH s Hs). }
  assert (Fm : free "]" ms) by (apply numbers_free; [marks|discriminate]).
  unfold read_gaussian. change ("GaussianInference[H=[" ++ hs ++ "], M=[" ++ ms ++ "], E=" ++ ("[" ++ es ++ "]") ++ ", meta=" ++ ("{" ++ os ++ "}") ++ "]")%string with ("GaussianInference" ++ String "[" ("H=" ++ String "[" (hs ++ String "]" (", M=" ++ String "[" (ms ++ String "]" R4)))))%string.
  rewrite cut_free by (repeat (apply free_cons; split; [discriminate|]); apply free_nil). rewrite cut_free by (repeat (apply free_cons; split; [discriminate|]); apply free_nil). rewrite cut_free by exact Fh.
  rewrite cut_free by (repeat (apply free_cons; split; [discriminate|]); apply free_nil). rewrite cut_free by exact Fm.
  change R4 with (", E" ++ String "=" (("[" ++ es ++ "]") ++ ", meta=" ++ ("{" ++ os ++ "}") ++ "]"))%string. rewrite cut_free by (repeat (apply free_cons; split; [discriminate|]); apply free_nil).
  assert (X : (("[" ++ es ++ "]") ++ ", meta=" ++ ("{" ++ os ++ "}") ++ "]")%string = (("[" ++ es ++ "], meta=") ++ String "{" (os ++ String "}" "]"))%string).
  { rewrite !sapp_assoc. cbn [String.append]. rewrite ?sapp_assoc. reflexivity. }
  assert (Fe : free "{" es). { apply join_mark; [apply free_cons; split; [discriminate|apply free_nil]|]. apply Forall_forall. intros s Hs. apply in_map_iff in Hs. destruct Hs as (l & <- & _). unfold rowtext. apply free_cons. split; [discriminate|]. apply free_app. split; [apply numbers_free; [marks|discriminate]|]. apply free_cons. split; [discriminate|apply free_nil]. }
  assert (Fo : free "}" os). { apply join_free_c; [discriminate|]. apply Forall_forall. intros s Hs. apply in_map_iff in Hs. destruct Hs as (p & <- & Hp). rewrite Forall_forall in FS. destruct (FS (fst p) (in_map fst _ _ Hp)) as (P1 & P2 & P3). unfold seentext. apply free_app. split; auto. apply free_cons. split; [discriminate|]. apply fmt3_free. marks. }
  rewrite X. rewrite cut_free by (apply free_cons; split; [discriminate|]; apply free_app; split; [exact Fe|repeat (apply free_cons; split; [discriminate|]); apply free_nil]).
  rewrite cut_free by exact Fo. unfold ms at 1. rewrite numbers_read by auto. unfold es.
  assert (Nl : ls <> []) by (unfold ls; destruct (gi_n g); [congruence|discriminate]).
  rewrite (rows_read "], meta=") ; auto.
  - unfold os. rewrite seen_read by auto. unfold hs. rewrite fields_join; auto. { do 3 f_equal. unfold ls. rewrite map_map. apply map_ext. intros r. rewrite map_map. reflexivity. }
    apply Forall_forall. intros s Hs. rewrite Forall_forall in FH. apply (FH s Hs).
  - repeat (apply free_cons; split; [discriminate|]); apply free_nil.
  - unfold ls. apply Forall_forall. intros l Hl. apply in_map_iff in Hl. destruct Hl as (r & <- & _). destruct (gi_n g); [congruence|discriminate].
Qed.
Lemma close_list l : Forall2 close3 (map val3 l) l.
Proof. induction l; constructor; auto. apply val3_close. Qed.
Lemma F2_map {A B} (R : B -> A -> Prop) (f : A -> B) l : (forall a, R (f a) a) -> Forall2 R (map f l) l.
Proof. intros H. induction l; constructor; auto. Qed.
Lemma F2_maps {A B C} (R : B -> C -> Prop) (f : A -> B) (g : A -> C) l : (forall a, R (f a) (g a)) -> Forall2 R (map f l) (map g l).
Proof. intros H. induction l; constructor; auto. Qed.
Theorem c103_gauss g : gwf g -> gi_H g <> [] -> Forall plain_header (gi_H g) -> Forall plain_seen (map fst (gi_meta g)) ->
  exists m e o, read_gaussian (ginf_repr g) = Some (gi_H g, m, e, o) /\ Forall2 close3 m (map (mean_of g) (gi_H g)) /\
    Forall2 (fun row s => Forall2 close3 row (map (cov_of g s) (gi_H g))) e (gi_H g) /\
    map fst o = map fst (gi_meta g) /\ Forall2 close3 (map snd o) (map snd (gi_meta g)).
Proof.
  intros (W1 & W2 & W3 & _) NH FH FS. do 3 eexists. split.
  - apply read_gaussian_ok; auto; [intros E; rewrite E in W2; destruct (gi_H g); [congruence|discriminate]|]. rewrite W3. destruct (gi_H g); [congruence|discriminate].
  - split. { assert (E : gi_M g = map (mean_of g) (gi_H g)). { apply nth_ext with 0%Qc 0%Qc; [rewrite map_length; auto|]. intros n Hn. rewrite W2 in Hn. rewrite (nth_indep (map (mean_of g) (gi_H g)) 0%Qc (mean_of g ""%string)) by (rewrite map_length; auto). rewrite map_nth. unfold mean_of.
        f_equal.
        assert (Hs : In (nth n (gi_H g) ""%string) (gi_H g)) by (apply nth_In; auto). symmetry. eapply (NoDup_nth (gi_H g) ""%string); eauto; [apply position_lt; auto|]. apply position_nth; auto. }
      rewrite <- E. apply close_list. }
    split. { rewrite W3, <- (position_all _ W1), map_map. apply F2_map. intros s. rewrite map_map. apply F2_maps. intros t. apply val3_close. }
    split; [rewrite map_map; reflexivity|]. rewrite map_map. cbn [snd]. rewrite <- (map_map snd val3). apply close_list.
Qed.
