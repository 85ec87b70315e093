(** libpgm networks as JSON text. *)
From Coq Require Import DecimalString.
From Verif Require Import Py M_Graph M_Node M_Pptc M_Factory M_Serde M_Csv M_Json M_LibJson Spec SpecNet SpecEv SpecRe SpecFactory SpecJson SpecLibJson L_Base L_Serde L_Json L_PD L_P1 L_R12.
Local Open Scope string_scope.
Local Open Scope list_scope.

(** ** what json.loads gives has no key twice *)
Lemma dset_keys {V} (d : list (string * V)) k v : NoDup (map fst d) -> NoDup (map fst (dset d k v)).
Proof. intros H. change (NoDup (dkeys (dset d k v))). apply dset_NoDup. exact H. Qed.
Lemma dset_all {V} (P : V -> Prop) (d : list (string * V)) k v : P v -> Forall (fun p => P (snd p)) d -> Forall (fun p => P (snd p)) (dset d k v).
Proof. intros Hv. induction 1 as [|[k' x] d Hx F IH]; cbn [dset]; [constructor; auto|]. destruct (eqb k k'); constructor; auto. Qed.
Lemma fold_uniq l : Forall (fun p => uniq (snd p)) l -> forall d : list (string * json), NoDup (map fst d) -> Forall (fun p => uniq (snd p)) d ->
  let d' := fold_left (fun d kv => dset d (fst kv) (snd kv)) l d in NoDup (map fst d') /\ Forall (fun p => uniq (snd p)) d'.
Proof.
  induction 1 as [|[k x] l Hx F IH]; intros d Hd Fd; simpl; auto. apply IH; [apply dset_keys, Hd|]. apply (dset_all uniq); auto.
Qed.
Section Codec.
  Context (read : string -> option Qc).
  Lemma reads_uniq f : (forall s v r, value read f s = Some (v, r) -> uniq v) /\ (forall s l r, items read f s = Some (l, r) -> Forall uniq l) /\
    (forall s l r, members read f s = Some (l, r) -> Forall (fun p => uniq (snd p)) l).
  Proof.
    induction f as [|f [I1 [I2 I3]]]; [repeat split; intros; discriminate|]. split; [|split].
    - intros s v r. rewrite value_S. destruct (skip s) as [|c t]; [discriminate|].
      destruct (Ascii.eqb c dquote). { destruct (scan t) as [[x r']|]; [|discriminate]. intros H. injection H as <- <-. constructor. }
      destruct (Ascii.eqb c "["). { destruct (skip t) as [|d r']; [discriminate|]. destruct (Ascii.eqb d "]"). { intros H. injection H as <- <-. constructor. constructor. }
        destruct (items read f t) as [[l r2]|] eqn:E; [|discriminate]. intros H. injection H as <- <-. constructor. apply (I2 _ _ _ E). }
      destruct (Ascii.eqb c "{"). { destruct (skip t) as [|d r']; [discriminate|]. destruct (Ascii.eqb d "}"). { intros H. injection H as <- <-. constructor; constructor. }
        destruct (members read f t) as [[l r2]|] eqn:E; [|discriminate]. intros H. injection H as <- <-. destruct (fold_uniq l (I3 _ _ _ E) [] (NoDup_nil _) (Forall_nil _)). constructor; auto. }
      destruct (literal (c :: t)) as [[x r']|] eqn:E.
      + intros H. injection H as <- <-. revert E. unfold literal. destruct (drop_word _ _); [intros H; injection H as <- <-; constructor|]. destruct (drop_word _ _); [intros H; injection H as <- <-; constructor|]. destruct (drop_word _ _); [intros H; injection H as <- <-; constructor|discriminate].
      + unfold number. destruct (span (c :: t)) as [x r']. destruct (existsb pointed x). { destruct (read _); [|discriminate]. intros H. injection H as <- <-. constructor. } destruct (int_of_str _); [|discriminate]. intros H. injection H as <- <-. constructor.
    - intros s l r. rewrite items_S. destruct (value read f s) as [[x r']|] eqn:E; [|discriminate]. destruct (skip r') as [|d r2]; [discriminate|]. destruct (Ascii.eqb d "]"). { intros H. injection H as <- <-. constructor; eauto. }
      destruct (Ascii.eqb d ","); [|discriminate]. destruct (items read f r2) as [[l' r3]|] eqn:E2; [|discriminate]. intros H. injection H as <- <-. constructor; eauto.
    - intros s l r. rewrite members_S. destruct (skip s) as [|c t]; [discriminate|]. destruct (Ascii.eqb c dquote); [|discriminate]. destruct (scan t) as [[k r0]|]; [|discriminate]. destruct (skip r0) as [|d r1]; [discriminate|]. destruct (Ascii.eqb d ":"); [|discriminate].
      destruct (value read f r1) as [[x r']|] eqn:E; [|discriminate]. destruct (skip r') as [|d' r2]; [discriminate|]. destruct (Ascii.eqb d' "}"). { intros H. injection H as <- <-. constructor; simpl; eauto. }
      destruct (Ascii.eqb d' ","); [|discriminate]. destruct (members read f r2) as [[l' r3]|] eqn:E2; [|discriminate]. intros H. injection H as <- <-. constructor; simpl; eauto.
  Qed.
  Theorem loads_uniq s v : loads read s = Ok v -> uniq v.
  Proof.
    unfold loads. destruct (value read _ _) as [[x r]|] eqn:E; [|discriminate]. destruct (skip r); [|discriminate]. intros H. injection H as <-. apply (proj1 (reads_uniq _) _ _ _ E).
  Qed.
End Codec.

(** ** reading is the relation *)
Lemma bind_ok {A B} (x : res A) (f : A -> res B) y : rbind x f = Ok y <-> exists a, x = Ok a /\ f a = Ok y.
Proof. destruct x as [a|e]; simpl; split; [eauto|intros [a' [E H]]; injection E as <-; auto|discriminate|intros [a [E _]]; discriminate]. Qed.
Lemma mapM_ok {A B} (f : A -> res B) (R : B -> A -> Prop) l ys : (forall a b, In a l -> (f a = Ok b <-> R b a)) -> (mapM f l = Ok ys <-> Forall2 R ys l).
Proof.
  revert ys. induction l as [|a l IH]; intros ys H; cbn [mapM].
  - split; [intros E; injection E as <-; constructor|intros E; inversion E; auto].
  - rewrite bind_ok. split.
    + intros [b [E1 E2]]. apply bind_ok in E2. destruct E2 as [bs [E2 E3]]. injection E3 as <-. constructor; [apply H; simpl; auto|]. apply IH; [intros; apply H; simpl; auto|auto].
    + intros E. inversion E as [|b ? bs ? R1 R2]; subst. exists b. split; [apply H; simpl; auto|]. apply bind_ok. exists bs. split; auto. apply IH; auto. intros; apply H; simpl; auto.
Qed.
Lemma member_has v k x : uniq v -> (member v k = Ok x <-> has v k x).
Proof.
  intros U. unfold member, has. destruct v as [z|q|s|b| |l|l]; try (split; [discriminate|intros [l' [E _]]; discriminate]). unfold dgetE. inversion U as [| | | | | |? ND _]; subst. split.
  - destruct (dget l k) as [y|] eqn:E; [|discriminate]. intros H. injection H as <-. exists l. split; auto. split; auto. apply dget_In, E.
  - intros [l' [E [_ Hx]]]. injection E as <-. rewrite (proj2 (dget_In_NoDup l k x ND) Hx). auto.
Qed.
Lemma has_uniq v k x : uniq v -> has v k x -> uniq x.
Proof. intros U [l [-> [_ Hx]]]. inversion U as [| | | | | |? _ F]; subst. rewrite Forall_forall in F. apply (F _ Hx). Qed.
Lemma list_ok v l : as_list v = Ok l <-> v = JsList l.
Proof. destruct v; simpl; split; intros H; try discriminate; injection H as <-; auto. Qed.
Lemma obj_ok v l : as_obj v = Ok l <-> v = JsObj l.
Proof. destruct v; simpl; split; intros H; try discriminate; injection H as <-; auto. Qed.
Lemma strs_ok l ys : mapM as_str l = Ok ys <-> l = map JsStr ys.
Proof.
  rewrite (mapM_ok as_str (fun y x => x = JsStr y)). 2:{ intros a b _. destruct a; simpl; split; intros H; try discriminate; injection H as <-; auto. }
  split; [induction 1; simpl; subst; auto|]. intros ->. induction ys; simpl; constructor; auto.
Qed.
Lemma nums_ok l ys : mapM as_num l = Ok ys <-> Forall2 is_num ys l.
Proof.
  apply mapM_ok. intros a b _. unfold is_num. destruct a; simpl; split; intros H; try discriminate; try (destruct H as [H|[z' [H _]]]; discriminate).
  - injection H as <-. right. eauto.
  - destruct H as [H|[z' [H ->]]]; [discriminate|]. injection H as <-. auto.
  - injection H as <-. auto.
  - destruct H as [H|[z' [H _]]]; [|discriminate]. injection H as <-. auto.
Qed.
Lemma row_ok x l : (r <- as_list x ;; mapM as_num r) = Ok l <-> is_row l x.
Proof. rewrite bind_ok. unfold is_row. split; intros [r [A B]]; exists r; (split; [apply list_ok, A|apply nums_ok, B]). Qed.
Lemma cprob_ok c x : (match x with
         | JsList l => l <- mapM as_num l ;; Ok (Plain l)
         | JsObj l => d <- mapM (fun p => l <- as_list (snd p) ;; l <- mapM as_num l ;; Ok (fst p, l)) l ;; Ok (Keyed d)
         | _ => Err TypeError
         end) = Ok c <-> is_cprob c x.
Proof.
  assert (K : forall m d, mapM (fun p : string * json => l <- as_list (snd p) ;; l <- mapM as_num l ;; Ok (fst p, l)) m = Ok d <-> Forall2 (fun p y => fst p = fst y /\ is_row (snd p) (snd y)) d m).
  { intros m d. apply mapM_ok. intros [k y] [k' l] _. cbn [fst snd]. rewrite bind_ok. split.
    - intros [r [A B]]. apply bind_ok in B. destruct B as [l' [B C]]. injection C as <- <-. split; auto. apply row_ok, bind_ok. eauto.
    - intros [-> H]. apply row_ok, bind_ok in H. destruct H as [r [A B]]. exists r. split; auto. apply bind_ok. eauto. }
  destruct x as [z|q|s|b| |l|l]; try (split; [discriminate|]; destruct c; simpl; [intros [xs [E _]]; discriminate|intros [m [E _]]; discriminate]).
  - rewrite bind_ok. split.
    + intros [l' [A B]]. injection B as <-. exists l. split; auto. apply nums_ok, A.
    + destruct c; simpl; [|intros [m [E _]]; discriminate]. intros [xs [E F]]. injection E as <-. exists l0. split; auto. apply nums_ok, F.
  - rewrite bind_ok. split.
    + intros [d [A B]]. injection B as <-. exists l. split; auto. apply K, A.
    + destruct c; simpl; [intros [xs [E _]]; discriminate|]. intros [m [E F]]. injection E as <-. exists d. split; auto. apply K, F.
Qed.
Lemma parents_ok ps x : (match x with JsNull => Ok None | JsList l => l <- mapM as_str l ;; Ok (Some l) | _ => Err TypeError end) = Ok ps <-> x = is_parents ps.
Proof.
  destruct x as [z|q|s|b| |l|l]; try (split; [discriminate|destruct ps; discriminate]).
  - destruct ps; simpl; split; intros H; try discriminate; auto.
  - rewrite bind_ok. split.
    + intros [l' [A B]]. injection B as <-. apply strs_ok in A. subst. reflexivity.
    + destruct ps as [l'|]; [|discriminate]. intros H. injection H as ->. exists l'. split; auto. apply strs_ok. auto.
Qed.
Lemma vdata_ok d v : uniq v -> (json_vdata v = Ok d <-> is_vdata d v).
Proof.
  intros U. unfold json_vdata, is_vdata. split.
  - intros H. repeat (apply bind_ok in H; destruct H as [?x [?A H]]). injection H as <-. cbn [vd_vals vd_ord vd_parents vd_cprob].
    apply list_ok in A0. apply strs_ok in A1. subst. apply cprob_ok in A7. apply parents_ok in A5. subst. apply member_has in A, A2, A4, A6; auto.
    assert (E : x2 = JsInt x3) by (destruct x2; simpl in A3; try discriminate; injection A3 as <-; auto). subst. split; auto. split; auto. split; auto. eauto.
  - intros [A [B [C [c [D E]]]]]. apply member_has in A, B, C, D; auto. rewrite A. cbn [rbind strings as_list]. rewrite (proj2 (strs_ok _ (vd_vals d)) eq_refl). cbn [rbind]. rewrite B. cbn [rbind as_int]. rewrite C. cbn [rbind].
    rewrite (proj2 (parents_ok (vd_parents d) _) eq_refl). cbn [rbind]. rewrite D. cbn [rbind]. rewrite (proj2 (cprob_ok _ _) E). destruct d; reflexivity.
Qed.
Theorem libpgm_value bn v : uniq v -> (json_libpgm v = Ok bn <-> is_libpgm bn v).
Proof.
  intros U. unfold json_libpgm, is_libpgm.
  assert (K : forall m d, Forall (fun p => uniq (snd p)) m -> (mapM (fun p : string * json => x <- json_vdata (snd p) ;; Ok (fst p, x)) m = Ok d <-> Forall2 (fun p y => fst p = fst y /\ is_vdata (snd p) (snd y)) d m)).
  { intros m d F. apply mapM_ok. intros [k y] [k' x] Hin. cbn [fst snd]. rewrite Forall_forall in F. specialize (F _ Hin). cbn [snd] in F. rewrite bind_ok. split.
    - intros [x' [A B]]. injection B as <- <-. split; auto. apply vdata_ok; auto.
    - intros [-> A]. exists x. split; auto. apply vdata_ok; auto. }
  split.
  - intros H. repeat (apply bind_ok in H; destruct H as [?x [?A H]]). injection H as <-. cbn [lp_V lp_data]. apply member_has in A, A0, A1; auto. apply list_ok in A2. apply strs_ok in A3. apply obj_ok in A4. subst.
    split; auto. split; [eauto|]. exists x4. split; auto. apply K; auto. pose proof (has_uniq _ _ _ U A1) as UU. inversion UU; auto.
  - intros [A [[e B] [m [C D]]]]. pose proof (has_uniq _ _ _ U C) as UU. apply member_has in A, B, C; auto. rewrite A. cbn [rbind]. rewrite B. cbn [rbind]. rewrite C. cbn [rbind strings as_list]. rewrite (proj2 (strs_ok _ (lp_V bn)) eq_refl). cbn [rbind as_obj].
    rewrite (proj2 (K m (lp_data bn) ltac:(inversion UU; auto)) D). destruct bn; reflexivity.
Qed.
Theorem c114 read s v bn : loads read s = Ok v -> is_libpgm bn v -> libpgm_ok bn -> exists ops, from_libpgm_json read s = Ok (build ops) /\ well_shaped ops /\
  describes ops (lp_V bn) (lp_ord bn) (lp_vals bn) (lp_pars bn) (lp_pars bn) (lp_entry bn) /\
  forall c a, In c (lp_V bn) -> okon (net_dom ops) (net_par ops (lp_ord bn c) ++ [lp_ord bn c]) a ->
    cpt_entry (net_of ops) (lp_ord bn c) a = lp_entry bn c (fun x => a (lp_ord bn x)).
Proof.
  intros Hs Hv OK. destruct (c38' bn OK) as [ops [E H]]. exists ops. split; auto. unfold from_libpgm_json. rewrite Hs. cbn [rbind]. rewrite (proj2 (libpgm_value bn v (loads_uniq _ _ _ Hs)) Hv). exact E.
Qed.
Theorem c114_read read s b : from_libpgm_json read s = Ok b -> exists v bn, loads read s = Ok v /\ is_libpgm bn v /\ from_libpgm bn = Ok b.
Proof.
  unfold from_libpgm_json. intros H. apply bind_ok in H. destruct H as [v [H1 H]]. apply bind_ok in H. destruct H as [bn [H2 H3]]. exists v, bn. split; auto. split; auto. apply libpgm_value; auto. apply (loads_uniq _ _ _ H1).
Qed.
Lemma lp_linked bn ops : describes ops (lp_V bn) (lp_ord bn) (lp_vals bn) (lp_pars bn) (lp_pars bn) (lp_entry bn) -> lp_connected bn -> connected ops.
Proof.
  intros D C u v Hu Hv. apply (Permutation_in _ (ds_vars _ _ _ _ _ _ _ D)), in_map_iff in Hu, Hv. destruct Hu as [x [<- Hx]], Hv as [y [<- Hy]].
  specialize (C x y Hx Hy). clear Hx Hy. induction C as [x|x y z Hxy Hyz IH].
  - constructor.
  - econstructor; [|exact IH]. assert (K : forall p c, In c (lp_V bn) /\ In p (lp_pars bn c) -> is_parent (net_of ops) (lp_ord bn p) (lp_ord bn c)).
    { intros p c [Hc Hp]. split. { apply (Permutation_in _ (Permutation_sym (ds_vars _ _ _ _ _ _ _ D))), in_map, Hc. } cbn [net_of par]. rewrite (ds_par _ _ _ _ _ _ _ D) by auto. apply in_map; auto. }
    destruct Hxy as [H|H]; [left|right]; auto.
Qed.
Theorem c114_posteriors read s v bn : loads read s = Ok v -> is_libpgm bn v -> libpgm_ok bn -> lp_connected bn -> exists ops, from_libpgm_json read s = Ok (build ops) /\
  describes ops (lp_V bn) (lp_ord bn) (lp_vals bn) (lp_pars bn) (lp_pars bn) (lp_entry bn) /\
  forall o h, ord_ok o -> valid_history (net_of ops) h -> exists j t, session o ops h = Ok j /\ get_posteriors j = Ok t /\ exact_table (net_of ops) (net_name ops) (shown (net_of ops) (calls h)) t.
Proof.
  intros Hs Hv OK C. destruct (c114 read s v bn Hs Hv OK) as [ops [E [W [D _]]]]. exists ops. split; auto. split; auto. intros o h Ho Hh. apply session_exact; auto. apply (lp_linked bn); auto.
Qed.

(** decimals *)
Definition read_dec (s : string) : option Qc :=
  match split "." s with
  | [a; b] => match int_of_str a, int_of_str b with Ok m, Ok n => Some (Q2Qc ((m * 10 ^ Z.of_nat (String.length b) + n) # Z.to_pos (10 ^ Z.of_nat (String.length b)))) | _, _ => None end
  | _ => None
  end.

(** tests/graph/test_factory.py:16-77 as json.dumps writes it *)
Definition student_text : string :=
  ("{""V"": [""Letter"", ""Grade"", ""Intelligence"", ""SAT"", ""Difficulty""], ""E"": [[""Difficulty"", ""Grade""], [""Intelligence"", ""Grade""], [""Intelligence"", ""SAT""], [""Grade"", ""Letter""]], """ ++
   "Vdata"": {""Letter"": {""ord"": 4, ""numoutcomes"": 2, ""vals"": [""weak"", ""strong""], ""parents"": [""Grade""], ""children"": null, ""cprob"": {""['A']"": [0.1, 0.9], ""['B']"": [0.4, 0.6], ""['C']"": [0.99, 0.01]}}" ++
   ", ""SAT"": {""ord"": 3, ""numoutcomes"": 2, ""vals"": [""lowscore"", ""highscore""], ""parents"": [""Intelligence""], ""children"": null, ""cprob"": {""['low']"": [0.95, 0.05], ""['high']"": [0.2, 0.8]}}" ++
   ", ""Grade"": {""ord"": 2, ""numoutcomes"": 3, ""vals"": [""A"", ""B"", ""C""], ""parents"": [""Difficulty"", ""Intelligence""], ""children"": [""Letter""], ""cprob"": {""['easy', 'low']"": [0.3, 0.4, 0.3], ""['easy', 'high']"": [0.9, 0.08, 0.02], ""['hard', 'low']"": [0.05, 0.25, 0.7], ""['hard', 'high']"": [0.5, 0.3, 0.2]}}" ++
   ", ""Intelligence"": {""ord"": 1, ""numoutcomes"": 2, ""vals"": [""low"", ""high""], ""parents"": null, ""children"": [""SAT"", ""Grade""], ""cprob"": [0.7, 0.3]}" ++
   ", ""Difficulty"": {""ord"": 0, ""numoutcomes"": 2, ""vals"": [""easy"", ""hard""], ""parents"": null, ""children"": [""Grade""], ""cprob"": [0.6, 0.4]}}}")%string.
Definition ok_or {A} (d : A) (x : res A) : A := match x with Ok a => a | Err _ => d end.
Definition is_okb {A} (x : res A) : bool := match x with Ok _ => true | Err _ => false end.
Lemma ok_or_ok {A} (d : A) x : is_okb x = true -> x = Ok (ok_or d x).
Proof. destruct x; [reflexivity|discriminate]. Qed.
Definition student_value : json := ok_or JsNull (loads read_dec student_text).
Definition student_lib : libpgm := ok_or (mkLib [] []) (json_libpgm student_value).
Lemma student_loads : loads read_dec student_text = Ok student_value.
Proof. apply ok_or_ok. vm_compute. reflexivity. Qed.
Lemma student_is : is_libpgm student_lib student_value.
Proof. apply libpgm_value. { apply (loads_uniq _ _ _ student_loads). } apply ok_or_ok. vm_compute. reflexivity. Qed.
Lemma student_ok : libpgm_ok student_lib.
Proof. apply libpgm_okb_ok. vm_compute. reflexivity. Qed.
(** every variable is joined to [hub] by the steps listed *)
Fixpoint stepsb (bn : libpgm) (x : string) (l : list string) : bool :=
  match l with [] => true | y :: l => ((mem y (lp_V bn) && mem x (lp_pars bn y)) || (mem x (lp_V bn) && mem y (lp_pars bn x))) && stepsb bn y l end.
Lemma steps_path bn l : forall x, stepsb bn x l = true -> path (sym (fun p c => In c (lp_V bn) /\ In p (lp_pars bn c))) x (last l x).
Proof.
  induction l as [|y l IH]; intros x H; [constructor|]. cbn [stepsb] in H. apply andb_true_iff in H. destruct H as [H1 H2]. assert (E : last (y :: l) x = last l y) by (destruct l; [reflexivity|]; cbn [last]; clear; revert s; induction l; intros; simpl; auto).
  rewrite E. apply path_step with y; auto. apply orb_true_iff in H1. destruct H1 as [H1|H1]; apply andb_true_iff in H1; destruct H1 as [A B]; apply mem_In in A, B; [left|right]; auto.
Qed.
Lemma steps_connected bn hub (way : string -> list string) : forallb (fun x => stepsb bn x (way x) && String.eqb (last (way x) x) hub) (lp_V bn) = true -> lp_connected bn.
Proof.
  intros H x y Hx Hy. rewrite forallb_forall in H.
  assert (G : forall z, In z (lp_V bn) -> path (sym (fun p c => In c (lp_V bn) /\ In p (lp_pars bn c))) z hub).
  { intros z Hz. specialize (H z Hz). apply andb_true_iff in H. destruct H as [A B]. apply String.eqb_eq in B. rewrite <- B. apply steps_path, A. }
  apply path_trans with hub; auto. apply path_sym; auto. intros a b [K|K]; [right|left]; auto.
Qed.
Lemma student_connected : lp_connected student_lib.
Proof. apply (steps_connected _ "Grade" (fun x => if String.eqb x "Grade" then [] else if String.eqb x "SAT" then ["Intelligence"; "Grade"] else ["Grade"])). vm_compute. reflexivity. Qed.
