(** JSON text reads back. *)
From Coq Require Import DecimalString.
From Verif Require Import Py M_Graph M_Node M_Pptc M_Serde M_Json SpecJson L_Base L_Table L_Serde.
Open Scope nat_scope.
Local Open Scope char_scope.
Local Open Scope list_scope.

Section Ind.
  Context (P : json -> Prop) (Hi : forall z, P (JsInt z)) (Hf : forall q, P (JsFloat q)) (Hs : forall s, P (JsStr s)) (Hb : forall b, P (JsBool b)) (Hn : P JsNull)
    (Hl : forall l, Forall P l -> P (JsList l)) (Ho : forall l, Forall (fun kv => P (snd kv)) l -> P (JsObj l)).
  Fixpoint json_rec2 (v : json) : P v :=
    match v with
    | JsInt z => Hi z | JsFloat q => Hf q | JsStr s => Hs s | JsBool b => Hb b | JsNull => Hn
    | JsList l => Hl l ((fix go (l : list json) : Forall P l := match l with [] => Forall_nil _ | x :: l => Forall_cons x (json_rec2 x) (go l) end) l)
    | JsObj l => Ho l ((fix go (l : list (string * json)) : Forall (fun kv => P (snd kv)) l := match l with [] => Forall_nil _ | kx :: l => Forall_cons kx (json_rec2 (snd kx)) (go l) end) l)
    end.
End Ind.

(** ** strings *)
Lemma esc_scan c s : scan (esc c ++ s) = match scan s with Some (t, r) => Some (c :: t, r) | None => None end.
Proof. destruct c as [b0 b1 b2 b3 b4 b5 b6 b7]. destruct b0, b1, b2, b3, b4, b5, b6, b7; reflexivity. Qed.
Lemma scan_all l r : scan (flat_map esc l ++ dquote :: r) = Some (l, r).
Proof. induction l as [|c l IH]; [reflexivity|]. simpl flat_map. rewrite <- app_assoc, esc_scan, IH. reflexivity. Qed.
Lemma chars_back s : string_of_list_ascii (chars s) = s. Proof. apply string_of_list_ascii_of_string. Qed.
Definition plainb (c : ascii) : bool := Ascii.eqb c newline || (Nat.leb 32 (nat_of_ascii c) && Nat.leb (nat_of_ascii c) 126).
Lemma plainb_ok l : forallb plainb l = true -> Forall plain l.
Proof.
  intros H. apply Forall_forall. intros c Hc. rewrite forallb_forall in H. specialize (H c Hc). unfold plainb in H. apply orb_true_iff in H.
  destruct H as [H|H]; [left; apply Ascii.eqb_eq; auto|]. right. apply andb_true_iff in H. destruct H as [A B]. apply Nat.leb_le in A. apply Nat.leb_le in B. auto.
Qed.
Lemma esc_plain c : Forall plain (esc c).
Proof. apply plainb_ok. destruct c as [b0 b1 b2 b3 b4 b5 b6 b7]. destruct b0, b1, b2, b3, b4, b5, b6, b7; vm_compute; reflexivity. Qed.

(** ** white space *)
Lemma skip_repeat n s : skip (repeat " " n ++ s) = skip s. Proof. induction n; simpl; auto. Qed.
Lemma skip_line ind lvl s : skip (line ind lvl ++ s) = skip s. Proof. unfold line. destruct ind; auto. simpl. apply skip_repeat. Qed.
Lemma between_ok ind lvl : exists w, between ind lvl = "," :: w /\ forall s, skip (w ++ s) = skip s.
Proof. unfold between. destruct ind as [k|]; eexists; (split; [reflexivity|]); [apply skip_line|reflexivity]. Qed.

(** ** numbers *)
Lemma numeric_first c : numeric c = true -> space c = false /\ Ascii.eqb c dquote = false /\ Ascii.eqb c "[" = false /\ Ascii.eqb c "{" = false /\ Ascii.eqb c "]" = false /\ Ascii.eqb c "}" = false /\ plainb c = true.
Proof. destruct c as [b0 b1 b2 b3 b4 b5 b6 b7]. destruct b0, b1, b2, b3, b4, b5, b6, b7; vm_compute; intros H; try discriminate H; repeat split. Qed.
Lemma literal_none c t : numeric c = true -> literal (c :: t) = None.
Proof. intros H. unfold literal. cbn [chars list_ascii_of_string drop_word]. destruct c as [b0 b1 b2 b3 b4 b5 b6 b7]. destruct b0, b1, b2, b3, b4, b5, b6, b7; try discriminate H; reflexivity. Qed.
Definition stops (r : list ascii) : Prop := match r with [] => True | c :: _ => numeric c = false end.
Lemma span_all t r : Forall (fun c => numeric c = true) t -> stops r -> span (t ++ r) = (t, r).
Proof.
  induction 1 as [|c t Hc F IH]; intros Hr; simpl. { destruct r as [|c r]; simpl in *; auto. rewrite Hr. auto. } rewrite Hc, IH by auto. auto.
Qed.
Lemma uint_digits d : Forall (fun c => digitb c = true) (chars (NilEmpty.string_of_uint d)).
Proof. induction d; simpl; constructor; auto. Qed.
Lemma nz_digits d : Forall (fun c => digitb c = true) (chars (NilZero.string_of_uint d)) /\ chars (NilZero.string_of_uint d) <> [].
Proof. destruct d as [|d|d|d|d|d|d|d|d|d|d]; (split; [|discriminate]); [repeat constructor|..]; simpl; constructor; auto; apply uint_digits. Qed.
Lemma digit_numeric c : digitb c = true -> numeric c = true /\ pointed c = false.
Proof. intros H. split; [unfold numeric; rewrite H; auto|]. revert H. destruct c as [b0 b1 b2 b3 b4 b5 b6 b7]. destruct b0, b1, b2, b3, b4, b5, b6, b7; vm_compute; congruence. Qed.
Lemma int_chars z : Forall (fun c => numeric c = true) (chars (str_of_Z z)) /\ existsb pointed (chars (str_of_Z z)) = false /\ chars (str_of_Z z) <> [].
Proof.
  assert (G : forall t, Forall (fun c => digitb c = true) t -> Forall (fun c => numeric c = true) t /\ existsb pointed t = false).
  { induction 1 as [|c t Hc F [I1 I2]]; simpl; auto. destruct (digit_numeric c Hc) as [A B]. rewrite B. auto. }
  unfold str_of_Z, NilZero.string_of_int. destruct (Z.to_int z) as [d|d]; destruct (nz_digits d) as [A B]; destruct (G _ A) as [C D]; [auto|]. simpl. split; [constructor; auto|]. split; auto. discriminate.
Qed.

Section Codec.
  Context (show : Qc -> string) (read : string -> option Qc) (FF : float_format show read) (ind : option nat).
  Notation dump := (dump show ind).
  Notation value := (value read).
  Notation items := (items read).
  Notation members := (members read).
  Lemma show_some q : chars (show q) <> [].
  Proof using FF. intros E. destruct (FF q) as [_ [_ H]]. rewrite E in H. discriminate. Qed.
  (** the first character *)
  Lemma dump_first lvl v : exists c t, dump lvl v = c :: t /\ space c = false /\ Ascii.eqb c "]" = false.
  Proof using FF.
    destruct v as [z|q|s|[|]| |[|x l]|[|[k x] l]]; simpl; try (eexists; eexists; split; [reflexivity|split; reflexivity]).
    - destruct (int_chars z) as [A [_ B]]. destruct (chars (str_of_Z z)) as [|c t]; [congruence|]. inversion A as [|? ? Ac At]; subst. exists c, t. split; auto. destruct (numeric_first c Ac) as [H1 [_ [_ [_ [H2 _]]]]]; auto.
    - destruct (FF q) as [_ [A _]]. pose proof (show_some q) as B. destruct (chars (show q)) as [|c t]; [congruence|]. inversion A as [|? ? Ac At]; subst. exists c, t. split; auto. destruct (numeric_first c Ac) as [H1 [_ [_ [_ [H2 _]]]]]; auto.
  Qed.
  Lemma value_S f s : value (S f) s =
        match skip s with
        | [] => None
        | c :: t =>
            if Ascii.eqb c dquote then match scan t with Some (x, r) => Some (JsStr (string_of_list_ascii x), r) | None => None end
            else if Ascii.eqb c "[" then
              match skip t with
              | d :: r => if Ascii.eqb d "]" then Some (JsList [], r) else match items f t with Some (l, r) => Some (JsList l, r) | None => None end
              | [] => None
              end
            else if Ascii.eqb c "{" then
              match skip t with
              | d :: r => if Ascii.eqb d "}" then Some (JsObj [], r)
                          else match members f t with Some (l, r) => Some (JsObj (fold_left (fun d kv => dset d (fst kv) (snd kv)) l []), r) | None => None end
              | [] => None
              end
            else match literal (c :: t) with Some x => Some x | None => number read (c :: t) end
        end.
  Proof using. reflexivity. Qed.
  Lemma items_S f s : items (S f) s =
        match value f s with
        | None => None
        | Some (x, r) =>
            match skip r with
            | [] => None
            | d :: r => if Ascii.eqb d "]" then Some ([x], r)
                        else if Ascii.eqb d "," then match items f r with Some (l, r) => Some (x :: l, r) | None => None end
                        else None
            end
        end.
  Proof using. reflexivity. Qed.
  Lemma members_S f s : members (S f) s =
        match skip s with
        | [] => None
        | c :: t =>
            if Ascii.eqb c dquote then
              match scan t with
              | None => None
              | Some (k, r) =>
                  match skip r with
                  | [] => None
                  | d :: r =>
                      if Ascii.eqb d ":" then
                        match value f r with
                        | None => None
                        | Some (x, r) =>
                            match skip r with
                            | [] => None
                            | d :: r => if Ascii.eqb d "}" then Some ([(string_of_list_ascii k, x)], r)
                                        else if Ascii.eqb d "," then match members f r with Some (l, r) => Some ((string_of_list_ascii k, x) :: l, r) | None => None end
                                        else None
                            end
                        end
                      else None
                  end
              end
            else None
        end.
  Proof using. reflexivity. Qed.
  Lemma value_skip f s s' : skip s = skip s' -> value f s = value f s'.
  Proof using. clear. intros E. destruct f; auto. rewrite !value_S. rewrite E. auto. Qed.
  Lemma items_skip f s s' : skip s = skip s' -> items f s = items f s'.
  Proof using. clear. intros E. destruct f; auto. rewrite !items_S. rewrite (value_skip f s s' E). auto. Qed.
  Lemma members_skip f s s' : skip s = skip s' -> members f s = members f s'.
  Proof using. clear. intros E. destruct f; auto. rewrite !members_S. rewrite E. auto. Qed.

  Lemma value_sp f u : value f (" " :: u) = value f u.
  Proof using. apply value_skip. reflexivity. Qed.

  Fixpoint need (v : json) : nat :=
    match v with
    | JsList l => S (fold_right (fun x n => S (need x + n)) 0 l)
    | JsObj l => S (fold_right (fun kx n => S (match kx with (_, x) => need x end + n)) 0 l)
    | _ => 1
    end.
  Definition reads (v : json) : Prop := forall f lvl r, need v <= f -> stops r -> value f (dump lvl v ++ r) = Some (v, r).

  Lemma number_ok t r v f : Forall (fun c => numeric c = true) t -> t <> [] -> stops r -> number read (t ++ r) = Some (v, r) -> value (S f) (t ++ r) = Some (v, r).
  Proof using.
    clear. intros F N Hr E. destruct t as [|c t]; [congruence|]. inversion F as [|? ? Fc Ft]; subst. destruct (numeric_first c Fc) as [H1 [H2 [H3 [H4 _]]]]. rewrite value_S. cbn [List.app skip]. rewrite H1, H2, H3, H4. rewrite literal_none by auto. exact E.
  Qed.
  Lemma quoted_app s r : quoted s ++ r = dquote :: flat_map esc (chars s) ++ dquote :: r.
  Proof using. clear. unfold quoted. simpl. rewrite <- app_assoc. reflexivity. Qed.
  Lemma line_stops lvl r c : numeric c = false -> stops (line ind lvl ++ c :: r).
  Proof using. clear. intros H. unfold line. destruct ind; simpl; auto. Qed.

  Lemma items_ok l : Forall reads l -> forall x f lvl lvl' r, reads x -> fold_right (fun x n => S (need x + n)) 0 (x :: l) <= f ->
    items f (dump lvl x ++ flat_map (fun y => between ind lvl ++ dump lvl y) l ++ line ind lvl' ++ "]" :: r) = Some (x :: l, r).
  Proof using.
    clear FF. induction 1 as [|y l Hy Fl IH]; intros x f lvl lvl' r Hx Hf; (destruct f as [|f]; [simpl in Hf; lia|]); rewrite items_S; cbn [fold_right] in Hf.
    - rewrite Hx; [|lia|apply line_stops; reflexivity]. simpl flat_map. simpl List.app. rewrite skip_line. reflexivity.
    - destruct (between_ok ind lvl) as [w [Ew Sw]]. cbn [flat_map]. set (F := flat_map _ l). rewrite <- !app_assoc. rewrite Hx; [|lia|rewrite Ew; reflexivity]. rewrite Ew. simpl List.app. cbn [skip space]. simpl.
      rewrite (items_skip f _ _ (Sw _)). unfold F. rewrite IH; auto. simpl. lia.
  Qed.
  Lemma members_ok l : Forall (fun kv => reads (snd kv)) l -> forall k x f lvl lvl' r, reads x -> fold_right (fun (kx : string * json) n => S (match kx with (_, x) => need x end + n)) 0 ((k, x) :: l) <= f ->
    members f (quoted k ++ ":" :: " " :: dump lvl x ++ flat_map (fun y => match y with (k, y) => between ind lvl ++ quoted k ++ ":" :: " " :: dump lvl y end) l ++ line ind lvl' ++ "}" :: r) = Some ((k, x) :: l, r).
  Proof using.
    clear FF. induction 1 as [|[k' y] l Hy Fl IH]; intros k x f lvl lvl' r Hx Hf; (destruct f as [|f]; [simpl in Hf; lia|]); rewrite quoted_app, members_S; cbn [fold_right] in Hf.
    - cbn [skip]. change (space dquote) with false. change (Ascii.eqb dquote dquote) with true. cbv iota. rewrite scan_all, chars_back. cbn [skip]. change (space ":") with false. change (Ascii.eqb ":" ":") with true. cbv iota.
      rewrite value_sp. simpl flat_map. simpl ([] ++ _). rewrite Hx; [|lia|apply line_stops; reflexivity]. simpl List.app. rewrite skip_line. reflexivity.
    - destruct (between_ok ind lvl) as [w [Ew Sw]]. cbn [skip]. change (space dquote) with false. change (Ascii.eqb dquote dquote) with true. cbv iota. rewrite scan_all, chars_back. cbn [skip]. change (space ":") with false. change (Ascii.eqb ":" ":") with true. cbv iota.
      cbn [flat_map]. set (F := flat_map _ l). rewrite <- !app_assoc. rewrite value_sp. rewrite Hx; [|lia|rewrite Ew; reflexivity]. rewrite Ew. rewrite <- !app_comm_cons. rewrite <- ?app_assoc, <- ?app_comm_cons. cbn [skip]. change (space ",") with false. cbv iota. change (Ascii.eqb "," "}") with false. change (Ascii.eqb "," ",") with true. cbv iota.
      rewrite (members_skip f _ _ (Sw _)). cbn [snd] in Hy. unfold F. rewrite IH; auto. simpl. lia.
  Qed.
  Theorem reads_all v : uniq v -> reads v.
  Proof using FF.
    induction v as [z|q|s|b| |l IH|l IH] using json_rec2; intros U f lvl r Hf Hr; (destruct f as [|f]; [simpl in Hf; lia|]).
    - destruct (int_chars z) as [A [B C]]. cbn [M_Json.dump]. apply number_ok; auto. unfold number. rewrite (span_all _ _ A Hr), B, chars_back, int_of_str_of. reflexivity.
    - destruct (FF q) as [A [B C]]. cbn [M_Json.dump]. apply number_ok; auto. { apply show_some. } unfold number. rewrite (span_all _ _ B Hr), C, chars_back, A. reflexivity.
    - cbn [M_Json.dump]. rewrite quoted_app, value_S. cbn [skip]. change (space dquote) with false. change (Ascii.eqb dquote dquote) with true. cbv iota. rewrite scan_all, chars_back. reflexivity.
    - destruct b; reflexivity.
    - reflexivity.
    - inversion U as [| | | | |? Ul|]; subst. assert (Fl : Forall reads l). { clear - IH Ul. induction IH; inversion Ul; subst; constructor; auto. }
      destruct l as [|x l]; [reflexivity|]. cbn [M_Json.dump]. rewrite value_S. cbn [List.app skip]. change (space "[") with false. cbv iota. change (Ascii.eqb "[" dquote) with false. change (Ascii.eqb "[" "[") with true. cbv iota.
      rewrite <- !app_assoc. rewrite skip_line. destruct (dump_first (S lvl) x) as [c [t [E1 [E2 E3]]]]. rewrite E1 at 1. cbn [List.app skip]. rewrite E2, E3. inversion Fl; subst. rewrite (items_skip f _ _ (skip_line _ _ _)). simpl List.app. rewrite items_ok; auto. simpl in Hf. simpl. lia.
    - inversion U as [| | | | | |? Un Ul]; subst. assert (Fl : Forall (fun kv => reads (snd kv)) l). { clear - IH Ul. induction IH; inversion Ul; subst; constructor; auto. }
      destruct l as [|[k x] l]; [reflexivity|]. cbn [M_Json.dump]. rewrite value_S. cbn [List.app skip]. change (space "{") with false. cbv iota. change (Ascii.eqb "{" dquote) with false. change (Ascii.eqb "{" "[") with false. change (Ascii.eqb "{" "{") with true. cbv iota.
      rewrite <- !app_assoc. rewrite skip_line. unfold quoted at 1. cbn [List.app skip]. change (space dquote) with false. cbv iota. change (Ascii.eqb dquote "}") with false. cbv iota. inversion Fl; subst.
      rewrite (members_skip f _ _ (skip_line _ _ _)). rewrite <- ?app_comm_cons, <- ?app_assoc. simpl ([_] ++ r). rewrite members_ok; auto. 2:{ simpl in Hf. simpl. lia. } rewrite fold_dset_id; auto.
  Qed.
End Codec.
