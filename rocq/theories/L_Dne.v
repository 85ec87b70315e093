(** DNE files read back. *)
From Coq Require Import Ascii.
From Verif Require Import Py M_Graph M_Node M_Pptc M_Serde M_Csv M_Text Spec SpecNet SpecDne L_Base L_Table L_Build L_Exact L_Apply L_Net L_Serde L_P8 L_Csv.
Open Scope nat_scope.

(** ** tokens *)
Definition stopped (s : string) : Prop := match s with EmptyString => True | String c _ => stops c = true end.
Fixpoint closed (s : string) : bool := match s with EmptyString => true | String c EmptyString => stops c | String _ t => closed t end.

Lemma tokens_plain a t : stops a = false -> exists w r, tokens (String a t) = W w :: r.
Proof.
  revert a. induction t as [|b t IH]; intros a H; cbn [tokens]; apply orb_false_iff in H; destruct H as [H1 H2]; rewrite H1, H2; [eauto|].
  destruct (stops b) eqn:E; [eauto|]. destruct (IH b E) as [w [r Q]]. cbn [tokens] in Q. rewrite Q. eauto.
Qed.
Lemma tokens_app a r : closed a = true \/ stopped r -> tokens (a ++ r) = (tokens a ++ tokens r)%list.
Proof.
  induction a as [|x a IH]; intros H; [reflexivity|].
  destruct (blank x) eqn:B; [|destruct (punct x) eqn:Q].
  - cbn [append tokens]. rewrite B. apply IH. destruct H as [H|H]; [|right; auto]. left. destruct a; auto.
  - cbn [append tokens]. rewrite B, Q. rewrite IH; [reflexivity|]. destruct H as [H|H]; [|right; auto]. left. destruct a; auto.
  - destruct a as [|b a].
    + cbn [append tokens]. rewrite B, Q. destruct H as [H|H]. { simpl in H. unfold stops in H. rewrite B, Q in H. discriminate. }
      destruct r as [|c r]; [reflexivity|]. simpl in H. rewrite H. reflexivity.
    + assert (H' : closed (String b a) = true \/ stopped r) by (destruct H; [left|right]; auto). specialize (IH H'). clear H H'.
      change ((String x (String b a) ++ r)%string) with (String x (String b (a ++ r))). change ((String b a ++ r)%string) with (String b (a ++ r)) in IH.
      set (u := String b (a ++ r)) in *. set (v := String b a) in *. cbn [tokens]. rewrite B, Q. unfold u at 1, v at 1. destruct (stops b) eqn:E.
      * fold u v. rewrite IH. reflexivity.
      * fold u v. rewrite IH. destruct (tokens_plain b a E) as [w [q T]]. fold v in T. rewrite T. reflexivity.
Qed.
Lemma tokens_word w : wordy w -> tokens w = [W w].
Proof.
  intros [H1 H2]. induction w as [|a w IH]; [congruence|]. assert (Ha : stops a = false) by (apply H2; left; auto). unfold stops in Ha. apply orb_false_iff in Ha. destruct Ha as [A1 A2].
  cbn [tokens]. rewrite A1, A2. destruct w as [|b w]; [reflexivity|]. rewrite (H2 b) by (right; left; auto). rewrite IH; [reflexivity|discriminate|]. intros c Hc. apply H2. right; auto.
Qed.
Lemma tokens_next w r : wordy w -> stopped r -> tokens (w ++ r) = W w :: tokens r.
Proof. intros Hw Hr. rewrite tokens_app by auto. rewrite tokens_word by auto. reflexivity. Qed.

Fixpoint listed (l : list string) : list tok := match l with [] => [] | [w] => [W w] | w :: t => W w :: P "," :: listed t end.
Lemma tokens_join l r : Forall wordy l -> stopped r -> tokens (join "," l ++ r) = (listed l ++ tokens r)%list.
Proof.
  intros F Hr. induction l as [|w [|w' l] IH]; [reflexivity| |]; inversion F; subst.
  - apply tokens_next; auto.
  - rewrite join_cons, app_assoc_s. rewrite tokens_next by (auto; reflexivity). cbn [append listed List.app]. f_equal.
    change (tokens (String comma (join "," (w' :: l) ++ r))) with (P comma :: tokens (join "," (w' :: l) ++ r)). rewrite IH by auto. reflexivity.
Qed.
Lemma tokens_parens l r : Forall wordy l -> tokens (parens l ++ r) = (P "(" :: listed l ++ P ")" :: tokens r)%list.
Proof.
  intros F. unfold parens. rewrite !app_assoc_s. change (tokens (("(" ++ join "," l ++ ")" ++ r))%string) with (P "(" :: tokens (join "," l ++ ")" ++ r)).
  rewrite tokens_join by (auto; reflexivity). reflexivity.
Qed.

(** ** reading *)
Lemma words_listed l r : l <> [] -> words (listed l ++ P ")" :: r) = Some (l, r).
Proof.
  intros Hl. induction l as [|w [|w' l] IH]; [congruence|reflexivity|]. change (listed (w :: w' :: l) ++ P ")" :: r) with (W w :: P "," :: (listed (w' :: l) ++ P ")" :: r)).
  remember (listed (w' :: l) ++ P ")" :: r) as ts. cbn [words]. rewrite IH by discriminate. reflexivity.
Qed.
Lemma value_listed l r : read_value (P "(" :: listed l ++ P ")" :: r) = Some (Words l, r).
Proof.
  destruct l as [|w l]; [reflexivity|]. pose proof (words_listed (w :: l) r) as H. destruct l as [|w' l]; [reflexivity|].
  change (listed (w :: w' :: l) ++ P ")" :: r) with (W w :: P "," :: (listed (w' :: l) ++ P ")" :: r)) in *.
  set (R := (listed (w' :: l) ++ P ")" :: r)%list) in *.
  change (read_value (P "(" :: W w :: P "," :: R)) with (match words (W w :: P "," :: R) with Some (l, r') => Some (Words l, r') | None => None end).
  rewrite H by discriminate. reflexivity.
Qed.

Definition node_tokens (n : string * (list string * (list string * list string))) : list tok :=
  let '(nm, (states, (parents, probs))) := n in
  ([W "node"; W nm; P "{"; W "discrete"; P "="; W "TRUE"; P ";"; W "states"; P "="; P "("]%string ++ listed states ++
   [P ")"; P ";"; W "kind"; P "="; W "NATURE"; P ";"; W "chance"; P "="; W "CHANCE"; P ";"; W "parents"; P "="; P "("]%string ++ listed parents ++
   [P ")"; P ";"; W "probs"; P "="; P "("]%string ++ listed probs ++ [P ")"; P ";"; P "}"; P ";"])%list.
Definition seen (n : string * (list string * (list string * list string))) : dne_node :=
  let '(nm, (states, (parents, probs))) := n in seen_node nm states parents probs.

Lemma field_listed f k l r : read_fields (S f) (W k :: P "=" :: P "(" :: listed l ++ P ")" :: P ";" :: r)%list = match read_fields f r with Some (m, r') => Some ((k, Words l) :: m, r') | None => None end.
Proof. pose proof (value_listed l (P ";" :: r)) as H. remember (P "(" :: listed l ++ P ")" :: P ";" :: r) as ts. cbn [read_fields]. rewrite H. reflexivity. Qed.
Lemma field_word f k w r : read_fields (S f) (W k :: P "=" :: W w :: P ";" :: r)%list = match read_fields f r with Some (m, r') => Some ((k, Word w) :: m, r') | None => None end.
Proof. reflexivity. Qed.
Lemma fields_end f r : read_fields f (P "}" :: r) = Some ([], P "}" :: r). Proof. destruct f; reflexivity. Qed.
Lemma fields_node f w r : read_fields f (W "node" :: W w :: r) = Some ([], W "node" :: W w :: r). Proof. destruct f; reflexivity. Qed.

Lemma read_node_tokens n f r : 6 <= f -> read_nodes (S f) (node_tokens n ++ r) = match read_nodes f r with Some (m, r') => Some (seen n :: m, r') | None => None end.
Proof.
  intros Hf. destruct n as [nm [st [pa pr]]]. unfold node_tokens. do 6 (destruct f as [|f]; [lia|]). clear Hf. rewrite <- !app_assoc. cbn [List.app].
  set (T := (W "discrete" :: P "=" :: W "TRUE" :: P ";" :: W "states" :: P "=" :: P "(" :: listed st ++ P ")" :: P ";" :: W "kind" :: P "=" :: W "NATURE" :: P ";" :: W "chance" :: P "=" :: W "CHANCE" :: P ";" :: W "parents" :: P "=" :: P "(" :: listed pa ++ P ")" :: P ";" :: W "probs" :: P "=" :: P "(" :: listed pr ++ P ")" :: P ";" :: P "}" :: P ";" :: r)%list).
  assert (E : read_fields (S (S (S (S (S (S f)))))) T = Some (dn_fields (seen_node nm st pa pr), P "}" :: P ";" :: r)).
  { unfold T. rewrite field_word, field_listed, field_word, field_word, field_listed, field_listed, fields_end. reflexivity. }
  change (read_nodes (S (S (S (S (S (S (S f))))))) (W "node" :: W nm :: P "{" :: T)) with
    (match read_fields (S (S (S (S (S (S f)))))) T with
      | Some (l, P "}" :: P ";" :: r') => match read_nodes (S (S (S (S (S (S f)))))) r' with Some (m, r'') => Some (mkDN nm l :: m, r'') | None => None end
      | _ => None
      end).
  rewrite E. reflexivity.
Qed.
Lemma read_all ns f : List.length ns + 6 <= f -> read_nodes f (flat_map node_tokens ns ++ [P "}"; P ";"]) = Some (map seen ns, [P "}"; P ";"]).
Proof.
  revert f. induction ns as [|n ns IH]; intros f Hf. { destruct f; reflexivity. }
  cbn [flat_map]. rewrite <- app_assoc. destruct f as [|f]; [simpl in Hf; lia|]. rewrite read_node_tokens by (simpl in Hf; lia). rewrite IH by (simpl in Hf; lia). reflexivity.
Qed.

(** ** the text *)
Definition node_text (nm : string) (states parents probs : list string) : string :=
  ("node " ++ nm ++ " {
                discrete = TRUE;
                states = " ++ parens states ++ ";
                kind = NATURE;
                chance = CHANCE;
                parents = " ++ parens parents ++ ";
                probs = " ++ parens probs ++ ";
            };
            ")%string.
Lemma text_tokens nm states parents probs r : wordy nm -> Forall wordy states -> Forall wordy parents -> Forall wordy probs ->
  tokens (node_text nm states parents probs ++ r) = (node_tokens (nm, (states, (parents, probs))) ++ tokens r)%list.
Proof.
  intros H1 H2 H3 H4. unfold node_text. rewrite !app_assoc_s. rewrite (tokens_app "node ") by (left; reflexivity). rewrite tokens_next by (auto; reflexivity).
  rewrite (tokens_app (String " " _)) by (left; reflexivity). rewrite tokens_parens by auto.
  match goal with |- context [tokens (String ";" ?x ++ parens parents ++ ?y)] => rewrite (tokens_app (String ";" x)) by (left; reflexivity) end. rewrite tokens_parens by auto.
  match goal with |- context [tokens (String ";" ?x ++ parens probs ++ ?y)] => rewrite (tokens_app (String ";" x)) by (left; reflexivity) end. rewrite tokens_parens by auto.
  match goal with |- context [tokens (String ";" ?x ++ r)] => rewrite (tokens_app (String ";" x)) by (left; reflexivity) end.
  unfold node_tokens. repeat match goal with |- context [tokens (String ?c ?x)] => let v := eval vm_compute in (tokens (String c x)) in change (tokens (String c x)) with v end.
  repeat (rewrite <- ?app_assoc; cbn [List.app]). reflexivity.
Qed.

Section Net.
  Context (show : Qc -> string) (N : net) (nm : Z -> string) (b : bbn) (HB : bgood N nm b) (HV : NoDup (vars N))
    (HE : forall p i, In p (par N i) -> In p (vars N) /\ In i (vars N)) (HK : NoDup (dkeys (b_parents b)))
    (Hn : forall i, In i (vars N) -> wordy (nm i) /\ Forall wordy (dom N i)) (Hs : forall q, wordy (show q)).

  Definition told (i : Z) := (nm i, (dom N i, (map nm (par N i), map show (cpt N i)))).
  Definition told_text (i : Z) := node_text (nm i) (dom N i) (map nm (par N i)) (map show (cpt N i)).

  Lemma own_edges i : filter (fun e : Z * Z => eqb (KInt (snd e)) (KInt i)) (bd_edges (bbn_to_dict b)) = map (fun p => (p, i)) (par N i).
  Proof using HB HK.
    rewrite <- (bg_par _ _ _ HB). unfold bbn_to_dict. cbn [bd_edges]. clear -HK. induction (b_parents b) as [|[k l] ps IH]; [reflexivity|].
    inversion HK as [|? ? Hk HK']; subst. specialize (IH HK'). cbn [flat_map fst snd]. rewrite filter_app, IH. unfold dgets. simpl dget.
    destruct (Z.eqb_spec i k) as [->|Hne].
    - assert (E : forall l', filter (fun e : Z * Z => eqb (KInt (snd e)) (KInt k)) (map (fun pa => (pa, k)) l') = map (fun p => (p, k)) l').
      { induction l' as [|x l' IH']; auto. cbn [map filter snd]. change (eqb (KInt k) (KInt k)) with (Z.eqb k k). rewrite Z.eqb_refl, IH'. auto. }
      rewrite E. assert (D : dget ps k = None) by (apply dget_None; exact Hk). rewrite D. simpl. apply app_nil_r.
    - assert (E : forall l', filter (fun e : Z * Z => eqb (KInt (snd e)) (KInt i)) (map (fun pa => (pa, k)) l') = []).
      { induction l' as [|x l' IH']; auto. cbn [map filter snd]. change (eqb (KInt k) (KInt i)) with (Z.eqb k i). destruct (Z.eqb_spec k i); [congruence|]. auto. }
      rewrite E. reflexivity.
  Qed.
  Lemma dict_node i : In i (vars N) -> dgetE (bd_nodes (bbn_to_dict b)) (KInt i) = Ok (mkND (cpt N i) i (nm i) (dom N i)).
  Proof using HB HV.
    intros Hi. pose proof (saved_dict N nm b HB HV false) as E. cbv iota in E. rewrite E. cbn [bd_nodes]. unfold dgetE.
    assert (D : dget (map (fun i => (KInt i, mkND (cpt N i) i (nm i) (dom N i))) (vars N)) (KInt i) = Some (mkND (cpt N i) i (nm i) (dom N i))).
    { apply dget_In_NoDup. { unfold dkeys. rewrite map_map. apply NoDup_map_inj; auto. intros x y _ _ Q; injection Q; auto. } apply in_map_iff. exists i; auto. }
    rewrite D. reflexivity.
  Qed.
  Lemma node_told i : In i (vars N) -> get_dne_node show (bbn_to_dict b) (KInt i) = Ok (told_text i).
  Proof using HB HV HE HK.
    intros Hi. unfold get_dne_node. rewrite dict_node by auto. cbn [rbind]. rewrite own_edges.
    rewrite (mapM_all _ (fun e => nm (fst e))).
    2:{ intros [p k] Hp. apply in_map_iff in Hp. destruct Hp as [q [Q Hq]]. injection Q as -> _. cbn [fst]. rewrite dict_node by (apply (HE _ _ Hq)). reflexivity. }
    cbn [rbind nd_name nd_values nd_probs]. rewrite map_map. cbn [fst]. unfold told_text, node_text. destruct (map nm (par N i)); reflexivity.
  Qed.
  Lemma join_nl_cons x y l : join "
" (x :: y :: l) = (x ++ "
" ++ join "
" (y :: l))%string.
  Proof. reflexivity. Qed.
  Lemma nodes_tokens l r : incl l (vars N) -> tokens (join "
" (map told_text l) ++ r) = (flat_map (fun i => node_tokens (told i)) l ++ tokens r)%list.
  Proof using HE Hn Hs.
    assert (T : forall i r, In i (vars N) -> tokens (told_text i ++ r) = (node_tokens (told i) ++ tokens r)%list).
    { intros i q Hi. unfold told_text, told. apply text_tokens; try apply (Hn i Hi).
      - apply Forall_forall. intros x Hx. apply in_map_iff in Hx. destruct Hx as [p [<- Hp]]. apply Hn. apply (HE _ _ Hp).
      - apply Forall_forall. intros x Hx. apply in_map_iff in Hx. destruct Hx as [p [<- Hp]]. apply Hs. }
    induction l as [|i [|k l] IH]; intros Hl.
    - reflexivity.
    - cbn [map flat_map]. rewrite List.app_nil_r. apply T. apply Hl. left; auto.
    - cbn [map]. rewrite join_nl_cons, !app_assoc_s. rewrite T by (apply Hl; left; auto). cbn [flat_map]. rewrite <- app_assoc. f_equal.
      change (tokens ("
" ++ join "
" (told_text k :: map told_text l) ++ r)) with (tokens (join "
" (map told_text (k :: l)) ++ r)). rewrite IH. { reflexivity. } intros z Hz. apply Hl. right; auto.
  Qed.
  Theorem dne_read net_nm : wordy net_nm -> exists t, to_dne show b net_nm = Ok t /\
    read_dne t = Some (mkDne net_nm [("AutoCompile", Word "TRUE"); ("autoupdate", Word "TRUE")]%string (map (fun i => seen_node (nm i) (dom N i) (map nm (par N i)) (map show (cpt N i))) (vars N))).
  Proof using HB HV HE HK Hn Hs.
    intros Hw. unfold to_dne. cbv zeta. assert (K : dkeys (bd_nodes (bbn_to_dict b)) = map KInt (vars N)).
    { pose proof (saved_dict N nm b HB HV false) as E. cbv iota in E. rewrite E. unfold dkeys. cbn [bd_nodes]. rewrite map_map. reflexivity. }
    rewrite K. assert (M : mapM (get_dne_node show (bbn_to_dict b)) (map KInt (vars N)) = Ok (map told_text (vars N))).
    { assert (G : forall l, incl l (vars N) -> mapM (get_dne_node show (bbn_to_dict b)) (map KInt l) = Ok (map told_text l)).
      { induction l as [|i l IH]; intros Hl; [reflexivity|]. cbn [map mapM]. rewrite node_told by (apply Hl; left; auto). cbn [rbind]. rewrite IH by (intros z Hz; apply Hl; right; auto). reflexivity. }
      apply G. apply incl_refl. }
    rewrite M. cbn [rbind]. eexists. split; [reflexivity|].
    set (J := join "
" (map told_text (vars N))).
    match goal with |- read_dne ?t = _ => set (T := t) end.
    assert (B : tokens (body T) = (W "bnet" :: W net_nm :: P "{" :: W "AutoCompile" :: P "=" :: W "TRUE" :: P ";" :: W "autoupdate" :: P "=" :: W "TRUE" :: P ";" ::
      (flat_map node_tokens (map told (vars N)) ++ [P "}"; P ";"]))%list).
    { unfold T. match goal with |- tokens (body ?t) = _ => let v := eval cbv [body append rest_of_file nat_of_ascii] in t in idtac end.
      match goal with |- tokens (body (String ?a (String ?b ?x) ++ ?y)) = _ => change (body (String a (String b x) ++ y)%string) with ("        bnet " ++ y)%string end.
      rewrite (tokens_app "        bnet ") by (left; reflexivity). rewrite tokens_next by (auto; reflexivity).
      match goal with |- context [tokens (String " " ?x ++ J ++ ?y)] => rewrite (tokens_app (String " " x)) by (left; reflexivity) end.
      unfold J. rewrite nodes_tokens by apply incl_refl.
      repeat match goal with |- context [tokens (String ?c ?x)] => let v := eval vm_compute in (tokens (String c x)) in change (tokens (String c x)) with v end.
      cbn [List.app]. rewrite !flat_map_concat_map, map_map. reflexivity. }
    unfold read_dne. cbv zeta. rewrite B. set (F := List.length _).
    assert (HF : List.length (vars N) + 8 <= F).
    { unfold F. cbn [List.length]. rewrite app_length. cbn [List.length]. assert (G : forall l, List.length l <= List.length (flat_map node_tokens (map told l))).
      { induction l as [|i l IH]; [simpl; lia|]. cbn [map flat_map]. rewrite app_length. unfold told at 1. unfold node_tokens at 1. rewrite app_length. cbn [List.length]. lia. }
      specialize (G (vars N)). lia. }
    do 2 (destruct F as [|F]; [lia|]).
    assert (R : read_fields (S (S F)) (W "AutoCompile" :: P "=" :: W "TRUE" :: P ";" :: W "autoupdate" :: P "=" :: W "TRUE" :: P ";" ::
      (flat_map node_tokens (map told (vars N)) ++ [P "}"; P ";"]))%list = Some ([("AutoCompile", Word "TRUE"); ("autoupdate", Word "TRUE")]%string, (flat_map node_tokens (map told (vars N)) ++ [P "}"; P ";"])%list)).
    { rewrite !field_word. destruct (vars N) as [|i l]; [cbn [map flat_map List.app]; rewrite fields_end; reflexivity|]. cbn [map flat_map]. unfold told at 1 3. unfold node_tokens at 1 3. rewrite <- !app_assoc. cbn [List.app]. rewrite fields_node. reflexivity. }
    rewrite R. rewrite read_all by (rewrite map_length; lia). rewrite map_map. reflexivity.
  Qed.
End Net.
