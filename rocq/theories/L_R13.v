(** A number format, checkers and witnesses for CSV files. *)
From Coq Require Import Ascii.
From Verif Require Import Py M_Graph M_Node M_Pptc M_Serde M_Factory M_Csv Spec SpecNet SpecEv SpecRe SpecSer SpecCsv L_Base L_PD L_Sums L_Table L_Tree L_Walk L_Forest L_Root L_Good L_Prop L_Init L_Post L_Read
  L_Ids L_Trans L_Elim L_UG L_Tri L_Moral L_Build L_Exact L_Apply L_Net L_Evid L_Hist L_Claims L_Shape L_Shown L_P1 L_Reapply L_Rebuild L_Serde L_P8 L_Check Ex L_R1 L_Csv L_Csv2.
Open Scope nat_scope.

(** ** inference on the same network *)
Lemma same_posteriors ops ops' : same_network ops ops' -> well_shaped ops -> connected ops ->
  forall o h, ord_ok o -> valid_history (net_of ops) h ->
    exists b2 j j' t, apply o (build ops') = Ok (b2, j) /\ do_calls j h = (j', None) /\ get_posteriors j' = Ok t /\
      exact_table (net_of ops) (net_name ops) (shown (net_of ops) (calls h)) t.
Proof.
  intros S HW Hc o h Ho [H1 H2].
  assert (Hfr : forall i n, In (i, n) (g_nodes (b_g (build ops'))) -> n_mclq n = None).
  { intros i n Hn. pose proof (build_inv ops') as B. assert (En : node_of ops' i = Some n).
    { rewrite <- (bi_get _ _ B). apply dget_In_NoDup; auto. change (NoDup (ids (b_g (build ops')))). rewrite (bi_ids _ _ B). apply firsts_NoDup. }
    destruct (node_of_Some _ _ _ En) as [Hm _]. destruct (sn_new _ _ S n Hm) as [k [a [v [q ->]]]]. reflexivity. }
  destruct (apply_net _ _ _ o (net_shape ops HW) (same_good _ _ S) (ws_names _ HW) Ho Hfr) as [j0 [j [A1 [A2 [A3 [A4 [A5 [A6 [A7 A8]]]]]]]]].
  destruct (calls_shows (net_of ops) (net_name ops) (firsts_NoDup _) (ws_names _ HW) (ws_dom _ HW) h H1 (no_evidence, no_evidence) (set_jlistener j true)) as [j' [B1 [B2 B3]]]; auto.
  { apply live_shows; auto. apply unit_none. }
  assert (Hj : jconn j') by (apply jconn_ext with (set_jlistener j true); auto).
  destruct (sw_live _ _ _ _ _ B2) as [ev Hl]. destruct (live_exact_table (net_of ops) (net_name ops) _ _ (firsts_NoDup _) (ws_names _ HW) Hl) as [t [C1 C2]]. { apply jconn_ext with j'; auto. }
  eexists _, _, j', t. split; [exact A6|]. split; auto.
Qed.
Theorem c21_posteriors show read ops : number_format show read -> clean_texts ops -> well_shaped ops -> connected ops ->
  exists b', from_csv read (to_csv show (build ops)) = Ok b' /\
    forall o h, ord_ok o -> valid_history (net_of ops) h ->
      exists b2 j j' t, apply o b' = Ok (b2, j) /\ do_calls j h = (j', None) /\ get_posteriors j' = Ok t /\
        exact_table (net_of ops) (net_name ops) (shown (net_of ops) (calls h)) t.
Proof.
  intros HF HC HW Hc. destruct (c21 show read ops HF HC) as [ops' [E S]]. exists (build ops'). split; [exact E|]. intros o h. apply same_posteriors; assumption.
Qed.

(** ** fractions as text *)
Definition show_frac (q : Qc) : string := (str_of_Z (Qnum q) ++ String "/" (str_of_Z (Z.pos (Qden q))))%string.
Definition read_frac (s : string) : option Qc :=
  match split "/" s with
  | [a; b] => match int_of_str a, int_of_str b with Ok n, Ok (Z.pos d) => Some (Q2Qc (n # d)) | _, _ => None end
  | _ => None
  end.
Lemma frac_format : number_format show_frac read_frac.
Proof.
  assert (F : forall z, free "/" (str_of_Z z)). { intros z H. apply int_chars in H. vm_compute in H. destruct H as [H|[H1 H2]]; [discriminate|]. repeat apply le_S_n in H1. inversion H1. }
  intros q. split.
  - unfold read_frac, show_frac. rewrite split_app, !split_free by apply F. cbn [List.app]. rewrite !int_of_str_of. f_equal. apply Qc_is_canon. unfold Q2Qc. cbn [this]. rewrite Qred_correct. destruct q as [[n d] H]. reflexivity.
  - assert (G : forall c, In c (chars (show_frac q)) -> 45 <= nat_of_ascii c <= 57).
    { intros c H. unfold show_frac in H. rewrite chars_app in H. apply in_app_or in H. destruct H as [H|[<-|H]]; [apply int_chars in H; lia|vm_compute; lia|apply int_chars in H; lia]. }
    constructor.
    + unfold show_frac. intros E. destruct (str_of_Z (Qnum q)); discriminate.
    + intros c H S. apply G in H. unfold special in S. cbn [In] in S. lia.
    + intros c l E S. assert (H : In c (chars (show_frac q))) by (rewrite E; left; reflexivity). apply G in H. unfold white in S. cbn [In] in S. lia.
    + intros c l E S. assert (H : In c (chars (show_frac q))) by (rewrite E; apply in_or_app; right; left; reflexivity). apply G in H. unfold white in S. cbn [In] in S. lia.
Qed.

(** ** checkers *)
Definition specialb (c : ascii) : bool := existsb (Nat.eqb (nat_of_ascii c)) [44; 124; 10; 13].
Definition cleanb (s : string) : bool :=
  match chars s with
  | [] => false
  | c :: _ => negb (whiteb c) && negb (whiteb (List.last (chars s) c)) && forallb (fun c => negb (specialb c)) (chars s)
  end.
Lemma cleanb_ok s : cleanb s = true -> clean s.
Proof.
  unfold cleanb. destruct (chars s) as [|a l] eqn:E; [discriminate|]. rewrite !andb_true_iff, !negb_true_iff, forallb_forall. intros [[H1 H2] H3]. constructor.
  - intros ->. discriminate.
  - intros c Hc S. rewrite E in Hc. specialize (H3 c Hc). apply negb_true_iff in H3. unfold specialb in H3. rewrite <- not_true_iff_false in H3. apply H3. apply existsb_exists.
    exists (nat_of_ascii c). split; [exact S|apply Nat.eqb_refl].
  - intros c m Hm. rewrite E in Hm. inversion Hm; subst. rewrite <- white_whiteb. congruence.
  - intros c m Hm. rewrite E in Hm. rewrite Hm, last_last in H2. rewrite <- white_whiteb. congruence.
Qed.
Definition clean_textsb (ops : list bop) : bool := forallb (fun i => cleanb (net_name ops i) && forallb cleanb (net_dom ops i)) (net_vars ops).
Lemma clean_textsb_ok ops : clean_textsb ops = true -> clean_texts ops.
Proof.
  unfold clean_textsb. rewrite forallb_forall. intros H i Hi. specialize (H i Hi). rewrite andb_true_iff, forallb_forall in H. destruct H as [H1 H2].
  split; [apply cleanb_ok, H1|]. intros v Hv. apply cleanb_ok, H2, Hv.
Qed.
Lemma diamond_clean : clean_texts diamond.
Proof. apply clean_textsb_ok. vm_compute. reflexivity. Qed.

(** what is read back: ids, names and values, and the parents *)
Definition reread (ops : list bop) : res (list (Z * (string * list string)) * list (Z * list Z)) :=
  b <- from_csv read_frac (to_csv show_frac (build ops)) ;;
  Ok (map (fun n => (n_id n, (n_name n, n_values n))) (get_nodes (b_g b)), b_parents b).
(** a coin with a name and two values, and a copy of it *)
Definition coin (name v1 v2 : string) : list bop :=
  [AddEdge (new_node 1 name [v1; v2] [qfrac 1 2; qfrac 1 2]) (new_node 2 "copy"%string ["h"%string; "t"%string] [1%Qc; 0%Qc; 0%Qc; 1%Qc])].
Definition newline : string := String nl EmptyString.
Definition return_ : string := String cr EmptyString.

Definition differsb (ops : list bop) (i : Z) : bool :=
  match from_csv read_frac (to_csv show_frac (build ops)) with
  | Ok b => match dget (g_nodes (b_g b)) i with Some n => negb (eqlb (n_values n) (net_dom ops i)) | None => false end
  | Err _ => false
  end.
Lemma differsb_ok ops i : differsb ops i = true ->
  exists b n, from_csv read_frac (to_csv show_frac (build ops)) = Ok b /\ dget (g_nodes (b_g b)) i = Some n /\ n_values n <> net_dom ops i.
Proof.
  unfold differsb. destruct (from_csv _ _) as [b|]; [|discriminate]. destruct (dget _ i) as [n|] eqn:E; [|discriminate]. intros H. exists b, n. split; [reflexivity|]. split; [exact E|].
  intros Q. unfold eqlb in H. destruct (list_eq_dec _ _ _); [discriminate|contradiction].
Qed.
Definition decimal : list bop := coin "price" "1,5" "2".
Theorem c21_refuted : exists show read ops b i n, number_format show read /\ well_shaped ops /\ connected ops /\
  from_csv read (to_csv show (build ops)) = Ok b /\ dget (g_nodes (b_g b)) i = Some n /\ n_values n <> net_dom ops i.
Proof.
  destruct (differsb_ok decimal 1%Z) as (b & n & H); [vm_compute; reflexivity|]. exists show_frac, read_frac, decimal, b, 1%Z, n. split; [exact frac_format|].
  split; [apply well_shapedb_ok; vm_compute; reflexivity|]. split; [apply connectedb_ok; vm_compute; reflexivity|]. exact H.
Qed.
