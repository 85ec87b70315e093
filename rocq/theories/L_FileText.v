(** Generated networks and the text of their files. *)
From Coq Require Import Ascii.
From Verif Require Import Py M_Graph M_Node M_Pptc M_Nx M_Gen M_Serde M_Csv M_GenFile M_Json M_FileText Spec SpecNet SpecEv SpecNx SpecSer SpecCsv SpecJson L_Base L_Csv L_GenFile L_GenFile2 L_Json L_Json2 L_JsonEx.
Open Scope nat_scope.

Lemma dot_number : number_format show_dot read_dot.
Proof.
  intros q. split; [apply dot_format|].
  assert (G : forall c, In c (list_ascii_of_string (show_dot q)) -> 45 <= nat_of_ascii c <= 57).
  { intros c H. unfold show_dot in H. rewrite chars_app in H. apply in_app_or in H. destruct H as [H|[<-|H]]; [apply L_Csv.int_chars in H; lia|vm_compute; lia|apply L_Csv.int_chars in H; lia]. }
  constructor.
  + unfold show_dot. intros E. destruct (str_of_Z (Qnum q)); discriminate.
  + intros c H S. apply G in H. unfold special in S. cbn [In] in S. lia.
  + intros c l E S. assert (H : In c (list_ascii_of_string (show_dot q))) by (rewrite E; left; reflexivity). apply G in H. unfold white in S. cbn [In] in S. lia.
  + intros c l E S. assert (H : In c (list_ascii_of_string (show_dot q))) by (rewrite E; apply in_or_app; right; left; reflexivity). apply G in H. unfold white in S. cbn [In] in S. lia.
Qed.

Theorem c63_text show read dir n path bbn_type max_iter max_values ints units draws : number_format show read -> float_format show read -> n <> 0 -> max_values <> 0 -> Forall (below_n n) ints ->
  (forall i k m, 2 <= m -> prob_vector m (dir i k m)) ->
  match generate_bbn_text show dir n path bbn_type max_iter max_values ints units draws with
  | Ok s => exists g p ops ops', generate bbn_type dir n max_iter max_values ints units draws = Ok (g, p) /\ convert_calls g p = Ok ops /\ valid_net n (dg_edges g) ops /\
      bbn_from_path read path s = Ok (build ops') /\ same_network ops ops' /\
      forall o h, ord_ok o -> valid_history (net_of ops) h ->
        exists b2 j j' t, apply o (build ops') = Ok (b2, j) /\ do_calls j h = (j', None) /\ get_posteriors j' = Ok t /\
          exact_table (net_of ops) (net_name ops) (shown (net_of ops) (calls h)) t
  | Err x => x = OutOfFuel
  end.
Proof.
  intros NF FF Hn Hm Hi Hd. pose proof (c63 show read dir n path bbn_type max_iter max_values ints units draws NF Hn Hm Hi Hd) as H.
  unfold generate_bbn_text. unfold generate_bbn_to_file in H. destruct (generate bbn_type dir n max_iter max_values ints units draws) as [[g p]|x] eqn:E; [|exact H]. cbn [rbind fst snd] in *.
  destruct (convert_for_exact_inference g p) as [b|x] eqn:E2; [|exact H]. cbn [rbind] in *. destruct H as (g' & p' & ops & ops' & H1 & H2 & H3 & H4 & H5). exists g', p', ops, ops'. split; [exact H1|]. split; [exact H2|]. split; [exact H3|]. split; [|exact H5].
  unfold bbn_from_path. destruct (endswith path "csv"); [exact H4|]. rewrite (c112_file show read FF). exact H4.
Qed.
