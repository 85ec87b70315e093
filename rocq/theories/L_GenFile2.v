(** The kind of file generate_bbn_to_file writes. *)
From Coq Require Import Ascii.
From Verif Require Import Py M_Graph M_Node M_Nx M_Gen M_Serde M_Csv M_GenFile Spec SpecNet SpecNx SpecSer SpecCsv L_Base L_Gen L_Gen2.
Open Scope nat_scope.

Lemma substring_all s : substring 0 (String.length s) s = s.
Proof. induction s as [|c s IH]; simpl; congruence. Qed.
Lemma substring_app stem t : substring (String.length stem) (String.length t) (stem ++ t)%string = t.
Proof. induction stem as [|c s IH]; simpl; [apply substring_all|exact IH]. Qed.
Lemma length_app stem t : String.length (stem ++ t)%string = String.length stem + String.length t.
Proof. induction stem as [|c s IH]; simpl; auto. Qed.
Lemma split_at n : forall s, n <= String.length s -> s = (substring 0 n s ++ substring n (String.length s - n) s)%string.
Proof.
  induction n as [|n IH]; intros s H.
  - rewrite Nat.sub_0_r, substring_all. destruct s; reflexivity.
  - destruct s as [|c s]; [simpl in H; lia|]. cbn [String.length substring]. simpl append. f_equal. simpl in H. apply IH. lia.
Qed.
Lemma endswith_ok s t : endswith s t = true <-> exists stem, s = (stem ++ t)%string.
Proof.
  unfold endswith. split.
  - intros H. apply andb_true_iff in H. destruct H as [H1 H2]. apply Nat.leb_le in H1. apply String.eqb_eq in H2. exists (substring 0 (String.length s - String.length t) s).
    pose proof (split_at (String.length s - String.length t) s ltac:(lia)) as E. replace (String.length s - (String.length s - String.length t)) with (String.length t) in E by lia. rewrite H2 in E. exact E.
  - intros (stem & ->). rewrite length_app. apply andb_true_iff. split; [apply Nat.leb_le; lia|]. replace (String.length stem + String.length t - String.length t) with (String.length stem) by lia. rewrite substring_app. apply String.eqb_refl.
Qed.
Theorem c63_kind show dir n path bbn_type max_iter max_values ints units draws f : generate_bbn_to_file show dir n path bbn_type max_iter max_values ints units draws = Ok f ->
  ((exists text, f = CsvFile text) <-> exists stem, path = (stem ++ "csv")%string) /\ ((exists d, f = JsonFile d) <-> ~ exists stem, path = (stem ++ "csv")%string).
Proof.
  unfold generate_bbn_to_file. destruct (generate _ _ _ _ _ _ _ _) as [gp|]; cbn [rbind]; [|discriminate]. destruct (convert_for_exact_inference _ _) as [b|]; cbn [rbind]; [|discriminate].
  rewrite <- endswith_ok. destruct (endswith path "csv"); intros Q; injection Q as <-; split; split; intros H; try tauto; try (destruct H; discriminate); eauto; try discriminate; exfalso; auto.
Qed.
Theorem c63_tree dir n max_iter max_values ints units draws g p : n <> 0 -> Forall (below_n n) ints -> generate "singly" dir n max_iter max_values ints units draws = Ok (g, p) ->
  S (List.length (dg_edges g)) = n /\ connected_on (dg_nodes g) (dg_edges g) /\ forall c, ~ cycle (dg_edges g) c.
Proof.
  intros N F. unfold generate. simpl String.eqb. cbv iota. unfold generate_singly_bbn. pose proof (c40 n max_iter ints units N F) as C. destruct (singly_structure _ _ _ _) as [g'|]; cbn [rbind]; [|discriminate].
  destruct (generate_parameters _ _ _ _) as [p'|]; cbn [rbind]; [|discriminate]. intros Q. injection Q as <- <-. destruct C as (_ & _ & _ & C1 & C2 & _ & C3 & _). auto.
Qed.
