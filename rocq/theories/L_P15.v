(** The claims about texts. *)
From Coq Require Import Ascii.
From Verif Require Import Py M_Graph M_Node M_Pptc M_Serde M_Csv M_Text Spec SpecNet SpecPot SpecDne SpecText L_Base L_Check L_Build L_Net L_Csv L_P8 L_R1 L_R13 L_Dne L_Text Ex.
Open Scope nat_scope.

Theorem c57 ops show net_nm : wordy net_nm -> (forall q, wordy (show q)) -> (forall i, In i (net_vars ops) -> wordy (net_name ops i) /\ Forall wordy (net_dom ops i)) ->
  let N := net_of ops in
  let told b := exists t, to_dne show b net_nm = Ok t /\ read_dne t = Some (mkDne net_nm [("AutoCompile", Word "TRUE"); ("autoupdate", Word "TRUE")]%string
    (map (fun i => seen_node (net_name ops i) (dom N i) (map (net_name ops) (par N i)) (map show (cpt N i))) (vars N))) in
  told (build ops) /\ forall o b j, well_shaped ops -> ord_ok o -> apply o (build ops) = Ok (b, j) -> told b.
Proof.
  intros Hw Hs Hn N told. assert (HE := bi_ends _ _ (build_inv ops)). assert (HV : NoDup (vars N)) by (exact (firsts_NoDup _)). split.
  - exact (dne_read show N (net_name ops) (build ops) (build_good ops) HV HE (parents_keys ops) Hn Hs net_nm Hw).
  - intros o b j HW Ho E. destruct (apply_saves ops o b j HW Ho E) as [A1 [_ A2]]. refine (dne_read show N (net_name ops) b A2 HV HE _ Hn Hs net_nm Hw). rewrite A1. apply parents_keys.
Qed.

(** two networks, one text *)
Definition twin (v1 v2 : string) : list bop := [AddNode (new_node 1 "x"%string [v1; v2] [qfrac 1 2; qfrac 1 2])].
Theorem c57_refuted : exists ops ops' show net_nm t, (forall q, wordy (show q)) /\ wordy net_nm /\ to_dne show (build ops) net_nm = Ok t /\ to_dne show (build ops') net_nm = Ok t /\ net_dom ops 1 <> net_dom ops' 1.
Proof.
  exists (twin "a,b" "c"), (twin "a" "b,c"), (fun _ => "0.5"%string), "net"%string.
  destruct (to_dne (fun _ => "0.5"%string) (build (twin "a,b" "c")) "net") as [t|] eqn:E; [|discriminate]. exists t.
  assert (B : forall s, negb (String.eqb s "") && forallb (fun c => negb (stops c)) (list_ascii_of_string s) = true -> wordy s).
  { intros s H. apply andb_true_iff in H. destruct H as [H1 H2]. split. { intros ->. discriminate. } intros c Hc. rewrite forallb_forall in H2. specialize (H2 c Hc). destruct (stops c); auto. }
  split; [intros _; apply B; reflexivity|]. split; [apply B; reflexivity|]. split; [reflexivity|]. split; [rewrite <- E; reflexivity|discriminate].
Qed.

Lemma frac_wordy q : wordy (show_frac q).
Proof.
  split. { unfold show_frac. intros E. destruct (str_of_Z (Qnum q)); discriminate. }
  intros c H. change (In c (chars (show_frac q))) in H. unfold show_frac in H. rewrite chars_app in H. assert (G : 45 <= nat_of_ascii c <= 57). { apply in_app_or in H. destruct H as [H|[<-|H]]; [apply int_chars in H; lia|vm_compute; lia|apply int_chars in H; lia]. }
  clear H. rewrite <- (ascii_nat_embedding c). destruct G as [G1 G2]. remember (nat_of_ascii c) as n. clear Heqn c. do 45 (destruct n as [|n]; [exfalso; lia|]). do 13 (destruct n as [|n]; [reflexivity|]). exfalso; lia.
Qed.
Definition wordyb (s : string) : bool := negb (String.eqb s "") && forallb (fun c => negb (stops c)) (list_ascii_of_string s).
Lemma wordyb_ok s : wordyb s = true -> wordy s.
Proof. intros H. apply andb_true_iff in H. destruct H as [H1 H2]. split. { intros ->. discriminate. } intros c Hc. rewrite forallb_forall in H2. specialize (H2 c Hc). destruct (stops c); auto. Qed.
Lemma diamond_wordy : forall i, In i (net_vars diamond) -> wordy (net_name diamond i) /\ Forall wordy (net_dom diamond i).
Proof.
  assert (H : forallb (fun i => wordyb (net_name diamond i) && forallb wordyb (net_dom diamond i)) (net_vars diamond) = true) by (vm_compute; reflexivity).
  rewrite forallb_forall in H. intros i Hi. apply H in Hi. apply andb_true_iff in Hi. destruct Hi as [H1 H2]. split; [apply wordyb_ok; auto|]. apply Forall_forall. intros s Hs. rewrite forallb_forall in H2. apply wordyb_ok. auto.
Qed.

(** a table over two variables with fewer keys than rows *)
Definition bars (v : Z) : list string := if Z.eqb v 1 then ["a"; "a|2=b"]%string else ["c"; "b|2=c"]%string.
Definition barred : potential := map (fun p => mkPE [(1%Z, fst p); (2%Z, snd p)] 1%Qc) (list_prod (bars 1) (bars 2)).
Theorem c58_refuted : exists dm vs f p, proper_scope dm vs /\ is_table dm vs f p /\ List.length (potentials_to_dict [p]) < List.length p.
Proof.
  exists bars, [1%Z; 2%Z], (fun _ => 1%Qc), barred. split; [|split; [split|]].
  - split; [apply nodupb_ok; reflexivity|]. intros v Hv. destruct Hv as [<-|[<-|[]]]; apply nodupb_ok; reflexivity.
  - reflexivity.
  - intros a Ha. assert (A1 := Ha 1%Z (or_introl eq_refl)). assert (A2 := Ha 2%Z (or_intror (or_introl eq_refl))).
    destruct A1 as [E1|[E1|[]]]; destruct A2 as [E2|[E2|[]]]; unfold row_index; cbn [map]; rewrite <- E1, <- E2; reflexivity.
  - apply Nat.ltb_lt. vm_compute. reflexivity.
Qed.
