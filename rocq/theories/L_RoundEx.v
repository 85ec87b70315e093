(** Binary64 on a concrete network. *)
From Verif Require Import Py M_Graph M_Node M_Pptc M_Round Spec SpecNet SpecEv SpecRound L_Base L_Check L_Round L_Round4 L_Size L_Steady L_Round5 Ex L_R1 L_Part4.
Open Scope nat_scope.
Open Scope Qc_scope.

Definition float_table (p : Z) (ops : list bop) (h : history) : res (list (string * list (string * Qc))) :=
  j <- session_r (floats p) ord_id ops h ;; get_posteriors_r (floats p) j.
(** is every posterior within [e] of the exact one, and some not equal to it? *)
Definition nearb (e : Qc) (ops : list bop) (L : likelihood) (t : list (string * list (string * Qc))) (i : Z) : bool :=
  match dget t (net_name ops i) with
  | Some m => eqlb (map fst m) (net_dom ops i) &&
              forallb (fun p => let x := exact_posterior (net_of ops) L i (fst p) in qleb (x - e) (snd p) && qleb (snd p) (x + e)) m
  | None => false
  end.
Definition all_nearb (p : Z) (e : Qc) (ops : list bop) (h : history) : bool :=
  match float_table p ops h with Ok t => forallb (nearb e ops (in_force (net_of ops) (calls h)) t) (net_vars ops) | Err _ => false end.

Example binary64_near : all_nearb 53 (qfrac 1 1000000000000000) diamond hard_history = true. Proof. vm_compute. reflexivity. Qed.
Example binary64_not_exact : all_nearb 53 (qfrac 1 100000000000000000) diamond hard_history = false. Proof. vm_compute. reflexivity. Qed.
Example three_digits_near : all_nearb 3 (qfrac 1 10) diamond hard_history = true /\ all_nearb 3 (qfrac 1 100) diamond hard_history = false. Proof. split; vm_compute; reflexivity. Qed.

(** rows of posteriors do not quite add up to 1 *)
Definition row_sum (p : Z) (ops : list bop) (h : history) (x : string) : option Qc :=
  match float_table p ops h with Ok t => option_map (fun m => qsum (map snd m)) (dget t x) | Err _ => None end.
Lemma row_sum_off p ops h x : match row_sum p ops h x with Some s => negb (qeqb s 1) | None => false end = true ->
  exists j t row, session_r (floats p) ord_id ops h = Ok j /\ get_posteriors_r (floats p) j = Ok t /\ dget t x = Some row /\ qsum (map snd row) <> 1.
Proof.
  unfold row_sum, float_table. destruct (session_r (floats p) ord_id ops h) as [j|]; cbn [rbind]; [|discriminate]. destruct (get_posteriors_r (floats p) j) as [t|] eqn:E; [|discriminate].
  destruct (dget t x) as [row|] eqn:Er; cbn [option_map]; [|discriminate]. intros H. exists j, t, row. repeat split; auto. intros Z. rewrite Z in H. vm_compute in H. discriminate.
Qed.
Lemma c80_sum : exists j t row, session_r binary64 ord_id diamond hard_history = Ok j /\ get_posteriors_r binary64 j = Ok t /\ dget t "b"%string = Some row /\ qsum (map snd row) <> 1.
Proof. apply row_sum_off. vm_compute. reflexivity. Qed.
Lemma c80_case : well_shaped diamond /\ connected diamond /\ valid_history (net_of diamond) hard_history /\ Forall hard_call (calls hard_history).
Proof. split; [exact diamond_ok|]. split; [exact diamond_connected|]. split; [exact hard_history_ok|exact hard_history_hard]. Qed.
Lemma c80_identity : (forall o ops h, session_r exactly o ops h = session o ops h) /\ (forall j, get_posteriors_r exactly j = get_posteriors j).
Proof. split; reflexivity. Qed.
Lemma c80_any ops : well_shaped ops -> exists k, forall o h, ord_ok o -> valid_history (net_of ops) h ->
  exists j t, session o ops h = Ok j /\ get_posteriors j = Ok t /\
  forall r a, accurate r a -> exists j' t', session_r a o ops h = Ok j' /\ get_posteriors_r a j' = Ok t' /\ table_within r k t t'.
Proof. intros HW. exists (spread_of ops). intros o h Ho Hh. destruct (c04_described ops o h HW Ho Hh) as [j [t [A1 [A2 _]]]]. exists j, t. split; auto. split; auto. apply (c80_follows ops o h j t); auto. Qed.
