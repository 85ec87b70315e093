(** Deciding the hypotheses of separation on concrete networks. *)
From Verif Require Import Py M_Graph M_Node M_Pptc M_Nx M_Do Spec SpecNet SpecEv SpecNx SpecDo SpecSep L_Base Ex L_R1.
Open Scope nat_scope.

Definition inactiveb (d : digraph) (ev : list Z) (x y : Z) : bool :=
  match get_all_paths d x y with
  | Ok ps => forallb (fun p => match is_active_path d p (EvSet ev) with Ok false => true | _ => false end) ps
  | Err _ => false
  end.
Lemma inactiveb_ok d ev x y : inactiveb d ev x y = true -> all_inactive d ev x y.
Proof.
  unfold inactiveb, all_inactive. destruct (get_all_paths d x y) as [ps|]; [|discriminate]. intros H. exists ps. split; auto. intros p Hp. rewrite forallb_forall in H. specialize (H p Hp).
  destruct (is_active_path d p (EvSet ev)) as [[|]|]; auto; discriminate.
Qed.
Definition pinnedb (N : net) (L : likelihood) (i : Z) : bool :=
  existsb (fun x => forallb (fun v => String.eqb v x || qeqb (L i v) 0%Qc) (dom N i)) (dom N i).
Lemma pinnedb_ok N L i : pinnedb N L i = true -> pinned N L i.
Proof.
  intros H. apply existsb_exists in H. destruct H as (x & Hx & H). exists x. split; auto. intros v Hv Hn. rewrite forallb_forall in H. specialize (H v Hv).
  apply orb_true_iff in H. destruct H as [H|H]; [apply String.eqb_eq in H; tauto|]. apply qeqb_true. auto.
Qed.
Definition freeb (N : net) (L : likelihood) (i : Z) : bool := forallb (fun v => qeqb (L i v) 1%Qc) (dom N i).
Lemma freeb_ok N L i : freeb N L i = true -> free N L i.
Proof. intros H v Hv. unfold freeb in H. rewrite forallb_forall in H. apply qeqb_true. auto. Qed.
(** everything about the likelihoods at once *)
Definition sep_likeb (N : net) (L L' : likelihood) (ev xs : list Z) (y : Z) : bool :=
  forallb (pinnedb N L) ev &&
  forallb (fun i => mem i ev || mem i xs || Z.eqb i y || freeb N L i) (vars N) &&
  forallb (fun i => mem i xs || forallb (fun v => qeqb (L i v) (L' i v)) (dom N i)) (vars N) &&
  negb (qeqb (total N L) 0%Qc) && negb (qeqb (total N L') 0%Qc).
Lemma sep_likeb_ok N L L' ev xs y : sep_likeb N L L' ev xs y = true ->
  (forall z, In z ev -> pinned N L z) /\ (forall i, In i (vars N) -> ~ In i ev -> ~ In i xs -> i <> y -> free N L i) /\
  (forall i v, In i (vars N) -> ~ In i xs -> In v (dom N i) -> L i v = L' i v) /\ possible N L /\ possible N L'.
Proof.
  unfold sep_likeb. rewrite !andb_true_iff, !forallb_forall. intros ((((H1 & H2) & H3) & H4) & H5). split; [intros z Hz; apply pinnedb_ok; auto|]. split.
  - intros i Hi N1 N2 N3. specialize (H2 i Hi). rewrite !orb_true_iff, !mem_In, Z.eqb_eq in H2. apply freeb_ok. tauto.
  - split.
    + intros i v Hi Hn Hv. specialize (H3 i Hi). rewrite orb_true_iff, mem_In, forallb_forall in H3. destruct H3 as [H3|H3]; [tauto|]. apply qeqb_true; auto.
    + split; intros E; [rewrite E in H4|rewrite E in H5]; discriminate.
Qed.

(** [diamond]: [b] and [c] given their common cause [a], and given their common effect [d] too *)
Definition e_a (v : string) := build_evidence n_a OBSERVATION [(v, 1%Qc)].
Definition e_b (v : string) := build_evidence n_b OBSERVATION [(v, 1%Qc)].
Definition seen_a : history := [(ord_id, Update [e_a "on"])].
Definition seen_ab : history := [(ord_rev, Update [e_b "y"]); (ord_id, SetObservation (e_a "on"))].
Definition seen_ad : history := seen_a ++ [(ord_id, Update [e_d_t])].
Definition seen_abd : history := seen_ab ++ [(ord_rev, Update [e_d_t])].
Definition answer (h : history) (i : Z) : list (string * Qc) :=
  match session ord_id diamond h with
  | Ok j => match get_posteriors j with Ok t => match dget t (net_name diamond i) with Some m => m | None => [] end | Err _ => [] end
  | Err _ => []
  end.
Definition same_answer (h h' : history) (i : Z) : bool :=
  negb (Nat.eqb (List.length (answer h i)) 0) && forallb (fun p => String.eqb (fst (fst p)) (fst (snd p)) && qeqb (snd (fst p)) (snd (snd p))) (combine (answer h i) (answer h' i)).
