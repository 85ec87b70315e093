(** The marginals of a Gaussian and samples from them. *)
From Verif Require Import Py M_Gauss SpecGauss SpecMarg L_Base L_Sums L_Table L_Gauss L_Gauss2 L_Gauss3 L_Gauss4 L_P10 L_P11.
Open Scope Qc_scope.

Lemma dset_fresh {V} (d : list (string * V)) k v : ~ In k (map fst d) -> dset d k v = d ++ [(k, v)].
Proof.
  induction d as [|[k' v'] d IH]; simpl; intros F; auto. destruct (String.eqb_spec k' k) as [->|]; [tauto|].
  destruct (String.eqb_spec k k') as [<-|]; [tauto|]. f_equal. apply IH. tauto.
Qed.
Lemma dset_fold_fresh {V W : Type} (k : W -> string) (v : W -> V) (l : list W) : forall d : list (string * V), NoDup (map fst d ++ map k l) ->
  fold_left (fun d x => dset d (k x) (v x)) l d = d ++ map (fun x => (k x, v x)) l.
Proof.
  induction l as [|x l IH]; intros d N; simpl. rewrite app_nil_r; auto.
  assert (F : ~ In (k x) (map fst d)). { simpl in N. apply NoDup_remove_2 in N. intros C. apply N. apply in_or_app; auto. }
  rewrite (dset_fresh d _ _ F), IH. rewrite <- app_assoc; auto. rewrite map_app. simpl map at 2. rewrite <- app_assoc. exact N.
Qed.
Lemma params_all n (E : arr) (L : list (string * Qc)) : forall k (d : list (string * (Qc * Qc))), NoDup (map fst d ++ map fst L) -> (k + List.length L <= n)%nat ->
  foldM (fun d (p : nat * (string * Qc)) => let (i, kv) := p in if Nat.ltb i n then Ok (dset d (fst kv) (- snd kv, E i i)) else Err IndexError)
    (combine (seq k (List.length L)) L) d = Ok (d ++ map (fun p : nat * (string * Qc) => (fst (snd p), (- snd (snd p), E (fst p) (fst p)))) (combine (seq k (List.length L)) L)).
Proof.
  induction L as [|[s m] L IH]; intros k d N Hk; simpl. rewrite app_nil_r; auto.
  simpl in Hk. destruct (Nat.ltb_spec k n) as [_|]; [|lia]. cbn [rbind].
  rewrite dset_fresh by (simpl in N; apply NoDup_remove_2 in N; intros C; apply N; apply in_or_app; auto).
  rewrite IH; [rewrite <- app_assoc; auto| |lia]. rewrite map_app, <- app_assoc. exact N.
Qed.
Lemma enum_position (H : list string) {B} (f : nat -> string -> B) : NoDup H ->
  map (fun p => f (fst p) (snd p)) (combine (seq 0 (List.length H)) H) = map (fun s => f (position H s) s) H.
Proof.
  intros N. assert (G : forall l a, H = a ++ l -> map (fun p => f (fst p) (snd p)) (combine (seq (List.length a) (List.length l)) l) = map (fun s => f (position H s) s) l).
  { induction l as [|s l IH]; intros a E; simpl; auto. f_equal.
    - f_equal. assert (F : nth_error H (List.length a) = Some s) by (rewrite E, nth_error_app2, Nat.sub_diag by lia; auto).
      assert (Hs : In s H) by (eapply nth_error_In; eauto).
      assert (F4 : nth_error H (position H s) = Some s). { rewrite (nth_error_nth' _ ""%string) by (apply position_lt, Hs). rewrite position_nth by exact Hs. reflexivity. }
      eapply NoDup_nth_error; [exact N|apply nth_error_Some; rewrite F; discriminate|]. rewrite F, F4. reflexivity.
    - specialize (IH (a ++ [s])). rewrite app_length, Nat.add_comm in IH. apply IH. rewrite <- app_assoc. exact E. }
  apply (G H []). reflexivity.
Qed.
Lemma params_list g : gwf g ->
  params g = Ok (map (fun kv => (fst kv, (snd kv, 0))) (gi_meta g) ++ map (fun s => (s, (- mean_of g s, cov_of g s s))) (gi_H g)).
Proof.
  intros (N & LM & LN & DM & NM). unfold params, enumerate.
  assert (EM : combine (gi_H g) (gi_M g) = map (fun h => (h, mean_of g h)) (gi_H g)).
  { rewrite (means_map g N LM) at 1. clear. induction (gi_H g) as [|h t IH]; [reflexivity|]. cbn [map combine]. rewrite IH. reflexivity. }
  rewrite EM. rewrite (dset_fold_fresh (fun kv : string * Qc => fst kv) (fun kv => (snd kv, 0))) by exact NM. cbn [app].
  set (L := map (fun h => (h, mean_of g h)) (gi_H g)).
  assert (EL : map fst L = gi_H g) by (unfold L; rewrite map_map; cbn [fst]; apply map_id).
  assert (LL : List.length L = List.length (gi_H g)) by (unfold L; apply map_length).
  rewrite params_all.
  - f_equal. f_equal. rewrite LL. unfold L, cov_of. clear - N.
    rewrite <- (enum_position (gi_H g) (fun i s => (s, (- mean_of g s, gi_E g i i))) N).
    generalize (seq 0 (List.length (gi_H g))). intros ks. set (f := fun h => (h, mean_of g h)).
    generalize (gi_H g). intros H. revert ks. induction H as [|h H IH]; intros [|k ks]; simpl; auto. f_equal. apply IH.
  - rewrite EL, map_map. cbn [fst]. change (fun x : string * Qc => fst x) with (@fst string Qc).
    apply NoDup_app_intro; [exact NM|exact N|]. intros s Hs Hs'. apply (DM s Hs' Hs).
  - simpl. lia.
Qed.

Lemma c98_marginals g : gwf g -> exists l, gmarginals g = Ok l /\ map mg_name l = map fst (gi_meta g) ++ gi_H g /\
  forall x, In x l -> (In (mg_name x, mg_mean x) (gi_meta g) /\ mg_var x = 0) \/
                      (In (mg_name x) (gi_H g) /\ mg_mean x = - mean_of g (mg_name x) /\ mg_var x = cov_of g (mg_name x) (mg_name x)).
Proof.
  intros W. unfold gmarginals. rewrite (params_list g W). cbn [rbind]. eexists. split; [reflexivity|]. split.
  - rewrite map_map. cbn [mg_name fst]. unfold mg_name. cbn [fst]. rewrite map_app, !map_map. cbn [fst]. rewrite map_id. reflexivity.
  - intros x Hx. apply in_map_iff in Hx as ([s [m v]] & <- & Hx). cbn [fst snd]. unfold mg_name, mg_mean, mg_var. cbn [fst snd].
    apply in_app_or in Hx as [Hx|Hx]; apply in_map_iff in Hx as (y & E & Hy).
    + injection E as <- <- <-. left. split; auto. destruct y; auto.
    + injection E as <- <- <-. right. auto.
Qed.

Lemma c98_complete inv : inv_sound inv -> forall batches g g', gwf g -> symmetric g -> gi_meta g = [] -> foldM (do_inferences inv) batches g = Ok g' ->
  let obs := List.concat batches in
  exists l K, gmarginals g' = Ok l /\ map mg_name l = map fst obs ++ filter (fun h => negb (mem h (map fst obs))) (gi_H g) /\
    Permutation (map mg_name l) (gi_H g) /\ regression (cov_of g) (gi_H g') (map fst obs) K /\
    forall x, In x l -> (In (mg_name x, mg_mean x) obs /\ mg_var x = 0) \/
      (~ In (mg_name x) (map fst obs) /\ mg_var x = combined_cov (cov_of g) (residual (map fst obs) K (mg_name x)) (residual (map fst obs) K (mg_name x))).
Proof.
  intros S batches g g' W Y M OK obs. destruct (many_calls inv S batches g g' W Y OK) as (D & I & W' & Y' & EH & EM & K & R & C). fold obs in D, I, EH, EM, R, C.
  rewrite M in EM. cbn [app] in EM. destruct (c98_marginals g' W') as (l & E & N & A). exists l, K. split; [exact E|].
  assert (N2 : map mg_name l = map fst obs ++ filter (fun h => negb (mem h (map fst obs))) (gi_H g)) by (rewrite N, EM, EH; reflexivity).
  split; [exact N2|]. split.
  { rewrite N2. apply NoDup_Permutation.
    - apply NoDup_app_intro; [exact D|apply NoDup_filter, W|]. intros s Hs Hs'. apply filter_In in Hs' as [_ Hs']. apply negb_true_iff in Hs'. apply mem_In in Hs. congruence.
    - apply W.
    - intros s. rewrite in_app_iff, filter_In. split.
      + intros [Hs|[Hs _]]; auto.
      + intros Hs. destruct (mem s (map fst obs)) eqn:E2; [left; apply mem_In; exact E2|right; split; auto]. }
  split; [exact R|]. intros x Hx. destruct (A x Hx) as [[A1 A2]|(A1 & A2 & A3)].
  - left. rewrite EM in A1. auto.
  - right. split.
    + intros Hs. rewrite EH in A1. apply rest_In in A1. apply (proj2 A1). exact Hs.
    + rewrite A3. apply C; exact A1.
Qed.

Lemma c98_samples root gauss g size : gwf g -> let names := map fst (gi_meta g) ++ gi_H g in exists d, sample_marginals root gauss g size = Ok d /\ dkeys d = names /\
  (forall s v, In (s, v) (gi_meta g) -> exists xs, dget d s = Some xs /\ spread_of v (qfrac 1 100) (gauss (position names s) size) xs) /\
  (forall s, In s (gi_H g) -> exists xs, dget d s = Some xs /\
     spread_of (- mean_of g s) (if Qc_eq_dec (cov_of g s s) 0 then qfrac 1 100 else root (cov_of g s s)) (gauss (position names s) size) xs).
Proof.
  intros W names. pose proof W as (N & LM & LN & DM & NM).
  assert (NN : NoDup names). { apply NoDup_app_intro; [exact NM|exact N|]. intros s Hs Hs'. apply (DM s Hs' Hs). }
  unfold sample_marginals, gmarginals. rewrite (params_list g W). cbn [rbind].
  set (ps := map (fun kv => (fst kv, (snd kv, 0))) (gi_meta g) ++ map (fun s => (s, (- mean_of g s, cov_of g s s))) (gi_H g)).
  assert (EN : map fst ps = names). { unfold ps, names. rewrite map_app, !map_map. cbn [fst]. rewrite map_id. reflexivity. }
  set (ser := fun (k : nat) (mv : Qc * Qc) => get_samples root gauss size k (fst mv) (snd mv)).
  assert (E : fold_left (fun d (x : nat * (string * Qc * Qc)) => let '(k, (s, m, v)) := x in dset d s (get_samples root gauss size k m v))
                (enumerate (map (fun x : string * (Qc * Qc) => (fst x, fst (snd x), snd (snd x))) ps)) [] =
              map (fun p : string * (Qc * Qc) => (fst p, ser (position names (fst p)) (snd p))) ps).
  { unfold enumerate. rewrite map_length.
    assert (G : forall l a d, ps = a ++ l -> map fst d = map fst a ->
       fold_left (fun d (x : nat * (string * Qc * Qc)) => let '(k, (s, m, v)) := x in dset d s (get_samples root gauss size k m v))
         (combine (seq (List.length a) (List.length l)) (map (fun x : string * (Qc * Qc) => (fst x, fst (snd x), snd (snd x))) l)) d =
       d ++ map (fun p : string * (Qc * Qc) => (fst p, ser (position names (fst p)) (snd p))) l).
    { induction l as [|[s [m v]] l IH]; intros a d E F; simpl. rewrite app_nil_r; auto.
      assert (P : position names s = List.length a).
      { assert (F1 : nth_error names (List.length a) = Some s). { rewrite <- EN, E, map_app, nth_error_app2; rewrite map_length; [|lia]. rewrite Nat.sub_diag. auto. }
        assert (Hs : In s names) by (eapply nth_error_In; eauto).
        assert (F4 : nth_error names (position names s) = Some s). { rewrite (nth_error_nth' _ ""%string) by (apply position_lt, Hs). rewrite position_nth by exact Hs. reflexivity. }
        symmetry. eapply NoDup_nth_error; [exact NN|apply nth_error_Some; rewrite F1; discriminate|]. rewrite F1, F4. reflexivity. }
      assert (Fr : ~ In s (map fst d)).
      { rewrite F. intros C. rewrite <- EN, E, map_app in NN. simpl in NN. apply NoDup_remove_2 in NN. apply NN. apply in_or_app; auto. }
      rewrite dset_fresh by exact Fr. specialize (IH (a ++ [(s, (m, v))]) (d ++ [(s, get_samples root gauss size (List.length a) m v)])).
      rewrite app_length, Nat.add_comm in IH. cbn [List.length Nat.add] in IH. rewrite IH.
      - rewrite <- app_assoc. cbn [app]. rewrite P. reflexivity.
      - rewrite <- app_assoc. exact E.
      - rewrite !map_app, F. reflexivity. }
    apply (G ps [] []); auto. }
  rewrite E. eexists. split; [reflexivity|].
  assert (K : map fst (map (fun p : string * (Qc * Qc) => (fst p, ser (position names (fst p)) (snd p))) ps) = names). { rewrite map_map. cbn [fst]. exact EN. }
  split; [exact K|].
  assert (G : forall s m v, In (s, (m, v)) ps -> exists xs, dget (map (fun p : string * (Qc * Qc) => (fst p, ser (position names (fst p)) (snd p))) ps) s = Some xs /\
     spread_of m (if Qc_eq_dec v 0 then qfrac 1 100 else root v) (gauss (position names s) size) xs).
  { intros s m v Hs. exists (ser (position names s) (m, v)). split.
    - apply In_dget. { unfold dkeys. rewrite K. exact NN. } apply in_map_iff. exists (s, (m, v)). auto.
    - unfold ser, get_samples, normal, spread_of, qeqb. cbn [fst snd]. destruct (Qc_eq_dec v 0); generalize (gauss (position names s) size); induction l; simpl; constructor; auto. }
  split.
  - intros s v Hs. destruct (G s v 0) as (xs & E1 & E2). { unfold ps. apply in_or_app; left. apply in_map_iff. exists (s, v). auto. }
    exists xs. split; auto.
  - intros s Hs. apply G. unfold ps. apply in_or_app; right. apply in_map_iff. exists s. auto.
Qed.

(** one variable with mean 1 and variance 4, and one observed to be 3 *)
Definition two_left : ginf :=
  {| gi_H := ["b"]%string; gi_M := [1]; gi_n := 1; gi_E := fun _ _ => qfrac 4 1; gi_meta := [("a"%string, qfrac 3 1)] |}.
Lemma two_left_wf : gwf two_left.
Proof.
  split; [repeat constructor; simpl; tauto|]. split; [reflexivity|]. split; [reflexivity|]. split; [|repeat constructor; simpl; tauto].
  intros s [<-|[]]. simpl. intuition discriminate.
Qed.
Definition off_sample root gauss g size s (q : Qc) : bool :=
  match sample_marginals root gauss g size with
  | Ok d => match dget d s with Some xs => existsb (fun x => negb (qeqb x q)) xs | None => false end
  | Err _ => false
  end.
Lemma off_sample_ok root gauss g size s q : off_sample root gauss g size s q = true ->
  exists d xs x, sample_marginals root gauss g size = Ok d /\ dget d s = Some xs /\ In x xs /\ x <> q.
Proof.
  unfold off_sample. destruct (sample_marginals root gauss g size) as [d|]; [|discriminate]. destruct (dget d s) as [xs|] eqn:E; [|discriminate].
  intros H. apply existsb_exists in H as (x & Hx & H). exists d, xs, x. repeat split; auto. intros ->. unfold qeqb in H. destruct (Qc_eq_dec q q); [discriminate|tauto].
Qed.
Lemma c98_observed : exists root gauss g s v d xs x, gwf g /\ In (s, v) (gi_meta g) /\ sample_marginals root gauss g 2 = Ok d /\ dget d s = Some xs /\ In x xs /\ x <> v.
Proof.
  assert (E : off_sample (fun _ => 1 + 1) (fun _ n => repeat 1 n) two_left 2 "a"%string (qfrac 3 1) = true) by (vm_compute; reflexivity).
  apply off_sample_ok in E as (d & xs & x & E1 & E2 & E3 & E4). exists (fun _ => 1 + 1), (fun _ n => repeat 1 n), two_left, "a"%string, (qfrac 3 1), d, xs, x.
  split; [apply two_left_wf|]. split; [simpl; auto|]. auto.
Qed.
Lemma c98_centre : exists root g s d xs x, gwf g /\ In s (gi_H g) /\ sample_marginals root (fun _ n => repeat 0 n) g 2 = Ok d /\ dget d s = Some xs /\ In x xs /\ x <> mean_of g s.
Proof.
  assert (E : off_sample (fun _ => 1 + 1) (fun _ n => repeat 0 n) two_left 2 "b"%string (mean_of two_left "b") = true) by (vm_compute; reflexivity).
  apply off_sample_ok in E as (d & xs & x & E1 & E2 & E3 & E4). exists (fun _ => 1 + 1), two_left, "b"%string, d, xs, x.
  split; [apply two_left_wf|]. split; [simpl; auto|]. auto.
Qed.
(** names and numbers of what is sampled *)
Definition shown_samples (r : res (list (string * list Qc))) : list (string * list Q) :=
  match r with Ok d => map (fun p => (fst p, map this (snd p))) d | Err _ => [] end.
Definition shown_marginals (r : res (list (string * Qc * Qc))) : list (string * Q * Q) :=
  match r with Ok d => map (fun p => (fst (fst p), this (snd (fst p)), this (snd p))) d | Err _ => [] end.
