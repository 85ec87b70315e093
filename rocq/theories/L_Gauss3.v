(** Gaussian inference: what do_inferences computes, by name. *)
From Verif Require Import Py M_Gauss SpecGauss L_Base L_Sums L_Gauss L_Gauss2.
Open Scope Qc_scope.

Definition names (obs : list (string * Qc)) : list string := map fst obs.
(** the headers left after an observation *)
Definition rest (H : list string) (obs : list (string * Qc)) : list string := filter (fun h => negb (mem h (names obs))) H.
Definition seen (H : list string) (obs : list (string * Qc)) : list string := filter (fun h => mem h (names obs)) H.

Lemma rest_In H obs s : In s (rest H obs) <-> In s H /\ ~ In s (names obs).
Proof. unfold rest. rewrite filter_In, negb_true_iff, mem_false. tauto. Qed.
Lemma seen_perm H obs : NoDup H -> NoDup (names obs) -> incl (names obs) H -> Permutation (seen H obs) (names obs).
Proof.
  intros N1 N2 I. apply NoDup_Permutation; auto. { apply NoDup_filter, N1. }
  intros x. unfold seen. rewrite filter_In, mem_In. split; [tauto|]. auto.
Qed.
Lemma position_pick {A} (F : string * Qc -> A) obs ob d : NoDup (names obs) -> In ob obs -> nth (position (names obs) (fst ob)) (map F obs) d = F ob.
Proof.
  unfold names. induction obs as [|o t IH]; simpl; [tauto|]. intros N [->|H].
  - destruct (string_dec (fst ob) (fst ob)); [reflexivity|congruence].
  - inversion N as [|? ? N1 N2]; subst. destruct (string_dec (fst o) (fst ob)) as [e|n].
    + exfalso. apply N1. rewrite e. apply in_map, H.
    + apply IH; auto.
Qed.
Lemma means_map g : NoDup (gi_H g) -> List.length (gi_M g) = List.length (gi_H g) -> gi_M g = map (mean_of g) (gi_H g).
Proof.
  intros N L. unfold mean_of. rewrite <- (map_map (position (gi_H g)) (fun i => nth i (gi_M g) 0)), position_all, <- L by exact N.
  clear. induction (gi_M g) as [|m t IH]; [reflexivity|]. cbn [List.length seq map]. f_equal.
  rewrite <- seq_shift, map_map. exact IH.
Qed.
Lemma rest_seq H obs : NoDup H -> incl (names obs) H ->
  filter (fun k => negb (mem k (map (position H) (names obs)))) (seq 0 (List.length H)) = map (position H) (rest H obs).
Proof.
  intros N I. rewrite <- (position_all H N), filter_map. f_equal. apply filter_ext_in'. intros h Hh. rewrite mem_position by auto. reflexivity.
Qed.
Lemma positions_lt H l : incl l H -> forallb (fun k => Nat.ltb k (List.length H)) (map (position H) l) = true.
Proof. intros I. apply forallb_forall. intros k Hk. apply in_map_iff in Hk. destruct Hk as (s & <- & Hs). apply Nat.ltb_lt, position_lt, I, Hs. Qed.
Lemma meta_fold (obs meta : list (string * Qc)) : (forall s, In s (names obs) -> ~ In s (map fst meta)) -> NoDup (names obs) ->
  fold_left (fun d ob => dset d (fst ob) (snd ob)) obs meta = meta ++ obs.
Proof.
  revert meta. induction obs as [|[s v] t IH]; intros meta D N; cbn [fold_left]. { rewrite app_nil_r. reflexivity. }
  inversion N as [|? ? N1 N2]; subst. cbn [fst snd]. rewrite dkeys_dset_notin by (apply D; left; reflexivity).
  rewrite IH; auto. { rewrite <- app_assoc. reflexivity. }
  intros x Hx. rewrite map_app, in_app_iff. simpl. intros [K|[<-|[]]]; [eapply D; eauto; right; exact Hx|tauto].
Qed.

Section Infer.
  Context (inv : nat -> arr -> res arr) (g : ginf) (obs : list (string * Qc)).
  Context (W : gwf g) (ND : NoDup (names obs)) (I : incl (names obs) (gi_H g)).
  Let H := gi_H g.
  Let zs := names obs.
  Let ys := rest H obs.
  Let zi := map (position H) zs.
  Definition observed_block : arr := sub_arr (gi_E g) zi zi.

  (** the coefficients and the correction, for an inverse [b] *)
  Definition weights (b : arr) : arr := mdot (List.length zs) (sub_arr (gi_E g) (map (position H) ys) zi) b.
  Definition differences : list Qc := map (fun p => fst p - snd p) (combine (map snd obs) (map (mean_of g) (seen H obs))).

  Lemma infer_eq : do_inferences inv g obs =
    b <- inv (List.length zs) observed_block ;;
    Ok {| gi_H := ys;
          gi_M := map (fun y => mean_of g y - qsum (map (fun c => weights b (position ys y) (fst c) * snd c) (enumerate differences))) ys;
          gi_n := List.length ys;
          gi_E := arr_minus (sub_arr (gi_E g) (map (position H) ys) (map (position H) ys))
                            (mdot (List.length zs) (weights b) (transposed (sub_arr (gi_E g) (map (position H) ys) zi)));
          gi_meta := gi_meta g ++ obs |}.
  Proof using W ND I.
    destruct W as (N & LM & LN & DM & NM). unfold do_inferences. cbv zeta.
    rewrite <- (mapM_map (fun n => dgetE (header_index (gi_H g)) n) fst obs). change (map fst obs) with zs.
    rewrite header_all by assumption. cbn [rbind]. fold H. fold zi. rewrite LN. fold H.
    assert (P : forallb (fun k => Nat.ltb k (List.length H)) zi = true) by (apply positions_lt, I).
    assert (Q : filter (fun k => negb (mem k zi)) (seq 0 (List.length H)) = map (position H) ys) by (apply rest_seq; assumption).
    rewrite P, Q. clear P Q.
    unfold observed_block. replace (List.length zi) with (List.length zs) by (unfold zi; rewrite map_length; reflexivity).
    destruct (inv (List.length zs) (sub_arr (gi_E g) zi zi)) as [b|x]; [|reflexivity]. cbn [rbind].
    assert (Hin : forall x, In x (rest H obs) -> In x H) by (intros x Hx; apply rest_In in Hx; tauto).
    assert (Ez : at_indexes zi (gi_M g) = map (mean_of g) (seen H obs)).
    { rewrite (means_map g) by assumption. rewrite at_indexes_map by assumption. f_equal. apply filter_ext_in'. intros h Hh. apply mem_position; assumption. }
    assert (Mr : forall h, In h H -> mem (position H h) (map (position H) ys) = negb (mem h zs)).
    { intros h Hh. rewrite mem_position by auto. apply eq_true_iff_eq. rewrite mem_In. unfold ys. rewrite rest_In, negb_true_iff, mem_false. tauto. }
    assert (Ey : at_indexes (map (position H) ys) (gi_M g) = map (mean_of g) ys).
    { rewrite (means_map g) by assumption. rewrite at_indexes_map by assumption. f_equal. apply filter_ext_in'. intros h Hh. apply Mr, Hh. }
    assert (Eh : at_indexes (map (position H) ys) H = ys).
    { rewrite <- (map_id H) at 2. rewrite at_indexes_map by assumption. rewrite map_id. apply filter_ext_in'. intros h Hh. apply Mr, Hh. }
    rewrite Ez, Ey, Eh. unfold vec_minus at 1. rewrite !map_length.
    rewrite (Permutation_length (seen_perm H obs N ND I)). unfold names. rewrite map_length, Nat.eqb_refl. cbn [rbind].
    fold differences. unfold vec_minus. unfold vdot. rewrite !map_length, seq_length, Nat.eqb_refl. cbn [rbind].
    f_equal. f_equal.
    - assert (NY : NoDup ys) by (apply NoDup_filter, N). rewrite <- (position_all ys NY), map_map.
      assert (G : forall (f : string -> Qc) (h : string -> Qc) (l : list string), map (fun p => fst p - snd p) (combine (map f l) (map h l)) = map (fun y => f y - h y) l).
      { intros f h l. induction l as [|a t IH]; [reflexivity|]. cbn [map combine fst snd]. rewrite IH. reflexivity. }
      rewrite G. reflexivity.
    - apply meta_fold; [|exact ND]. intros s Hs. apply DM, I, Hs.
  Qed.
End Infer.
