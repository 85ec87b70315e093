(** Numbers that are 0 or 1. *)
From Verif Require Import Py M_Graph M_Node M_Pptc Spec SpecNet SpecEv SpecSep SpecPot SpecCohere SpecLeft L_Base L_Sums L_Table L_Exact L_Apply L_Net L_Claims L_P1 L_P2 L_Hist L_Mix L_Flow L_Cohere.
Open Scope Qc_scope.

Lemma qsum_some (l : list Qc) : qsum l <> 0 -> exists x, In x l /\ x <> 0.
Proof.
  induction l as [|x l IH]; intros H; [exfalso; apply H; reflexivity|]. destruct (Qc_eq_dec x 0) as [->|E]; [|exists x; split; [left; auto|exact E]].
  rewrite qsum_cons in H. destruct IH as (y & Hy & Ey). { intros K. apply H. rewrite K. ring. } exists y. split; [right; auto|auto].
Qed.
Lemma sums_some dm vs f a : sums dm vs f a <> 0 -> exists b, okon dm vs b /\ f b <> 0.
Proof.
  enough (G : sums dm vs f a <> 0 -> exists b, (forall u, ~ In u vs -> b u = a u) /\ okon dm vs b /\ f b <> 0). { intros H. destruct (G H) as (b & _ & K). exists b. exact K. }
  revert a. induction vs as [|v vs IH]; intros a H.
  - exists a. split; auto. split; [intros u []|exact H].
  - simpl in H. apply qsum_some in H. destruct H as (x & Hx & E). apply in_map_iff in Hx. destruct Hx as (w & <- & Hw).
    destruct (IH (upd a v w) E) as (b & Hb & Ho & Hf). exists b. split; [|split; auto].
    + intros u Hu. rewrite Hb by (intros K; apply Hu; right; auto). apply upd_neq. intros ->. apply Hu. left. auto.
    + intros u [<-|Hu]; auto. destruct (in_dec Z.eq_dec v vs) as [Hi|Hi]; auto. rewrite Hb, upd_eq; auto.
Qed.
Lemma one_of (f : string -> Qc) (l : list string) v : NoDup l -> In v l -> (forall w, In w l -> 0 <= f w) -> qsum (map f l) = 1 ->
  (f v = 1 <-> forall w, In w l -> w <> v -> f w = 0).
Proof.
  intros HD Hv Hp S. assert (G : exists r, qsum (map f l) = f v + r /\ 0 <= r /\ (r = 0 <-> forall w, In w l -> w <> v -> f w = 0)).
  { clear S. induction l as [|x l IH]; [destruct Hv|]. inversion HD; subst. cbn [map]. rewrite qsum_cons. destruct Hv as [->|Hv].
    - exists (qsum (map f l)). split; auto. assert (P : forall x, In x (map f l) -> 0 <= x). { intros y Hy. apply in_map_iff in Hy. destruct Hy as (w & <- & Hw). apply Hp. right. auto. }
      split; [apply qsum_nonneg; auto|]. split.
      + intros Z w [->|Hw] D; [congruence|]. apply (qsum_zero_nonneg (map f l)); auto. apply in_map; auto.
      + intros Z. apply qsum_map_zero. intros w Hw. apply Z; [right; auto|]. intros ->. contradiction.
    - destruct IH as (r & E & Hr & K); auto. { intros w Hw. apply Hp. right. auto. }
      exists (f x + r). split; [rewrite E; ring|]. assert (Hx : 0 <= f x) by (apply Hp; left; auto). split; [apply Qcle_0_plus; auto|]. split.
      + intros Z. assert (Z1 : f x = 0 /\ r = 0). { apply plus_zero_nonneg; auto. } intros w [->|Hw] D; [tauto|]. apply K; tauto.
      + intros Z. rewrite (Z x) by (try (left; reflexivity); intros ->; contradiction). rewrite (proj2 K); [ring|]. intros w Hw D. apply Z; auto. right. auto. }
  destruct G as (r & E & _ & K). rewrite <- K. rewrite S in E. split; intros H.
  - rewrite H in E. transitivity (1 + r - 1); [ring|]. rewrite <- E. ring.
  - rewrite H in E. rewrite E. ring.
Qed.

Section Left.
  Context (N : net) (L : likelihood) (HN : nshape N) (HL : forall i v, In i (vars N) -> In v (dom N i) -> 0 <= L i v).
  Lemma weight_zero a : weight N L a = 0 <-> ruled_out N L a.
  Proof.
    clear. unfold weight, ruled_out. split.
    - intros E. apply Qcmult_integral in E. destruct E as [E|E]; apply qprod_zero in E; destruct E as (i & Hi & E); exists i; auto.
    - intros (i & Hi & [E|E]); [rewrite (qprod_has_zero _ _ i Hi E)|rewrite (qprod_has_zero (fun v => L v (a v)) _ i Hi E)]; ring.
  Qed.
  Definition world_of (a : asg) : asg := fun i => if mem i (vars N) then a i else no_asg i.
  Lemma world_in a i : In i (vars N) -> world_of a i = a i.
  Proof. intros H. unfold world_of. rewrite (proj2 (mem_In i (vars N)) H). reflexivity. Qed.
  Lemma world_ruled a : ruled_out N L (world_of a) <-> ruled_out N L a.
  Proof using HN.
    unfold ruled_out. assert (C : forall i, In i (vars N) -> cpt_entry N i (world_of a) = cpt_entry N i a).
    { intros i Hi. apply cpt_entry_dep. intros v Hv. apply world_in. apply in_app_or in Hv. destruct Hv as [Hv|[<-|[]]]; auto. apply (ns_ends _ HN v i Hv). }
    split; intros (i & Hi & H); exists i; split; auto; rewrite ?C, ?world_in in *; auto.
  Qed.
  Lemma mass_zero i v : In i (vars N) -> (mass_of N L i v = 0 <-> forall a, okon (dom N) (vars N) a -> a i = v -> ruled_out N L a).
  Proof using HN HL.
    intros Hi. split.
    - intros E a Ha Hv. apply world_ruled, weight_zero.
      assert (P : proper (fun a : asg => if string_dec (a i) v then weight N L a else 0)). { intros c c' Hc. rewrite (Hc i), (weight_proper N L c c' Hc). reflexivity. }
      pose proof (sums_zero_terms (dom N) (vars N) _ P no_asg) as S. cbv beta in S.
      specialize (S (fun c Hc Hoc => match string_dec (c i) v as s return (0 <= if s then weight N L c else 0) with left _ => weight_nonneg N L HN HL c Hoc | right _ => Qcle_refl 0 end) E (world_of a)).
      rewrite (world_in a i Hi) in S. destruct (string_dec (a i) v); [|congruence]. apply S.
      + intros u Hu. unfold world_of. destruct (mem u (vars N)) eqn:Em; auto. apply mem_In in Em. contradiction.
      + intros u Hu. rewrite world_in; auto.
    - intros H. apply sums_zero. intros b _ Hb. destruct (string_dec (b i) v) as [E|]; auto. apply weight_zero. auto.
  Qed.
  Lemma total_zero : total N L = 0 <-> forall a, okon (dom N) (vars N) a -> ruled_out N L a.
  Proof using HN HL.
    split.
    - intros E a Ha. apply world_ruled, weight_zero. pose proof (sums_zero_terms (dom N) (vars N) _ (weight_proper N L) no_asg) as S. cbv beta in S. specialize (S (fun c _ Hoc => weight_nonneg N L HN HL c Hoc) E (world_of a)). apply S.
      + intros u Hu. unfold world_of. destruct (mem u (vars N)) eqn:Em; auto. apply mem_In in Em. contradiction.
      + intros u Hu. rewrite world_in; auto.
    - intros H. apply sums_zero. intros b _ Hb. apply weight_zero. auto.
  Qed.
  Lemma ruled_dec a : {ruled_out N L a} + {~ ruled_out N L a}.
  Proof. destruct (Qc_eq_dec (weight N L a) 0) as [E|E]; [left|right]; rewrite <- weight_zero; auto. Qed.
  Lemma posterior_none i v : In i (vars N) -> (exact_posterior N L i v = 0 <-> forall a, left_over N L a -> a i <> v).
  Proof using HN HL.
    intros Hi. transitivity (mass_of N L i v = 0).
    - unfold exact_posterior. destruct (Qc_eq_dec (total N L) 0) as [E|E].
      + split; auto. intros _. apply mass_zero; auto. intros a Ha _. apply total_zero; auto.
      + split; intros H; [|rewrite H; unfold Qcdiv; ring]. unfold Qcdiv in H. apply Qcmult_integral in H. destruct H as [H|H]; auto. exfalso. apply E. rewrite <- (Qcmult_1_r (total N L)). rewrite <- (Qcmult_inv_r (total N L) E), H. ring.
    - rewrite mass_zero by auto. split.
      + intros H a [Ha Hn] E. apply Hn. auto.
      + intros H a Ha E. destruct (ruled_dec a) as [R|R]; auto. exfalso. apply (H a); auto. split; auto.
  Qed.
  Lemma some_left : total N L <> 0 <-> exists a, left_over N L a.
  Proof using HN HL.
    split.
    - intros H. destruct (sums_some (dom N) (vars N) (weight N L) no_asg H) as (b & Hb & W). exists b. split; auto. rewrite <- weight_zero. exact W.
    - intros (a & Ha & R) E. apply R. apply total_zero; auto.
  Qed.
  Lemma posterior_all i v : In i (vars N) -> In v (dom N i) -> (exact_posterior N L i v = 1 <-> (exists a, left_over N L a) /\ forall a, left_over N L a -> a i = v).
  Proof using HN HL.
    intros Hi Hv. destruct (Qc_eq_dec (total N L) 0) as [E|E].
    - split; [unfold exact_posterior; destruct (Qc_eq_dec (total N L) 0); [intros K; discriminate K|contradiction]|]. intros [Hs _]. apply some_left in Hs. contradiction.
    - assert (S : qsum (map (exact_posterior N L i) (dom N i)) = 1) by (apply posterior_sum; auto).
      assert (Others : exact_posterior N L i v = 1 <-> forall w, In w (dom N i) -> w <> v -> exact_posterior N L i w = 0).
      { destruct (ns_dom _ HN i Hi) as [Hd _]. apply one_of; auto. intros w Hw. apply posterior_nonneg; auto. }
      rewrite Others. split.
      + intros H. split; [apply some_left; auto|]. intros a Ha. destruct (string_dec (a i) v) as [|D]; auto. exfalso.
        pose proof (H (a i) (proj1 Ha i Hi) D) as Z. rewrite posterior_none in Z by auto. apply (Z a Ha). reflexivity.
      + intros [_ H] w Hw D. apply posterior_none; auto. intros a Ha Ew. apply D. rewrite <- Ew. auto.
  Qed.
End Left.
