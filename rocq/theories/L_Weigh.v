(** Evidence weighs the answers to observations. *)
From Verif Require Import Py M_Graph M_Node M_Pptc Spec SpecNet SpecEv SpecSep L_Base L_PD L_Sums L_Table L_Tree L_Walk L_Forest L_Root L_Good L_Prop L_Init L_Post L_Read L_Ids L_Trans L_Elim L_UG L_Tri L_Moral L_Build L_Exact L_Apply L_Net L_Evid L_Hist L_Claims L_P1 L_P2 L_Build SpecCohere L_Cohere L_Virt L_Left L_Left2.
Open Scope Qc_scope.

Section Net.
  Context (N : net) (L : likelihood) (e : evidence) (HN : nshape N) (HL : forall i v, In i (vars N) -> In v (dom N i) -> 0 <= L i v).
  Context (Hi : In (ev_node e) (vars N)) (Hf : free N L (ev_node e)).
  Local Notation i := (ev_node e).
  Local Notation l := (like_of e).

  Lemma weight_assim b : okon (dom N) (vars N) b -> weight N (assimilate L e) b = l (b i) * weight N L b.
  Proof using HN Hi Hf.
    intros Hb. assert (H1 : L i (b i) = 1) by (apply Hf; apply Hb; auto). unfold weight. enough (Q : qprod (map (fun x => assimilate L e x (b x)) (vars N)) = l (b i) * qprod (map (fun x => L x (b x)) (vars N))) by (rewrite Q; ring).
    pose proof (ns_nd _ HN) as HD. revert Hi HD. generalize (vars N) as m. clear - H1.
    assert (G : forall m, ~ In i m -> map (fun x => assimilate L e x (b x)) m = map (fun x => L x (b x)) m).
    { intros k Hm. apply map_ext_in. intros x Hx. unfold assimilate. destruct (Z.eqb_spec x i) as [->|]; [contradiction|reflexivity]. }
    induction m as [|x m IH]; intros Hq HD; [destruct Hq|]. inversion HD; subst. cbn [map]. rewrite !qprod_cons. destruct Hq as [->|Hq].
    - rewrite G by auto. unfold assimilate at 1. rewrite Z.eqb_refl, H1. ring.
    - rewrite IH by auto. unfold assimilate at 1. destruct (Z.eqb_spec x i) as [->|]; [contradiction|ring].
  Qed.
  Lemma split_on g : proper g -> sums (dom N) (vars N) g no_asg = qsum (map (fun v => sums (dom N) (vars N) (fun a => if string_dec (a i) v then g a else 0) no_asg) (dom N i)).
  Proof using HN Hi.
    clear HL Hf L. intros Pr. pose proof (ns_nd _ HN) as HV. destruct (ns_dom _ HN i Hi) as [Hd _].
    assert (P : Permutation (vars N) ([i] ++ minus (vars N) [i])). { apply minus_perm; auto. constructor; [tauto|constructor]. intros z [<-|[]]; auto. }
    rewrite (sums_perm _ _ _ _ _ Pr P) at 1. rewrite sums_app. simpl. apply qsum_map_ext. intros x Hx. symmetry. apply sums_split_select; auto.
  Qed.
  Lemma weighed (g : asg -> Qc) : proper g -> sums (dom N) (vars N) (fun b => l (b i) * g b) no_asg =
    qsum (map (fun v => l v * sums (dom N) (vars N) (fun a => if string_dec (a i) v then g a else 0) no_asg) (dom N i)).
  Proof using HN Hi.
    intros Pr. rewrite split_on by (intros a a' Ha; rewrite (Ha i), (Pr a a' Ha); reflexivity). apply qsum_map_ext. intros v _. rewrite <- sums_mult_const. apply sums_ext. intros a.
    destruct (string_dec (a i) v) as [->|]; [reflexivity|ring].
  Qed.
  Lemma total_assim : total N (assimilate L e) = qsum (map (fun v => l v * mass_of N L i v) (dom N i)).
  Proof using HN Hi Hf.
    unfold mass_of. rewrite <- weighed by (apply weight_proper). unfold total. apply sums_ext_gen. intros b _ Hb. apply weight_assim; auto.
  Qed.
  Lemma mass_assim k y : mass_of N (assimilate L e) k y = qsum (map (fun v => l v * both N L i v k y) (dom N i)).
  Proof using HN Hi Hf.
    unfold both. rewrite <- (weighed (fun a => if string_dec (a k) y then weight N L a else 0)).
    - unfold mass_of. apply sums_ext_gen. intros b _ Hb. cbv beta. rewrite weight_assim by auto. destruct (string_dec (b k) y); ring.
    - intros a a' Ha. rewrite (Ha k), (weight_proper N L a a' Ha). reflexivity.
  Qed.
  Lemma mass_zero_total j v : In j (vars N) -> total N L = 0 -> mass_of N L j v = 0.
  Proof using HN HL. intros Hj Z. apply mass_zero; auto. intros a Ha _. pose proof (proj1 (total_zero N L HN HL) Z) as T. auto. Qed.
  Lemma weighs k y : In k (vars N) ->
    exact_posterior N (assimilate L e) k y * qsum (map (fun v => l v * exact_posterior N L i v) (dom N i)) =
    qsum (map (fun v => l v * exact_posterior N L i v * exact_posterior N (observing L i v) k y) (dom N i)).
  Proof using HN HL Hi Hf.
    intros Hk. rewrite (qsum_map_ext (fun v => l v * exact_posterior N L i v * _) (fun v => l v * (if Qc_eq_dec (total N L) 0 then 0 else both N L i v k y / total N L))) by (intros v _; rewrite <- product; auto; ring).
    unfold exact_posterior. rewrite total_assim, mass_assim. destruct (Qc_eq_dec (total N L) 0) as [E|E].
    - rewrite !(qsum_map_zero (fun v => l v * 0)) by (intros; ring). ring.
    - set (W := qsum (map (fun v => l v * mass_of N L i v) (dom N i))). set (B := qsum (map (fun v => l v * both N L i v k y) (dom N i))).
      replace (qsum (map (fun v => l v * (mass_of N L i v / total N L)) (dom N i))) with (1 / total N L * W). 2: { unfold W. rewrite <- qsum_map_mult. apply qsum_map_ext. intros. field. auto. }
      replace (qsum (map (fun v => l v * (both N L i v k y / total N L)) (dom N i))) with (1 / total N L * B). 2: { unfold B. rewrite <- qsum_map_mult. apply qsum_map_ext. intros. field. auto. }
      destruct (Qc_eq_dec W 0) as [Z|Z]; [|field; auto]. assert (B0 : B = 0); [|rewrite B0; ring]. apply qsum_map_zero. intros v Hv.
      assert (T : l v * mass_of N L i v = 0). { apply (qsum_zero_nonneg (map (fun v => l v * mass_of N L i v) (dom N i))); auto. 2: { apply (in_map (fun v => l v * mass_of N L i v)); auto. }
        intros x Hx. apply in_map_iff in Hx. destruct Hx as (w & <- & Hw). apply Qcle_0_mult; [apply like_unit|]. apply L_Claims.mass_nonneg; auto. }
      apply Qcmult_integral in T. destruct T as [->|T]; [ring|]. rewrite (both_zero N L HN HL i v k y T). ring.
  Qed.
  Lemma weighs_none k y : In k (vars N) -> qsum (map (fun v => l v * exact_posterior N L i v) (dom N i)) = 0 -> exact_posterior N (assimilate L e) k y = 0.
  Proof using HN HL Hi Hf.
    intros Hk E. unfold exact_posterior at 1. rewrite total_assim. destruct (Qc_eq_dec _ 0) as [|Z]; auto. exfalso. apply Z. clear Z. unfold exact_posterior in E. destruct (Qc_eq_dec (total N L) 0) as [T|T].
    - apply qsum_map_zero. intros v _. rewrite mass_zero_total by auto. ring.
    - rewrite (qsum_map_ext _ (fun v => 1 / total N L * (l v * mass_of N L i v))) in E by (intros; field; auto). rewrite qsum_map_mult in E. apply Qcmult_integral in E. destruct E as [E|E]; auto.
      exfalso. apply T. transitivity (total N L * total N L * (1 / total N L)); [field; auto|rewrite E; ring].
  Qed.
  Lemma both_self v w : v <> w -> both N L i v i w = 0.
  Proof. clear. intros D. apply sums_zero. intros b _ _. destruct (string_dec (b i) v); auto. destruct (string_dec (b i) w); auto. congruence. Qed.
  Lemma both_same v : both N L i v i v = mass_of N L i v.
  Proof. clear. unfold mass_of, both. apply sums_ext. intros a. destruct (string_dec (a i) v); auto. Qed.
  Lemma mass_assim_self w : In w (dom N i) -> mass_of N (assimilate L e) i w = l w * mass_of N L i w.
  Proof using HN Hi Hf.
    intros Hw. rewrite mass_assim. destruct (ns_dom _ HN i Hi) as [Hd _]. revert Hd Hw. generalize (dom N i) as m. induction m as [|x m IH]; intros Hd Hw; [destruct Hw|]. inversion Hd; subst. cbn [map]. rewrite qsum_cons.
    destruct (string_dec x w) as [->|D].
    - rewrite both_same, qsum_map_zero; [ring|]. intros v Hv. rewrite both_self; [ring|]. intros ->. contradiction.
    - rewrite both_self by auto. destruct Hw as [|Hw]; [congruence|]. rewrite (IH H2 Hw). ring.
  Qed.
  Lemma odds v w : In v (dom N i) -> In w (dom N i) ->
    exact_posterior N (assimilate L e) i v * (l w * exact_posterior N L i w) = exact_posterior N (assimilate L e) i w * (l v * exact_posterior N L i v).
  Proof using HN Hi Hf.
    intros Hv Hw. unfold exact_posterior. rewrite !mass_assim_self by auto. destruct (Qc_eq_dec (total N (assimilate L e)) 0); [ring|]. destruct (Qc_eq_dec (total N L) 0); [ring|]. field. auto.
  Qed.
  (** given a value, nothing else changes *)
  Lemma given v k y : In v (dom N i) -> l v <> 0 -> exact_posterior N (observing (assimilate L e) i v) k y = exact_posterior N (observing L i v) k y.
  Proof. intros _ _. apply posterior_agree. intros x z _ _. unfold observing, assimilate. destruct (Z.eqb_spec x i); auto. Qed.
End Net.
