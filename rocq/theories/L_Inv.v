(** Every square array of rationals has an inverse or sends a nonzero vector to zero, so a function that inverts
    all that can be inverted exists. *)
From Verif Require Import Py M_Gauss SpecGauss L_Base L_Sums L_Gauss L_Gauss2.
Open Scope Qc_scope.

Section Size.
  Context (k : nat).
  (** the product of a row and a column *)
  Definition app_row (r v : nat -> Qc) : Qc := qsum (map (fun c => r c * v c) (seq 0 k)).
  Definition kernel (a : arr) (v : nat -> Qc) : Prop := forall i, (i < k)%nat -> app_row (a i) v = 0.
  Definition injective (d : arr) : Prop := forall v, kernel d v -> forall i, (i < k)%nat -> v i = 0.
  Definition rowop (u : nat -> Qc) (s : nat) (m : arr) : arr := fun i l => m i l + u i * m s l.

  Lemma app_rowop u s m i v : app_row (rowop u s m i) v = app_row (m i) v + u i * app_row (m s) v.
  Proof.
    unfold app_row, rowop. rewrite <- qsum_map_mult, <- qsum_map_plus. apply qsum_map_ext. intros c _. ring.
  Qed.
  Lemma rowop_injective u s d : (s < k)%nat -> 1 + u s <> 0 -> injective d -> injective (rowop u s d).
  Proof.
    intros Hs N J v K i Hi. apply (J v); [|exact Hi]. intros r Hr.
    assert (Z : app_row (d s) v = 0).
    { pose proof (K s Hs) as E. rewrite app_rowop in E. assert (E' : (1 + u s) * app_row (d s) v = 0) by (rewrite <- E; ring).
      apply Qcmult_integral in E'. tauto. }
    pose proof (K r Hr) as E. rewrite app_rowop, Z in E. rewrite <- E. ring.
  Qed.
  Lemma seq_select (F : nat -> Qc) (i n b : nat) : (b <= i < b + n)%nat -> qsum (map (fun c => delta i c * F c) (seq b n)) = F i.
  Proof.
    revert b. induction n as [|n IH]; intros b Hi; [lia|]. cbn [seq map]. rewrite qsum_cons. destruct (Nat.eq_dec b i) as [->|D].
    - unfold delta at 1. rewrite Nat.eqb_refl, qsum_map_zero; [ring|]. intros c Hc. apply in_seq in Hc. unfold delta.
      destruct (Nat.eqb_spec i c); [lia|ring].
    - rewrite IH by lia. unfold delta. destruct (Nat.eqb_spec i b); [congruence|ring].
  Qed.
  Lemma app_assoc_rows (d a : arr) i v : app_row (fun l => app_row (d i) (fun r => a r l)) v = app_row (d i) (fun r => app_row (a r) v).
  Proof.
    unfold app_row.
    rewrite (qsum_map_ext (fun c => qsum (map (fun r => d i r * a r c) (seq 0 k)) * v c) (fun c => qsum (map (fun r => d i r * (a r c * v c)) (seq 0 k)))).
    2:{ intros c _. rewrite <- qsum_map_mult_r. apply qsum_map_ext. intros. ring. }
    rewrite qsum_swap. apply qsum_map_ext. intros r _. rewrite qsum_map_mult. reflexivity.
  Qed.
  Lemma app_row_ext r r' v v' : (forall c, (c < k)%nat -> r c = r' c) -> (forall c, (c < k)%nat -> v c = v' c) -> app_row r v = app_row r' v'.
  Proof. intros H1 H2. apply qsum_map_ext. intros c Hc. apply in_seq in Hc. rewrite H1, H2 by lia. reflexivity. Qed.
  Lemma app_row_minus r v w : app_row r (fun c => v c - w c) = app_row r v - app_row r w.
  Proof.
    unfold app_row. rewrite (qsum_map_ext (fun c => r c * (v c - w c)) (fun c => r c * v c + - (r c * w c))) by (intros; ring).
    rewrite qsum_map_plus, qsum_map_opp. ring.
  Qed.

  (** the state of elimination: [d] times [a] is [c], and the first [j] columns of [c] are done *)
  Definition stage (a : arr) (j : nat) (c d : arr) : Prop :=
    injective d /\ (forall i l, (i < k)%nat -> (l < k)%nat -> app_row (d i) (fun r => a r l) = c i l) /\
    (forall i l, (i < k)%nat -> (l < j)%nat -> c i l = delta i l).

  Lemma stage_rowop a j c d u s : (s < k)%nat -> 1 + u s <> 0 -> stage a j c d ->
    (forall l, (l < j)%nat -> c s l = 0) -> stage a j (rowop u s c) (rowop u s d).
  Proof.
    intros Hs N (J & P & C) Z. split; [apply rowop_injective; assumption|]. split.
    - intros i l Hi Hl. rewrite app_rowop, !P by assumption. reflexivity.
    - intros i l Hi Hl. unfold rowop. rewrite Z, C by assumption. ring.
  Qed.

  Lemma pivot (c : arr) j : {p | (j <= p < k)%nat /\ c p j <> 0} + {forall p, (j <= p < k)%nat -> c p j = 0}.
  Proof.
    destruct (find (fun p => negb (qeqb (c p j) 0)) (seq j (k - j))) as [p|] eqn:F.
    - left. exists p. apply find_some in F. destruct F as [F1 F2]. apply in_seq in F1. split; [lia|].
      intros E. rewrite E in F2. vm_compute in F2. discriminate.
    - right. intros p Hp. pose proof (find_none _ _ F p) as Q. rewrite in_seq in Q. specialize (Q ltac:(lia)). cbn beta in Q.
      apply negb_false_iff in Q. unfold qeqb in Q. destruct (Qc_eq_dec (c p j) 0); [assumption|discriminate].
  Qed.

  Lemma one_neq_zero : (1 : Qc) <> 0. Proof. intros E. discriminate E. Qed.

  Lemma stage_step a j c d : (j < k)%nat -> stage a j c d ->
    {cd | stage a (S j) (fst cd) (snd cd)} + {v | kernel a v /\ v j = 1}.
  Proof.
    intros Hj St. destruct (pivot c j) as [(p & Hp & Np)|None].
    - left.
      (* make the entry on the diagonal nonzero *)
      assert (St1 : {cd | stage a j (fst cd) (snd cd) /\ fst cd j j <> 0}).
      { destruct (Qc_eq_dec (c j j) 0) as [E|E]; [|exists (c, d); auto].
        destruct (Nat.eq_dec p j) as [->|D]; [contradiction|].
        exists (rowop (fun i => if Nat.eqb i j then 1 else 0) p c, rowop (fun i => if Nat.eqb i j then 1 else 0) p d). cbn [fst snd]. split.
        - apply stage_rowop; auto; [lia| |].
          + destruct (Nat.eqb_spec p j); [contradiction|]. rewrite Qcplus_0_r. exact one_neq_zero.
          + intros l Hl. destruct St as (_ & _ & C). rewrite C by lia. unfold delta. destruct (Nat.eqb_spec p l); [lia|reflexivity].
        - unfold rowop. rewrite Nat.eqb_refl, E. intros Q. apply Np. rewrite <- Q. ring. }
      clear c d St Hp Np p. destruct St1 as ([c d] & St & Nq). cbn [fst snd] in *. set (q := c j j) in *.
      exists (rowop (fun i => if Nat.eqb i j then / q - 1 else - c i j / q) j c, rowop (fun i => if Nat.eqb i j then / q - 1 else - c i j / q) j d). cbn [fst snd].
      assert (Z : forall l, (l < j)%nat -> c j l = 0).
      { intros l Hl. destruct St as (_ & _ & C). rewrite C by lia. unfold delta. destruct (Nat.eqb_spec j l); [lia|reflexivity]. }
      assert (St2 : stage a j (rowop (fun i => if Nat.eqb i j then / q - 1 else - c i j / q) j c) (rowop (fun i => if Nat.eqb i j then / q - 1 else - c i j / q) j d)).
      { apply stage_rowop; auto. rewrite Nat.eqb_refl. intros Q. apply one_neq_zero. transitivity (q * (1 + (/ q - 1))); [field; exact Nq|rewrite Q; ring]. }
      destruct St2 as (J & P & C). split; [exact J|]. split; [exact P|]. intros i l Hi Hl.
      destruct (Nat.eq_dec l j) as [->|D]; [|apply C; lia]. unfold rowop. fold q. unfold delta.
      destruct (Nat.eqb_spec i j) as [->|Ni]; [fold q|]; field; exact Nq.
    - right. set (v := fun l => if Nat.ltb l j then - c l j else delta j l).
      exists v. split; [|unfold v, delta; rewrite Nat.eqb_refl; destruct (Nat.ltb_spec j j); [lia|reflexivity]].
      destruct St as (J & P & C). intros i Hi. apply (J (fun r => app_row (a r) v)); [|exact Hi]. intros r Hr.
      rewrite <- app_assoc_rows. rewrite (app_row_ext _ (c r) v v) by (auto).
      unfold app_row.
      assert (Split : seq 0 k = seq 0 j ++ seq j (k - j)) by (rewrite <- seq_app; f_equal; lia).
      rewrite Split, map_app, qsum_app.
      rewrite (qsum_map_ext (fun l => c r l * v l) (fun l => delta r l * - c l j) (seq 0 j)).
      2:{ intros l Hl. apply in_seq in Hl. rewrite C by lia. unfold v. destruct (Nat.ltb_spec l j); [reflexivity|lia]. }
      rewrite (qsum_map_ext (fun l => c r l * v l) (fun l => delta j l * c r l) (seq j (k - j))).
      2:{ intros l Hl. apply in_seq in Hl. unfold v. destruct (Nat.ltb_spec l j); [lia|]. ring. }
      rewrite (seq_select (fun l => c r l)) by lia.
      destruct (Nat.ltb_spec r j) as [L|L].
      + rewrite (seq_select (fun l => - c l j)) by lia. ring.
      + rewrite qsum_map_zero; [rewrite (None r) by lia; ring|]. intros l Hl. apply in_seq in Hl. unfold delta. destruct (Nat.eqb_spec r l); [lia|ring].
  Qed.

  Lemma stages a : forall j, (j <= k)%nat -> {cd | stage a j (fst cd) (snd cd)} + {v | kernel a v /\ exists i, (i < k)%nat /\ v i = 1}.
  Proof.
    induction j as [|j IH]; intros Hj.
    - left. exists (a, delta). cbn [fst snd]. split; [|split].
      + intros v K i Hi. pose proof (K i Hi) as E. unfold app_row in E. rewrite (seq_select v) in E by lia. exact E.
      + intros i l Hi Hl. unfold app_row. rewrite (seq_select (fun r => a r l)) by lia. reflexivity.
      + intros i l _ Hl. lia.
    - destruct IH as [([c d] & St)|K]; [lia| |right; exact K].
      destruct (stage_step a j c d ltac:(lia) St) as [R|(v & K & V)]; [left; exact R|]. right. exists v. split; [exact K|]. exists j. split; [lia|exact V].
  Qed.

  Lemma invert a : {b | inverse k a b} + {v | kernel a v /\ exists i, (i < k)%nat /\ v i = 1}.
  Proof.
    destruct (stages a k (le_n k)) as [([c d] & J & P & C)|K]; [left|right; exact K]. cbn [fst snd] in *. exists d.
    intros i j Hi Hj. split; [|change (app_row (d i) (fun r => a r j) = delta i j); rewrite P, C by assumption; reflexivity].
    change (app_row (a i) (fun r => d r j) = delta i j).
    assert (Z : app_row (a i) (fun r => d r j) - delta i j = 0).
    { apply (J (fun r => app_row (a r) (fun s => d s j) - delta r j)); [|exact Hi]. intros r Hr. rewrite app_row_minus.
      rewrite <- (app_assoc_rows d a r (fun s => d s j)). rewrite (app_row_ext _ (fun l => delta r l) _ (fun s => d s j)); [|intros l Hl; rewrite P, C by assumption; reflexivity|reflexivity].
      unfold app_row. rewrite (seq_select (fun s => d s j)) by lia.
      rewrite (qsum_map_ext (fun l => d r l * delta l j) (fun l => delta j l * d r l)).
      2:{ intros l _. unfold delta. rewrite (Nat.eqb_sym l j). ring. }
      rewrite (seq_select (fun l => d r l)) by lia. ring. }
    transitivity (app_row (a i) (fun r => d r j) - delta i j + delta i j); [ring|rewrite Z; ring].
  Qed.
End Size.

Definition some_inv (k : nat) (a : arr) : res arr := match invert k a with inl (exist _ b _) => Ok b | inr _ => Err ValueError end.
Lemma some_inv_ok : inv_sound some_inv /\ inv_total some_inv.
Proof.
  split.
  - intros k a b. unfold some_inv. destruct (invert k a) as [(b' & B)|K]; [|discriminate]. intros E. injection E as <-. exact B.
  - intros k a (b & B). unfold some_inv. destruct (invert k a) as [(b' & B')|(v & K & i & Hi & V)]; [eauto|]. exfalso.
    assert (Z : v i = 0).
    { rewrite <- (seq_select v i k 0) by lia.
      transitivity (app_row k (fun l => app_row k (b i) (fun r => a r l)) v).
      - apply app_row_ext; [|reflexivity]. intros l Hl. destruct (B i l Hi Hl) as [_ E]. symmetry. exact E.
      - rewrite app_assoc_rows. unfold app_row at 1. apply qsum_map_zero. intros r Hr. apply in_seq in Hr. rewrite K by lia. ring. }
    rewrite V in Z. exact (one_neq_zero Z).
Qed.
