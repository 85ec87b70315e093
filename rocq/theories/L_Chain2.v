(** Long chains need deep recursion: building a Dag. *)
From Verif Require Import Py M_Graph M_Node M_Pptc M_Depth Spec SpecNet SpecEv SpecGraph SpecDepth L_Base L_PD L_UG L_P3 L_R3 L_P6 L_Depth.
Open Scope nat_scope.

Lemma find_deep (adj : Z -> list Z) (stop : Z) n f : forall i seen,
  (forall k, i <= k < n -> adj (Z.of_nat k) <> [] /\ forall c, In c (adj (Z.of_nat k)) -> c = Z.of_nat (S k)) -> (stop < Z.of_nat i)%Z -> (forall x, In x seen -> (x < Z.of_nat i)%Z) ->
  f <= n - i -> pd_find adj stop f seen (Z.of_nat i) = None.
Proof.
  induction f as [|f IH]; intros i seen Ha Hs Hn Hf; auto. rewrite pd_find_S. destruct (Ha i ltac:(lia)) as [A1 A2]. destruct (mem_spec stop (adj (Z.of_nat i))) as [H|H]. { apply A2 in H. lia. }
  destruct (adj (Z.of_nat i)) as [|c l]; [congruence|]. assert (c = Z.of_nat (S i)) by (apply A2; left; auto). subst c. cbn [pd_loop]. destruct (mem_spec (Z.of_nat (S i)) (sadd seen (Z.of_nat i))) as [H'|H'].
  { apply sadd_In in H'. destruct H' as [H'|H']; [apply Hn in H'|]; lia. }
  rewrite IH; auto; try lia.
  - intros k Hk. apply Ha. lia.
  - intros x Hx. apply sadd_In in Hx. destruct Hx as [Hx|Hx]; [apply Hn in Hx|]; lia.
Qed.

Section Back.
  Context (o : Ord) (Ho : ord_ok o) (n : nat).
  Definition arrow (i : nat) : edge Z := mkEdge (Z.of_nat i) (Z.of_nat (S i)) DIRECTED.
  Definition from (m i : nat) : list (Ord * gop Z) := map (fun i => (o, AddE (arrow i))) (rev (seq i m)).
  Notation same_id := (fun x : Z => x).
  Lemma from_S m i : from (S m) i = from m (S i) ++ [(o, AddE (arrow i))].
  Proof using. unfold from. cbn [seq rev]. rewrite map_app. reflexivity. Qed.
  Lemma from_ok m i : orders_ok (from m i).
  Proof using Ho. unfold orders_ok, from. apply Forall_map. apply Forall_forall. intros; auto. Qed.
  Lemma up_path (R : Z -> Z -> Prop) : (forall x y, R x y -> (x < y)%Z) -> forall x y, path R x y -> (x <= y)%Z.
  Proof using. intros H. induction 1 as [x|x w y H1 H2 IH]; [lia|]. apply H in H1. lia. Qed.
  Lemma from_arcs m : forall i, exists g, dag_run same_id (from m i) = Ok g /\ forall x y, arc g x y <-> exists k, i <= k < i + m /\ x = Z.of_nat k /\ y = Z.of_nat (S k).
  Proof using Ho.
    induction m as [|m IH]; intros i. { exists g_empty. split; auto. intros x y. split; [intros []|]. intros [k [Hk _]]. lia. }
    destruct (IH (S i)) as [g [E A]]. rewrite from_S. destruct (@c22 Z same_id (from m (S i)) (from_ok m (S i))) as [g0 [E0 [_ Q]]]. rewrite E in E0. inversion E0; subst g0. destruct (Q o (arrow i) Ho) as [g' [E' [[_ F]|[F _]]]].
    - exists g'. split; auto. intros x y. rewrite F, A. cbn [arrow e_i e_j]. split.
      + intros [[k [Hk Ek]]|Ek]; [exists k|exists i]; split; auto; lia.
      + intros [k [Hk [-> ->]]]. destruct (Nat.eq_dec k i) as [->|Hne]; [right; auto|left]. exists k. split; auto. lia.
    - exfalso. apply F. unfold admissible. cbn [arrow e_i e_j e_t]. split; auto. split; [lia|]. rewrite !A. split; [intros [k Hk]; lia|]. split; [intros [k Hk]; lia|].
      intros Hp. apply up_path in Hp; [lia|]. intros x y Hxy. apply A in Hxy. destruct Hxy as [k Hk]. lia.
  Qed.
End Back.
Section Less.
  Context (d : nat) {N : Type} (nid : N -> Z).
  Lemma exists_less {K} `{EqB K} (adj : K -> list K) stop f i b : pd_exists adj stop f i = Ok b -> cut (pd_exists adj stop d i) (Ok b).
  Proof using.
    intros E. destruct (le_ge_dec d f) as [Hf|Hf]; pose proof (exists_more adj stop _ _ i Hf) as C. { rewrite <- E. exact C. } left. apply (cut_ok _ _ _ C E).
  Qed.
  Lemma dag_step_less g op g' : dag_step nid g op = Ok g' -> cut (dag_step_d d nid g op) (Ok g').
  Proof using.
    destruct op as [o [n|e|i]]; unfold dag_step, dag_step_d; cbn [fst snd]; intros E; try (left; exact E). unfold dag_add_edge in E. unfold dag_add_edge_d. apply rbind_Ok in E. destruct E as [b [E1 E2]]. rewrite <- E2. clear E2.
    assert (C : cut (dag_shouldadd_d d nid o (add_ends nid g e) e) (Ok b)); [|destruct C as [C|C]; rewrite C; [left|right]; auto]. revert E1. unfold dag_shouldadd, dag_shouldadd_d. destruct (e_t e); [intros <-; left; auto|].
    destruct (Z.eqb _ _); [intros <-; left; auto|]. destruct (_ && _); [|intros <-; left; auto]. intros E. apply rbind_Ok in E. destruct E as [b' [E1 E2]]. destruct (exists_less _ _ _ _ _ E1) as [C|C]; rewrite C; [left|right]; auto.
  Qed.
  Lemma dag_run_less ops : forall g g', foldM (dag_step nid) ops g = Ok g' -> cut (foldM (dag_step_d d nid) ops g) (Ok g').
  Proof using.
    induction ops as [|op ops IH]; intros g g' E; simpl in *; [left; auto|]. apply rbind_Ok in E. destruct E as [g1 [E1 E2]]. destruct (dag_step_less _ _ _ E1) as [C|C]; rewrite C; [|right; auto]. cbn [rbind]. apply IH; auto.
  Qed.
End Less.
Lemma foldM_app {A B} (f : B -> A -> res B) l1 l2 b : foldM f (l1 ++ l2) b = (b' <- foldM f l1 b ;; foldM f l2 b').
Proof. revert b. induction l1 as [|a l IH]; intros b; simpl; auto. destruct (f b a); simpl; auto. Qed.
Theorem back_deep d n o : d < n -> ord_ok o -> dag_run_d d (fun x : Z => x) (backwards o n) = Err OutOfFuel /\ exists g, dag_run (fun x : Z => x) (backwards o n) = Ok g.
Proof.
  intros Hd Ho. assert (Hb : backwards o n = from o n 0) by reflexivity. rewrite Hb. split; [|destruct (from_arcs o Ho n 0) as [g [E _]]; eauto].
  destruct n as [|m]; [lia|]. rewrite from_S. unfold dag_run_d. rewrite foldM_app. destruct (from_arcs o Ho m 1) as [g [E A]]. destruct (dag_run_less d _ _ _ _ E) as [C|C]; rewrite C; [|auto]. cbn [rbind foldM]. unfold dag_step_d. cbn [fst snd]. unfold dag_add_edge_d.
  set (g1 := add_ends (fun x : Z => x) g (arrow 0)). assert (A1 : forall x y, arc g1 x y <-> arc g x y). { intros x y. unfold g1, add_ends, arc, emap, add_node. repeat (destruct (dmem _ _)); reflexivity. }
  unfold dag_shouldadd_d. cbn [arrow e_t e_i e_j]. change (Z.eqb (Z.of_nat 0) (Z.of_nat 1)) with false. cbn iota.
  assert (M1 : mem (Z.of_nat 1) (emap g1 (Z.of_nat 0)) = false). { apply mem_false. intros H. apply A1, A in H. destruct H as [k Hk]. lia. }
  assert (M2 : mem (Z.of_nat 0) (emap g1 (Z.of_nat 1)) = false). { apply mem_false. intros H. apply A1, A in H. destruct H as [k Hk]. lia. }
  rewrite M1, M2. cbn [negb andb]. unfold pd_exists. destruct (eqb_spec (Z.of_nat 1) (Z.of_nat 0)) as [H|H]; [lia|]. rewrite (find_deep _ _ (1 + m) d 1 []); [reflexivity| | lia | intros x [] | lia].
  intros k Hk. unfold get_children. assert (Hin : forall c, In c (zord o (Z.of_nat k) (emap g1 (Z.of_nat k))) <-> c = Z.of_nat (S k)).
  { intros c. rewrite zord_In by auto. change (In c (emap g1 (Z.of_nat k))) with (arc g1 (Z.of_nat k) c). rewrite A1, A. split; [intros [k' Hk']; lia|]. intros ->. exists k. split; auto. }
  split; [|intros c Hc; apply Hin; auto]. intros E0. assert (Hx : In (Z.of_nat (S k)) (zord o (Z.of_nat k) (emap g1 (Z.of_nat k)))) by (apply Hin; auto). rewrite E0 in Hx. destruct Hx.
Qed.
