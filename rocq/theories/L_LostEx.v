(** A network in three parts, two of which are lost when the join tree is saved and restored. *)
From Verif Require Import Py M_Graph M_Node M_Pptc M_Serde Spec SpecNet SpecEv SpecRe SpecSer SpecPart SpecLost L_Base L_Check Ex.
Open Scope nat_scope.

(** checks whether the variables [P] are a union of parts *)
Definition apartb (N : net) (P : list Z) : bool :=
  forallb (fun k => forallb (fun p => Bool.eqb (mem p P) (mem k P)) (par N k)) (vars N).
Definition moralb (N : net) (u v : Z) : bool :=
  existsb (fun i => mem u (par N i ++ [i]) && mem v (par N i ++ [i])) (vars N).
Lemma moralb_ok N u v : u <> v -> (moralb N u v = true <-> moral_edge N u v).
Proof.
  intros H. unfold moralb, moral_edge. rewrite existsb_exists. split.
  - intros [i [Hi E]]. apply andb_true_iff in E. destruct E as [E1 E2]. split; auto. exists i. repeat split; auto; apply mem_In; auto.
  - intros [_ [i [Hi [E1 E2]]]]. exists i. split; auto. apply andb_true_iff. split; apply mem_In; auto.
Qed.
Lemma apartb_ok N P : apartb N P = true -> forall i u, path (sym (is_parent N)) i u -> In i P -> In u P.
Proof.
  intros H i u Hp. induction Hp as [x|x y z S _ IH]; auto. intros Hx. apply IH. unfold apartb in H. rewrite forallb_forall in H.
  destruct S as [[S1 S2]|[S1 S2]]; specialize (H _ S1); rewrite forallb_forall in H; specialize (H _ S2); apply Bool.eqb_prop in H;
    apply mem_In; apply mem_In in Hx; congruence.
Qed.
Lemma solid_ok N P i : apartb N P = true -> forallb (fun u => forallb (fun v => eqb u v || moralb N u v) P) P = true -> In i P -> solid N i.
Proof.
  intros A M Hi u v Pu Pv Huv. apply apartb_ok with (P := P) in Pu; auto. apply apartb_ok with (P := P) in Pv; auto.
  rewrite forallb_forall in M. specialize (M u Pu). rewrite forallb_forall in M. specialize (M v Pv). apply orb_true_iff in M. destruct M as [M|M].
  - apply eqb_true in M. congruence.
  - apply moralb_ok; auto.
Qed.
Definition linkb (N : net) (x y : Z) : bool := (mem y (vars N) && mem x (par N y)) || (mem x (vars N) && mem y (par N x)).
Fixpoint trailb (N : net) (x : Z) (l : list Z) : bool := match l with [] => true | y :: t => linkb N x y && trailb N y t end.
Lemma trailb_ok N l : forall x, trailb N x l = true -> path (sym (is_parent N)) x (last l x).
Proof.
  induction l as [|y t IH]; intros x H; [constructor|]. simpl in H. apply andb_true_iff in H. destruct H as [H1 H2].
  apply path_step with y. 2:{ replace (last (y :: t) x) with (last t y). auto. destruct t; simpl; auto. clear. revert z. induction t; simpl; auto. }
  unfold linkb in H1. apply orb_true_iff in H1. destruct H1 as [H1|H1]; apply andb_true_iff in H1; destruct H1 as [A B]; apply mem_In in A; apply mem_In in B; [left|right]; split; auto.
Qed.
Lemma loose_ok N i l l' : trailb N i l && trailb N i l' && negb (eqb (last l i) (last l' i)) && negb (moralb N (last l i) (last l' i)) = true -> ~ solid N i.
Proof.
  rewrite !andb_true_iff, !negb_true_iff. intros [[[T1 T2] D] M] S. apply trailb_ok in T1. apply trailb_ok in T2.
  assert (E : last l i <> last l' i). { intros E. rewrite E, eqb_refl in D. discriminate. }
  pose proof (S _ _ T1 T2 E) as H. apply moralb_ok in H; auto. congruence.
Qed.

(** 1 and 2 are the parents of 3; 4 -> 5 -> 6; 7 alone *)
Definition w_3 := new_node 3 "v3" ["on"; "off"]%string
  [qfrac 1 3; qfrac 2 3; qfrac 3 4; qfrac 1 4; qfrac 1 2; qfrac 1 2; qfrac 1 5; qfrac 4 5].
Definition w_2 := new_node 2 "v2" ["on"; "off"]%string [qfrac 3 5; qfrac 2 5].
Definition w_7 := new_node 7 "v7" ["a"; "b"; "c"]%string [qfrac 1 3; qfrac 1 3; qfrac 1 3].
Definition pieces : list bop := [AddEdge n_1 w_3; AddEdge w_2 w_3; AddEdge n_4 n_5; AddNode w_7; AddEdge n_5 n_6].
Lemma pieces_ok : well_shaped pieces.
Proof. apply well_shapedb_ok. vm_compute. reflexivity. Qed.
Definition pieces_left : net :=
  let N := net_of pieces in let f i := mem i [4; 5; 6]%Z in
  mkNet (filter f (vars N)) (dom N) (fun i => if f i then par N i else []) (cpt N).

Lemma pieces_left_of : left_of (net_of pieces) pieces_left.
Proof.
  exists (fun i => mem i [4; 5; 6]%Z). split; [|reflexivity]. intros i Hi.
  assert (L4 : ~ solid (net_of pieces) 4). { apply loose_ok with (l := []) (l' := [5; 6]%Z). vm_compute. reflexivity. }
  assert (L5 : ~ solid (net_of pieces) 5). { apply loose_ok with (l := [4]%Z) (l' := [6]%Z). vm_compute. reflexivity. }
  assert (L6 : ~ solid (net_of pieces) 6). { apply loose_ok with (l := [5; 4]%Z) (l' := []). vm_compute. reflexivity. }
  assert (S : forall k, In k [1; 2; 3]%Z -> solid (net_of pieces) k). { intros k. apply solid_ok; vm_compute; reflexivity. }
  assert (S' : forall k, In k [7]%Z -> solid (net_of pieces) k). { intros k. apply solid_ok; vm_compute; reflexivity. }
  assert (V : In 4%Z (vars (net_of pieces))). { apply mem_In. vm_compute. reflexivity. }
  assert (Q : forallb (fun k => mem k ([4; 5; 6] ++ [1; 2; 3] ++ [7])%Z) (vars (net_of pieces)) = true). { vm_compute. reflexivity. }
  rewrite forallb_forall in Q. specialize (Q i Hi). apply mem_In in Q. apply in_app_or in Q. rewrite mem_In. split.
  - intros [<-|[<-|[<-|[]]]]; right; auto.
  - intros [A|A]; [exfalso; auto|]. destruct Q as [Q|Q]; auto. apply in_app_or in Q. destruct Q as [Q|Q]; exfalso; auto.
Qed.
(** solid parts alone: nothing is lost *)
Definition sands : list bop := [AddEdge n_1 w_3; AddEdge w_2 w_3; AddEdge n_4 n_5; AddNode w_7].
Lemma sands_ok : well_shaped sands.
Proof. apply well_shapedb_ok. vm_compute. reflexivity. Qed.
Definition all_of (N : net) : net := mkNet (filter (fun _ => true) (vars N)) (dom N) (fun i => par N i) (cpt N).
Lemma sands_left_of : left_of (net_of sands) (all_of (net_of sands)).
Proof.
  exists (fun _ => true). split; [|reflexivity]. intros i Hi. split; auto. intros _. left. intros k Hk.
  assert (S : forall k, In k [1; 2; 3]%Z -> solid (net_of sands) k). { intros k'. apply solid_ok; vm_compute; reflexivity. }
  assert (S' : forall k, In k [4; 5]%Z -> solid (net_of sands) k). { intros k'. apply solid_ok; vm_compute; reflexivity. }
  assert (S2 : forall k, In k [7]%Z -> solid (net_of sands) k). { intros k'. apply solid_ok; vm_compute; reflexivity. }
  assert (Q : forallb (fun k => mem k ([1; 2; 3] ++ [4; 5] ++ [7])%Z) (vars (net_of sands)) = true). { vm_compute. reflexivity. }
  rewrite forallb_forall in Q. specialize (Q k Hk). apply mem_In in Q. apply in_app_or in Q. destruct Q as [Q|Q]; auto. apply in_app_or in Q. destruct Q; auto.
Qed.

Definition e_1 := build_evidence n_1 OBSERVATION [("on"%string, 1%Qc)].
Definition e_6 := build_evidence n_6 VIRTUAL [("on"%string, qfrac 1 2); ("off"%string, qfrac 1 4)].
Definition pieces_acts : list act :=
  [Do (Evidence ord_id (Update [e_1; e_6])); Reload ord_rev ord_id true; Do (Evidence ord_rev (Update [e_6]))].
Definition pieces_end : situation := after (pieces_left, (no_evidence, no_evidence)) (Evidence ord_rev (Update [e_6])).
Lemma pieces_went : went (start pieces) pieces_acts pieces_end.
Proof.
  apply went_do.
  - split; [exact ord_id_ok|]. apply valid_callb_ok. vm_compute. reflexivity.
  - apply went_reload with pieces_left; [exact ord_rev_ok|exact ord_id_ok|exact pieces_left_of|].
    apply went_do; [|apply went_nil]. split; [exact ord_rev_ok|]. apply valid_callb_ok. vm_compute. reflexivity.
Qed.
