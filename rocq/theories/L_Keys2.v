(** The networkx graph of a Dag after any calls. *)
From Verif Require Import Py M_Graph M_Node M_Nx M_GraphNx Spec SpecGraph SpecKeys L_Base L_PD L_UG L_Ids L_Elim L_Trans L_Tri L_Moral L_Nx L_P3 L_R3 L_P6 L_Keys.

Section Q.
  Context {N : Type} (nid : N -> Z) (name : N -> string).
  Notation dadds := (fun op : Ord * gop N => added (snd op)).

  Lemma accepts_dec ops op f : orders_ok (ops ++ [op]) -> dag_accepts nid ops f \/ ~ dag_accepts nid ops f.
  Proof.
    intros H. apply orders_snoc in H. destruct H as [H Ho]. destruct (dag_ok nid ops H) as [g [E [G _]]]. destruct (dag_add nid (fst op) g f Ho G) as [g' [_ [_ [_ [[D _]|[D _]]]]]].
    - left. exists g. auto.
    - right. intros [g1 [E1 Ha]]. rewrite E in E1. inversion E1; subst. auto.
  Qed.
  Lemma link_dec e f : same_link nid e f \/ ~ same_link nid e f.
  Proof. rewrite <- !key_link. destruct (string_dec (edge_key nid e) (edge_key nid f)); auto. Qed.
  Lemma last_ever ops x y : orders_ok ops -> (exists e, last_accepted nid dadds (dag_accepts nid) ops e /\ nid (e_i e) = x /\ nid (e_j e) = y) <-> ever_accepted nid dadds (dag_accepts nid) ops x y.
  Proof.
    intros HO. split.
    - intros [e [[b [op [a [E [Ha [Hc _]]]]]] [E1 E2]]]. exists b, op, a, e. auto.
    - revert HO. induction ops as [|op ops IH] using rev_ind; intros HO [b [op0 [a [e [E [Ha [Hc [E1 E2]]]]]]]]; [destruct b; discriminate|].
      destruct a as [|z a _] using rev_ind.
      + apply app_inj_tail in E. destruct E as [-> ->]. exists e. rewrite last_snoc. auto.
      + assert (E' : ops ++ [op] = (b ++ op0 :: a) ++ [z]) by (rewrite E, <- app_assoc; auto). apply app_inj_tail in E'. destruct E' as [-> ->].
        pose proof (orders_snoc _ _ HO) as [HO' _]. destruct (IH HO') as [w [Hw [W1 W2]]]. { exists b, op0, a, e. auto 6. }
        assert (D : (exists f, added (snd z) = Some f /\ dag_accepts nid (b ++ op0 :: a) f /\ same_link nid w f) \/ ~ exists f, added (snd z) = Some f /\ dag_accepts nid (b ++ op0 :: a) f /\ same_link nid w f).
        { destruct (added (snd z)) as [f|]; [|right; intros [f [Hf _]]; discriminate].
          destruct (accepts_dec (b ++ op0 :: a) z f HO) as [A|A]; [|right; intros [f' [Hf [Hc' _]]]; inversion Hf; subst; auto].
          destruct (link_dec w f) as [L|L]; [left; eauto|right; intros [f' [Hf [_ Hl]]]; inversion Hf; subst; auto]. }
        destruct D as [[f [F1 [F2 F3]]]|D].
        * exists f. rewrite last_snoc. split; auto. destruct F2 as [g [_ [Ht _]]]. destruct F3 as [Et F3]. rewrite Ht in Et. destruct F3 as [[Q1 Q2]|[Q _]]; [|congruence]. split; congruence.
        * exists w. rewrite last_snoc. auto.
  Qed.

  Lemma nx_nodes_all (l : list (string * edge N)) : forall d x, In x (dg_nodes (fold_left (fun d ke => dg_add_edge d (nid (e_i (snd ke))) (nid (e_j (snd ke)))) l d)) <->
    In x (dg_nodes d) \/ exists e, In e (dvals l) /\ (nid (e_i e) = x \/ nid (e_j e) = x).
  Proof.
    induction l as [|[k e] l IH]; intros d x; simpl.
    - split; auto. intros [H|[e [[] _]]]; auto.
    - rewrite IH, add_edge_nodes, !sadd_In. split.
      + intros [[[H| ->]| ->]|[e' [H1 H2]]]; auto; right; [exists e|exists e|exists e']; auto.
      + intros [H|[e' [[<-|H1] [<-|<-]]]]; auto; right; eauto.
  Qed.

  Lemma c53_any : forall ops, orders_ok ops -> exists g, dag_run nid ops = Ok g /\
    let '(d, labels) := to_nx_graph nid name g in
    NoDup (dg_nodes d) /\ NoDup (dg_edges d) /\
    (forall x y, In (x, y) (dg_edges d) <-> ever_accepted nid (fun op => added (snd op)) (dag_accepts nid) ops x y) /\
    (forall x, In x (dg_nodes d) <-> In x (dkeys (g_nodes g)) \/ exists y, In (x, y) (dg_edges d) \/ In (y, x) (dg_edges d)) /\
    forall k, dget labels k = match get_node g k with Ok n => Some (name n) | Err _ => None end.
  Proof.
    intros ops H. destruct (dag_ok nid ops H) as [g [E [G A]]]. exists g. split; auto.
    destruct (c82_dag nid ops H) as [g1 [E1 [_ L]]]. rewrite E in E1. inversion E1; subst g1. clear E1.
    unfold to_nx_graph. pose proof (gi_keys _ _ G : NoDup (dkeys (g_nodes g))) as HN. rewrite nx_nodes, labels_ok; auto using (gi_kid _ _ G); try exact (gi_kid _ _ G).
    destruct (nx_edges nid (g_edges g) (mkDg (dkeys (g_nodes g)) []) (dgood_nodes _ HN)) as (I1 & I2 & I3). split; [apply I1|]. split; [apply I1|]. split; [|split].
    - intros x y. rewrite I2. rewrite <- last_ever by auto. simpl. split.
      + intros [[]|[e [He Q]]]. exists e. split; auto. apply L. exact He.
      + intros [e [He Q]]. right. exists e. split; auto. apply L in He. exact He.
    - intros x. rewrite nx_nodes_all. simpl. split.
      + intros [Hx|[e [He Q]]]; auto. right. destruct Q as [<-|<-]; [exists (nid (e_j e)); left|exists (nid (e_i e)); right]; apply I2; right; eauto.
      + intros [Hx|[y [Hy|Hy]]]; auto; apply I2 in Hy; destruct Hy as [[]|[e [He [Q1 Q2]]]]; right; exists e; auto.
    - intros k. unfold get_node, dgetE. clear. induction (g_nodes g) as [|[k' n] l IH]; simpl; auto. change (eqb k k') with (Z.eqb k k'). destruct (Z.eqb k k'); auto.
  Qed.
End Q.

(** the exported graph of an acyclic Dag has a cycle *)
Lemma c53_cycle : exists ops g x y, orders_ok ops /\ dag_run zid ops = Ok g /\ acyclic (arc g) /\
  let d := fst (to_nx_graph zid str_of_Z g) in In (x, y) (dg_edges d) /\ In (y, x) (dg_edges d).
Proof.
  set (ops := [(ord_id, AddE (zedge 1 2 DIRECTED)); (ord_id, Remove 1%Z); (ord_id, AddE (zedge 2 1 DIRECTED))]).
  assert (HO : orders_ok ops) by (repeat (constructor; [exact ord_id_ok|]); constructor).
  destruct (dag_ok zid ops HO) as [g [E [_ A]]]. exists ops, g, 1%Z, 2%Z. split; auto. split; auto. split; auto.
  vm_compute in E. inversion E; subst. vm_compute. auto.
Qed.
