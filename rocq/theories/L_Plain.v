(** Networks made by adding all nodes first and then edges between them. *)
From Verif Require Import Py M_Graph M_Node M_Factory Spec SpecNet L_Base L_Table L_Build L_Apply L_Samp L_P8.
Open Scope nat_scope.

Definition plain_ops (ns : list bnode) (es : list (bnode * bnode)) : list bop :=
  map AddNode ns ++ map (fun e => AddEdge (fst e) (snd e)) es.
Lemma assemble_build ns es : assemble ns es = build (plain_ops ns es).
Proof.
  unfold assemble, build, plain_ops. rewrite fold_left_app.
  assert (E : fold_left bstep (map AddNode ns) bbn_empty = fold_left bbn_add_node ns bbn_empty).
  { generalize bbn_empty. induction ns as [|n t IH]; intros b; [reflexivity|]. cbn [map fold_left]. rewrite IH. reflexivity. }
  rewrite E. generalize (fold_left bbn_add_node ns bbn_empty). induction es as [|e t IH]; intros b; [reflexivity|]. cbn [map fold_left]. rewrite IH. reflexivity.
Qed.

Section Plain.
  Context (ns : list bnode) (es : list (bnode * bnode)) (ND : NoDup (map n_id ns)).
  Context (HE : forall e, In e es -> In (fst e) ns /\ In (snd e) ns).

  Lemma plain_mentioned : mentioned (plain_ops ns es) = ns ++ flat_map (fun e => [fst e; snd e]) es.
  Proof.
    unfold mentioned, plain_ops. rewrite flat_map_app. f_equal.
    - clear. induction ns as [|n t IH]; simpl; [reflexivity|]. f_equal. exact IH.
    - clear. induction es as [|e t IH]; simpl; [reflexivity|]. rewrite IH. reflexivity.
  Qed.
  Lemma plain_in n : In n (mentioned (plain_ops ns es)) <-> In n ns.
  Proof using HE.
    rewrite plain_mentioned, in_app_iff, in_flat_map. split; [|tauto]. intros [H|(e & H & J)]; [exact H|]. destruct (HE e H). destruct J as [<-|[<-|[]]]; assumption.
  Qed.
  Lemma plain_vars : net_vars (plain_ops ns es) = map n_id ns.
  Proof using ND HE.
    unfold net_vars. rewrite plain_mentioned, map_app. apply firsts_app_incl; [exact ND|]. intros x Hx. apply in_map_iff in Hx. destruct Hx as (n & <- & Hn).
    apply in_map. apply plain_in. rewrite plain_mentioned. apply in_or_app. right. exact Hn.
  Qed.
  Lemma plain_node n : In n ns -> node_of (plain_ops ns es) (n_id n) = Some n.
  Proof using ND HE.
    intros Hn. destruct (node_of (plain_ops ns es) (n_id n)) as [m|] eqn:E.
    - destruct (node_of_Some _ _ _ E) as [A1 A2]. apply plain_in in A1. f_equal.
      clear - ND A1 A2 Hn. induction ns as [|x t IH]; [destruct Hn|]. cbn [map] in ND. inversion ND as [|? ? N1 N2]; subst.
      destruct A1 as [->|A1], Hn as [->|Hn]; auto; exfalso; apply N1; [rewrite A2|rewrite <- A2]; apply in_map; assumption.
    - apply node_of_None in E. exfalso. apply E. rewrite plain_vars. apply in_map, Hn.
  Qed.
  Lemma plain_par j : net_par (plain_ops ns es) j = firsts (map (fun e => n_id (fst e)) (filter (fun e => Z.eqb (n_id (snd e)) j) es)).
  Proof.
    unfold net_par, plain_ops. rewrite flat_map_app.
    assert (E : flat_map (into j) (map AddNode ns) = []) by (clear; induction ns; simpl; auto). rewrite E. cbn [List.app]. f_equal.
    clear. induction es as [|e t IH]; [reflexivity|]. cbn [map flat_map filter]. unfold into at 1. destruct (Z.eqb (n_id (snd e)) j); cbn [List.app map]; rewrite IH; reflexivity.
  Qed.
End Plain.

(** ** tables written row by row *)
Lemma nth_blocks {A} (G : string -> list A) k l x i d : (forall y, In y l -> List.length (G y) = k) -> In x l -> i < k ->
  nth (pos x l * k + i) (flat_map G l) d = nth i (G x) d.
Proof.
  intros L Hx Hi. induction l as [|y t IH]; [destruct Hx|]. cbn [pos flat_map]. destruct (String.eqb_spec x y) as [->|N].
  - rewrite app_nth1; [reflexivity|]. rewrite L by (left; reflexivity). lia.
  - destruct Hx as [->|Hx]; [congruence|]. rewrite app_nth2; rewrite (L y) by (left; reflexivity); [|lia].
    replace (S (pos x t) * k + i - k) with (pos x t * k + i) by lia. apply IH; auto. intros z Hz. apply L. right. exact Hz.
Qed.
Lemma flat_map_flat {A B C} (f : B -> list C) (g : A -> list B) l : flat_map f (flat_map g l) = flat_map (fun x => flat_map f (g x)) l.
Proof. induction l as [|x t IH]; [reflexivity|]. cbn [flat_map]. rewrite flat_map_app, IH. reflexivity. Qed.
Lemma flat_map_map {A B C} (f : B -> list C) (g : A -> B) l : flat_map f (map g l) = flat_map (fun x => f (g x)) l.
Proof. induction l as [|x t IH]; [reflexivity|]. cbn [map flat_map]. rewrite IH. reflexivity. Qed.
Lemma size_snoc dm ps v : size dm (ps ++ [v]) = size dm ps * List.length (dm v).
Proof. induction ps as [|p t IH]; cbn [List.app size]; [lia|]. rewrite IH. lia. Qed.
Lemma rows_length dm ps v (F : list string -> list Qc) : (forall vs, In vs (cartesian (map dm ps)) -> List.length (F vs) = List.length (dm v)) ->
  List.length (flat_map F (cartesian (map dm ps))) = size dm (ps ++ [v]).
Proof.
  revert F. induction ps as [|p t IH]; intros F L.
  - cbn [map cartesian flat_map]. rewrite app_nil_r, L by (left; reflexivity). cbn [List.app size]. lia.
  - cbn [map cartesian List.app size]. rewrite flat_map_flat.
    assert (G : forall x, In x (dm p) -> List.length (flat_map F (map (cons x) (cartesian (map dm t)))) = size dm (t ++ [v])).
    { intros x Hx. rewrite flat_map_map. apply IH. intros vs Hvs. apply L. cbn [map cartesian]. apply in_flat_map. exists x. split; [exact Hx|]. apply in_map, Hvs. }
    revert G. clear. induction (dm p) as [|x l IH]; intros G; [reflexivity|]. cbn [flat_map List.length]. rewrite app_length, G by (left; reflexivity). rewrite IH by (intros; apply G; right; assumption). lia.
Qed.
Lemma rows_entry dm ps v (F : list string -> list Qc) a : (forall vs, In vs (cartesian (map dm ps)) -> List.length (F vs) = List.length (dm v)) ->
  okon dm (ps ++ [v]) a ->
  nth (row_index dm (ps ++ [v]) a) (flat_map F (cartesian (map dm ps))) 0%Qc = nth (pos (a v) (dm v)) (F (map a ps)) 0%Qc.
Proof.
  revert F. induction ps as [|p t IH]; intros F L O.
  - cbn [map cartesian flat_map List.app row_index size]. rewrite app_nil_r. f_equal. lia.
  - cbn [map cartesian List.app row_index]. rewrite flat_map_flat.
    assert (L' : forall x, In x (dm p) -> forall vs, In vs (cartesian (map dm t)) -> List.length (F (x :: vs)) = List.length (dm v)).
    { intros x Hx vs Hvs. apply L. cbn [map cartesian]. apply in_flat_map. exists x. split; [exact Hx|]. apply in_map, Hvs. }
    assert (O' : okon dm (t ++ [v]) a) by (intros u Hu; apply O; right; exact Hu).
    assert (Hp : In (a p) (dm p)) by (apply O; left; reflexivity).
    rewrite (nth_blocks (fun x => flat_map F (map (cons x) (cartesian (map dm t)))) (size dm (t ++ [v]))).
    + rewrite flat_map_map. rewrite (IH (fun vs => F (a p :: vs))); auto.
    + intros x Hx. rewrite flat_map_map. apply rows_length. apply L', Hx.
    + exact Hp.
    + rewrite <- (rows_length dm t v (fun vs => F (a p :: vs))) by (apply L', Hp).
      rewrite (rows_length dm t v (fun vs => F (a p :: vs))) by (apply L', Hp). apply row_index_lt. exact O'.
Qed.
