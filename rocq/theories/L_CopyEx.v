(** The objects of a small join tree, for the properties of copies. *)
From Verif Require Import Py M_Copy Spec SpecCopy L_Base.
Open Scope nat_scope.
Local Open Scope string_scope.
Local Open Scope list_scope.

Definition closedb (h : heap) : bool := forallb (fun ob => forallb (fun s => match snd s with Rf q => Nat.ltb q (List.length h) | At _ => true end) (o_slots ob)) h.
Lemma closedb_ok h : closedb h = true -> closed h.
Proof.
  intros H p q (ob & k & H1 & H2). unfold closedb in H. rewrite forallb_forall in H. apply nth_error_In in H1. specialize (H ob H1). rewrite forallb_forall in H. specialize (H _ H2). simpl in H. apply Nat.ltb_lt; auto.
Qed.
(** nothing refers to the object at [t], the others are no join trees *)
Definition plainb (h : heap) (vs : list val) (t : nat) : bool :=
  forallb (fun v => match v with Rf q => negb (Nat.eqb q t) | At _ => true end) vs &&
  forallb (fun ob => forallb (fun s => match snd s with Rf q => negb (Nat.eqb q t) | At _ => true end) (o_slots ob)) h &&
  forallb (fun p => Nat.eqb p t || match nth_error h p with Some ob => negb (String.eqb (o_cls ob) "JoinTree") | None => true end) (seq 0 (List.length h)).
Lemma plainb_ok h vs t : plainb h vs t = true -> plain h vs.
Proof.
  intros H. unfold plainb in H. apply andb_true_iff in H. destruct H as [H H3]. apply andb_true_iff in H. destruct H as [H1 H2].
  rewrite forallb_forall in H1, H2, H3.
  intros p ob (q & Q1 & Q2) Hp.
  assert (Hne : p <> t).
  { specialize (H1 _ Q1). simpl in H1. assert (Hq : q <> t) by (intros ->; rewrite Nat.eqb_refl in H1; discriminate). clear - H2 Q2 Hq.
    induction Q2 as [x|x y z S P IH]; auto. apply IH. destruct S as (ob & k & S1 & S2). apply nth_error_In in S1. specialize (H2 ob S1). rewrite forallb_forall in H2. specialize (H2 _ S2). simpl in H2.
    intros ->. rewrite Nat.eqb_refl in H2. discriminate. }
  assert (Hl : In p (seq 0 (List.length h))). { apply in_seq. assert (p < List.length h) by (apply nth_error_Some; congruence). lia. }
  specialize (H3 p Hl). rewrite Hp in H3. apply orb_true_iff in H3. destruct H3 as [H3|H3]. { apply Nat.eqb_eq in H3; congruence. }
  intros E. rewrite E in H3. discriminate.
Qed.

Definition at_ (s : string) (v : val) : atom * val := (AStr s, v).
Fixpoint items (n : Z) (l : list val) : list (atom * val) := match l with [] => [] | v :: t => (AInt n, v) :: items (n + 1)%Z t end.
Definition lst (l : list nat) : obj := mkObj "list" (items 0%Z (map Rf l)).
Definition strset (l : list string) : obj := mkObj "set" (map (fun s => at_ s (At (AStr s))) l).

(** join tree of 1 -> 2 -> 3: cliques 1-2 and 2-3, which share the node object 2, separation set |2|; the nodes know their
    cliques and the cliques their nodes *)
Definition small : heap :=
  [ mkObj "JoinTree" [at_ "nodes" (Rf 1); at_ "edges" (Rf 2); at_ "edge_map" (Rf 3); at_ "neighbors" (Rf 4); at_ "potentials" (Rf 5); at_ "evidences" (Rf 6);
                      at_ "listener" (Rf 32); at_ "parent_info" (Rf 7)];
    mkObj "dict" [at_ "1-2" (Rf 8); at_ "2-3" (Rf 9); at_ "|2|" (Rf 10)];
    mkObj "dict" [at_ "e1" (Rf 11); at_ "e2" (Rf 12)];
    mkObj "defaultdict" [at_ "1-2" (Rf 13); at_ "2-3" (Rf 13)];
    mkObj "defaultdict" [at_ "1-2" (Rf 14); at_ "2-3" (Rf 14)];
    mkObj "dict" [at_ "1-2" (Rf 15)];
    mkObj "dict" [(AInt 2, Rf 16)];
    mkObj "defaultdict" [(AInt 2, Rf 17)];
    mkObj "Clique" [at_ "id" (At (AStr "1-2")); at_ "metadata" (Rf 18); at_ "nodes" (Rf 19); at_ "marked" (At (ABool false))];
    mkObj "Clique" [at_ "id" (At (AStr "2-3")); at_ "metadata" (Rf 18); at_ "nodes" (Rf 20); at_ "marked" (At (ABool false))];
    mkObj "SepSet" [at_ "id" (At (AStr "|2|")); at_ "metadata" (Rf 18); at_ "nodes" (Rf 21); at_ "left" (Rf 8); at_ "right" (Rf 9)];
    mkObj "JtEdge" [at_ "i" (Rf 8); at_ "j" (Rf 10); at_ "type" (At (AEnum "UNDIRECTED")); at_ "sep_set" (Rf 10)];
    mkObj "JtEdge" [at_ "i" (Rf 10); at_ "j" (Rf 9); at_ "type" (At (AEnum "UNDIRECTED")); at_ "sep_set" (Rf 10)];
    strset ["e1"; "e2"]; strset ["|2|"];
    mkObj "Potential" [at_ "entries" (Rf 33)];
    mkObj "dict" [at_ "on" (Rf 15)];
    mkObj "set" [(AInt 1, At (AInt 1))];
    mkObj "dict" [];
    lst [22; 23]; lst [23; 24]; lst [23];
    mkObj "BbnNode" [at_ "id" (At (AInt 1)); at_ "metadata" (Rf 25); at_ "variable" (Rf 28); at_ "potential" (Rf 15)];
    mkObj "BbnNode" [at_ "id" (At (AInt 2)); at_ "metadata" (Rf 26); at_ "variable" (Rf 29); at_ "potential" (At ANone)];
    mkObj "BbnNode" [at_ "id" (At (AInt 3)); at_ "metadata" (Rf 27); at_ "variable" (Rf 30); at_ "potential" (At ANone)];
    mkObj "dict" [at_ "parent.clique" (Rf 8)];
    mkObj "dict" [at_ "parent.clique" (Rf 8); at_ "parents" (Rf 31)];
    mkObj "dict" [at_ "parent.clique" (Rf 9)];
    mkObj "Variable" [at_ "id" (At (AInt 1)); at_ "name" (At (AStr "a"))];
    mkObj "Variable" [at_ "id" (At (AInt 2)); at_ "name" (At (AStr "b"))];
    mkObj "Variable" [at_ "id" (At (AInt 3)); at_ "name" (At (AStr "c"))];
    lst [22];
    mkObj "InferenceController" [];
    mkObj "list" [] ].
Definition small_parts : list val := map Rf [1; 2; 3; 4; 5; 6; 7].

Lemma small_closed : closed small. Proof. apply closedb_ok. vm_compute. reflexivity. Qed.
Lemma small_plain : plain small small_parts. Proof. apply plainb_ok with 0. vm_compute. reflexivity. Qed.
Lemma small_fields ob : nth_error small 0 = Some ob -> Forall2 (fun f v => slot (o_slots ob) f = Some v) tree_fields small_parts.
Proof. intros H. injection H as <-. repeat constructor. Qed.

(** x.a.b.c; list elements by number *)
Definition atom_eqb (a b : atom) : bool := match a, b with AStr s, AStr t => String.eqb s t | AInt x, AInt y => Z.eqb x y | _, _ => false end.
Fixpoint follow (h : heap) (v : val) (l : list atom) : option val :=
  match l with
  | [] => Some v
  | a :: t => match v with
              | At _ => None
              | Rf p => match nth_error h p with
                        | Some ob => match find (fun s => atom_eqb a (fst s)) (o_slots ob) with Some s => follow h (snd s) t | None => None end
                        | None => None end end
  end.
Definition same_ref (a b : option val) : bool := match a, b with Some (Rf p), Some (Rf q) => Nat.eqb p q | _, _ => false end.
