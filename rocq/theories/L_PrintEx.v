(** Checks for the examples of PropPrint. *)
From Coq Require Import Ascii.
From Verif Require Import Py M_Node SpecNet SpecStr SpecPrint L_Base.
Local Open Scope string_scope.

Definition lackb (c : ascii) (s : string) : bool := forallb (fun x => negb (Ascii.eqb c x)) (list_ascii_of_string s).
Lemma lackb_ok c s : lackb c s = true -> lacks c s.
Proof. unfold lackb. rewrite forallb_forall. intros H I. apply H in I. rewrite Ascii.eqb_refl in I. discriminate. Qed.
Definition showableb (ops : list bop) : bool :=
  forallb (fun i => lackb "|" (net_name ops i) && lackb line_feed (net_name ops i) && negb (Nat.eqb (List.length (net_dom ops i)) 0) &&
                    forallb (fun v => lackb "," v && lackb line_feed v) (net_dom ops i)) (net_vars ops).
Lemma showableb_ok ops : showableb ops = true -> showable ops.
Proof.
  unfold showableb. rewrite forallb_forall. intros H i Hi. specialize (H i Hi). rewrite !andb_true_iff in H. destruct H as [[[H1 H2] H3] H4].
  split; [apply lackb_ok; auto|]. split; [apply lackb_ok; auto|]. split. { intros E. rewrite E in H3. discriminate. }
  rewrite forallb_forall in H4. intros v Hv. specialize (H4 v Hv). rewrite andb_true_iff in H4. destruct H4. split; apply lackb_ok; auto.
Qed.
(** the nodes as given, and four arcs *)
Definition same_network_text (r : option (list (Z * string * list string) * list (Z * Z))) (ns : list (Z * string * list string)) : bool :=
  match r with
  | Some (ms, es) => Nat.eqb (List.length es) 4 && Nat.eqb (List.length ms) (List.length ns) &&
      forallb (fun p => Z.eqb (fst (fst (fst p))) (fst (fst (snd p))) && String.eqb (snd (fst (fst p))) (snd (fst (snd p))) &&
                        String.eqb (join "," (snd (fst p))) (join "," (snd (snd p)))) (combine ms ns)
  | None => false
  end.
