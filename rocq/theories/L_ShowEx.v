(** Checks for the examples of PropShow. *)
From Coq Require Import Ascii.
From Verif Require Import Py M_Node M_Gauss SpecNet SpecStr SpecPrint SpecShow L_Base L_PrintEx.
Local Open Scope string_scope.

Definition tidyb (s : string) : bool := lackb "," s && lackb "(" s && lackb ")" s && lackb "|" s && lackb "-" s && lackb line_feed s.
Lemma tidyb_ok (nm : Z -> string) l : forallb (fun i => tidyb (nm i)) l = true -> forall i, In i l -> tidy_name (nm i).
Proof.
  rewrite forallb_forall. intros H i Hi. specialize (H i Hi). unfold tidyb in H. rewrite !andb_true_iff in H. destruct H as [[[[[H1 H2] H3] H4] H5] H6]. repeat split; apply lackb_ok; auto.
Qed.
Lemma plain_headers_ok l : forallb (fun s => lackb "," s && lackb "]" s) l = true -> Forall plain_header l.
Proof. rewrite forallb_forall. intros H. apply Forall_forall. intros s Hs. specialize (H s Hs). rewrite andb_true_iff in H. destruct H. split; apply lackb_ok; auto. Qed.
Lemma plain_seen_ok l : forallb (fun s => lackb "," s && lackb "=" s && lackb "}" s) l = true -> Forall plain_seen l.
Proof. rewrite forallb_forall. intros H. apply Forall_forall. intros s Hs. specialize (H s Hs). rewrite !andb_true_iff in H. destruct H as [[H1 H2] H3]. repeat split; apply lackb_ok; auto. Qed.
(** two variables, after a third was observed *)
Definition shown_g : ginf :=
  {| gi_H := ["left"; "right"]; gi_M := [qfrac 1 3; qfrac (-5) 2]; gi_n := 2; gi_E := fun r c => if Nat.eqb r c then qfrac 4 3 else qfrac (-1) 7; gi_meta := [("top", qfrac 9 8)] |}.
