(** Edges added to the diamond after a tree was made from it. *)
From Verif Require Import Py M_Graph M_Node M_Pptc Spec SpecNet SpecEv SpecRe SpecAgain SpecMute SpecPart SpecMany L_Base L_Check Ex L_R1 L_R7 L_R14 L_Many3 L_Alias2.
Open Scope nat_scope.

(** [c] gets the parent [b], which its clique holds; [d] gets the parent [a], which its clique does not hold *)
Definition late_edges : list bop := [AddEdge n_b n_c; AddEdge n_a n_d].
Definition late_cpts : list (Z * list Qc) :=
  [(1%Z, [qfrac 1 2; qfrac 1 2; qfrac 1 3; qfrac 2 3; qfrac 1 4; qfrac 3 4; qfrac 1 5; qfrac 4 5; qfrac 1 6; qfrac 5 6; qfrac 1 7; qfrac 6 7]);
   (30%Z, n_probs n_d ++ n_probs n_d)].

Definition known_parb (ops new : list bop) : bool :=
  forallb (fun i => negb (mem i (seen_par ops new i)) && forallb (fun p => mem p (net_vars ops)) (seen_par ops new i)) (net_vars ops).
Lemma known_parb_ok ops new : known_parb ops new = true -> known_par ops new.
Proof.
  unfold known_parb. rewrite forallb_forall. intros H i Hi. specialize (H i Hi). apply andb_true_iff in H. destruct H as [H1 H2]. split.
  - intros Hin. apply mem_In in Hin. rewrite Hin in H1. discriminate.
  - intros p Hp. rewrite forallb_forall in H2. apply mem_In; auto.
Qed.
Definition longb (ops new : list bop) (cpts : list (Z * list Qc)) (i : Z) : bool :=
  size (net_dom ops) (seen_par ops new i ++ [i]) <=? List.length (cpt (replaced (seen_net ops new) cpts) i).
(** the variables whose CPT is ignored, and whether the tables after further calls are those of the network without it *)
Definition lateb (ops : list bop) (h : history) (new : list bop) (cpts : list (Z * list Qc)) (h' : history) (ds : list bool) : bool :=
  match apply ord_id (build ops) with
  | Ok (b, j) =>
      match do_calls j h with
      | (j1, None) =>
          eqlb (map (fun b : bool => if b then "t" else "f")%string (map (lacking ops new j1) (net_vars ops))) (map (fun b : bool => if b then "t" else "f")%string ds) &&
          match reapply ord_id (aliased (fold_left bstep new (shared b j1)) j1) cpts with
          | Ok j2 => match do_calls j2 h' with
                     | (j3, None) => table_isb (ignoring (lacking ops new j1) (replaced (seen_net ops new) cpts)) (net_name ops) (shown (net_of ops) (calls h')) j3
                     | _ => false
                     end
          | Err _ => false
          end
      | _ => false
      end
  | Err _ => false
  end.
