(** A network whose join tree branches, and its messages. *)
From Verif Require Import Py M_Graph M_Node M_Pptc Spec SpecNet SpecEv SpecMsg L_Check Ex L_R1.
Local Open Scope string_scope.

Definition b_4 := new_node 4 "v4" ["on"; "off"] [qfrac 1 5; qfrac 4 5; qfrac 3 5; qfrac 2 5].
Definition b_5 := new_node 5 "v5" ["on"; "off"] [qfrac 1 2; qfrac 1 2; qfrac 1 10; qfrac 9 10].
Definition branching : list bop := [AddEdge n_1 n_2; AddEdge n_2 n_3; AddEdge n_2 b_4; AddEdge b_4 b_5].
Lemma branching_ok : well_shaped branching.
Proof. apply well_shapedb_ok. vm_compute. reflexivity. Qed.
Lemma branching_connected : connected branching.
Proof. apply connectedb_ok. vm_compute. reflexivity. Qed.

(** the message between the two cliques with these ids *)
Definition msg_of (j : jtree) (ab : string * string) : list msg :=
  flat_map (fun s => if eqb (cl_id (ss_left s)) (fst ab) && eqb (cl_id (ss_right s)) (snd ab) then [(ss_left s, s, ss_right s)]
                     else if eqb (cl_id (ss_left s)) (snd ab) && eqb (cl_id (ss_right s)) (fst ab) then [(ss_right s, s, ss_left s)] else [])
    (jt_sepsets j).
Definition vals_of (ps : pots) : list (string * list Q) := map (fun kp => (fst kp, map (fun e => this (pe_val e)) (snd kp))) ps.
(** potentials before propagation, after it, and after the messages [l] *)
Definition three (o : Ord) (ops : list bop) (l : list (string * string)) :=
  match session o ops [] with
  | Ok j => match initialize j with
            | Ok j => match propagate o j, foldM (send (jt_heap j)) (flat_map (msg_of j) l) (jt_pots j) with
                      | Ok j', Ok ps => Some (vals_of (jt_pots j), vals_of (jt_pots j'), vals_of ps)
                      | _, _ => None end
            | Err _ => None end
  | Err _ => None end.
Definition same_vals (a b : list (string * list Q)) : bool :=
  (fix go a b := match a, b with
     | [], [] => true
     | (k, x) :: a, (k', y) :: b =>
         eqb k k' && (fix go' x y := match x, y with [], [] => true | p :: x, q :: y => Qeq_bool p q && go' x y | _, _ => false end) x y && go a b
     | _, _ => false end) a b.
Definition branching_msgs := [("2-3", "1-2"); ("4-5", "2-4"); ("2-4", "1-2"); ("1-2", "2-3"); ("1-2", "2-4"); ("2-4", "4-5")].
(** the same messages, one of them too early *)
Definition branching_early := [("2-3", "1-2"); ("2-4", "1-2"); ("4-5", "2-4"); ("2-4", "4-5"); ("1-2", "2-3"); ("1-2", "2-4")].
