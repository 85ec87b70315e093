(** The repository's own unit tests (tests/), replayed in the model: evidence that the model is the code. Each Example states what
    the test asserts, with the numbers of the test; "near" is the tolerance the tests use. Everything is checked under three iteration
    orders of sets. Tests that need numpy's random numbers are left out; DESIGN.md lists them. *)
From Verif Require Import Py M_Graph M_Node M_Pptc M_Serde M_Csv M_Flat M_Text M_Str M_Ace M_Factory M_Samples Spec.
From Verif Require M_Sampling M_Gauss.
Local Open Scope string_scope.
Local Open Scope list_scope.
Local Open Scope Z_scope.

(** ascending, as CPython orders sets of small integers *)
Definition ord_asc : Ord := {| zord := fun _ l => isort Z.leb l; sord := fun _ l => l |}.
Definition orders : list Ord := [ord_id; ord_rev; ord_asc].

(** abs(a - b) < tol *)
Definition near (tol a b : Qc) : bool := qltb (a - b)%Qc tol && qltb (b - a)%Qc tol.
Fixpoint nears (tol : Qc) (l m : list Qc) : bool :=
  match l, m with
  | [], [] => true
  | a :: l, b :: m => near tol a b && nears tol l m
  | _, _ => false
  end.
Definition milli : Qc := qfrac 1 1000.

(** what a test does with a join tree; [Expect]: test_inferencecontroller.py:12-35 __validate_posterior__ *)
Inductive tact := Expect (l : list (string * list Qc)) | Clear | SetOne (n v : string) | Update_ (l : list (string * string)).
Definition expectb (j : jtree) (l : list (string * list Qc)) : bool :=
  forallb (fun i => match get_bbn_potential j i with
                    | Ok p => match dget l (h_name (jt_heap j) i) with Some e => nears milli (map pe_val p) e | None => false end
                    | Err _ => false
                    end) (jt_bbn_ids j).
Definition evidence_for (j : jtree) (nv : string * string) : list evidence :=
  match ace_evidence j (fst nv) (snd nv) with Some e => [e] | None => [] end.
Fixpoint play (o : Ord) (j : jtree) (l : list tact) : bool :=
  match l with
  | [] => true
  | Expect e :: t => expectb j e && play o j t
  | Clear :: t => match unobserve_all o j with (j, None) => play o j t | _ => false end
  | SetOne n v :: t =>
      match evidence_for j (n, v) with
      | [e] => match set_observation o j e with (j, None) => play o j t | _ => false end
      | _ => false
      end
  | Update_ l :: t => match update_evidences o j (flat_map (evidence_for j) l) with (j, None) => play o j t | _ => false end
  end.
Definition plays (ops : list bop) (l : list tact) : bool :=
  forallb (fun o => match apply o (build ops) with Ok (_, j) => play o j l | Err _ => false end) orders.

(** Potential.to_dict([jt.get_bbn_potential(n) for n in jt.get_bbn_nodes()]) *)
Definition reported (j : jtree) : list (string * Qc) :=
  match mapM (get_bbn_potential j) (jt_bbn_ids j) with Ok ps => potentials_to_dict ps | Err _ => [] end.
Definition all_near (e o : list (string * Qc)) : bool :=
  forallb (fun kv => match dget o (fst kv) with Some v => near milli (snd kv) v | None => false end) e.

(** the texts of one list are those of the other *)
Definition same_texts (l m : list string) : bool := Nat.eqb (List.length l) (List.length m) && subset l m && subset m l.

(** what the tests do with printed potentials: lines, cut at the bar, number read as text. Here the expected lines are printed and
    compared as texts. *)
Definition prints (texts : list string) (e : list (string * Qc)) : bool :=
  let lines := split (ascii_of_nat 10) (join newline texts) in
  Nat.eqb (List.length (sof lines)) (List.length e) && subset lines (map (fun kv => fst kv ++ "|" ++ fmt5 (snd kv)) e)%string.

(** PotentialInitializer.init, Moralizer.moralize, Triangulator.triangulate, Transformer.transform *)
Definition stages (o : Ord) (ops : list bop) : res (heap * list clique * jtree) :=
  let b := build ops in
  h <- pot_init b ;;
  u <- moralize (set_graph_nodes (b_g b) h) ;;
  let h := moralize_meta (b_g b) h in
  r <- triangulate o u ;;
  j <- transform o h (snd r) ;;
  Ok (h, snd r, j).



(** ** tests/pptc/test_inferencecontroller.py *)

(** pptc/test_inferencecontroller.py:68-134 test_github_issue_4 *)
Definition net_issue4 : list bop :=
  let v_a := new_node 0 "A" ["T"; "F"] [qfrac 1 2; qfrac 1 2] in
  let v_b := new_node 1 "B" ["T"; "F"] [qfrac 1 5; qfrac 4 5; qfrac 1 10; qfrac 9 10] in
  let v_c := new_node 2 "C" ["T"; "F"] [qfrac 1 2; qfrac 1 2; qfrac 1 2; qfrac 1 2] in
  let v_d := new_node 3 "D" ["T"; "F"] [qfrac 1 2; qfrac 1 2; qfrac 1 2; qfrac 1 2] in
  let v_e := new_node 4 "E" ["T"; "F"] [qfrac 1 2; qfrac 1 2; qfrac 1 2; qfrac 1 2] in
  let v_f := new_node 5 "F" ["T"; "F"] [qfrac 1 2; qfrac 1 2; qfrac 1 2; qfrac 1 2] in
  let v_g := new_node 6 "G" ["T"; "F"] [qfrac 1 2; qfrac 1 2; qfrac 1 2; qfrac 1 2; qfrac 1 2; qfrac 1 2; qfrac 1 2; qfrac 1 2;
     qfrac 1 2; qfrac 1 2; qfrac 1 2; qfrac 1 2; qfrac 1 2; qfrac 1 2; qfrac 1 2; qfrac 1 2] in
  [AddNode v_a; AddNode v_b; AddNode v_c; AddNode v_d; AddNode v_e; AddNode v_f; AddNode v_g; AddEdge v_a v_b; AddEdge v_a v_c;
     AddEdge v_b v_d; AddEdge v_b v_e; AddEdge v_c v_f; AddEdge v_e v_g; AddEdge v_d v_g; AddEdge v_f v_g].
Example test_github_issue_4 : plays net_issue4
  [Expect [("A", [qfrac 1 2; qfrac 1 2]); ("B", [qfrac 3 20; qfrac 17 20]); ("C", [qfrac 1 2; qfrac 1 2]); ("D", [qfrac 1 2; qfrac 1 2]);
     ("E", [qfrac 1 2; qfrac 1 2]); ("F", [qfrac 1 2; qfrac 1 2]); ("G", [qfrac 1 2; qfrac 1 2])]] = true.
Proof. vm_compute. reflexivity. Qed.

(** pptc/test_inferencecontroller.py:161-183 test_huang_inference *)
Example test_huang_inference : plays huang_graph
  [Expect [("a", [qfrac 1 2; qfrac 1 2]); ("b", [qfrac 9 20; qfrac 11 20]); ("c", [qfrac 9 20; qfrac 11 20]); ("d", [qfrac 17 25;
     qfrac 8 25]); ("e", [qfrac 93 200; qfrac 107 200]); ("f", [qfrac 22 125; qfrac 103 125]); ("g", [qfrac 83 200; qfrac 117 200]);
     ("h", [qfrac 823 1000; qfrac 177 1000])]] = true.
Proof. vm_compute. reflexivity. Qed.

(** pptc/test_inferencecontroller.py:185-227 test_huang_inference_with_single_evidence *)
Example test_huang_inference_with_single_evidence : plays huang_graph
  [Expect [("a", [qfrac 1 2; qfrac 1 2]); ("b", [qfrac 9 20; qfrac 11 20]); ("c", [qfrac 9 20; qfrac 11 20]); ("d", [qfrac 17 25;
     qfrac 8 25]); ("e", [qfrac 93 200; qfrac 107 200]); ("f", [qfrac 22 125; qfrac 103 125]); ("g", [qfrac 83 200; qfrac 117 200]);
     ("h", [qfrac 823 1000; qfrac 177 1000])];
   Clear;
   SetOne "a" "on";
   Expect [("a", [qfrac 1 1; qfrac 0 1]); ("b", [qfrac 1 2; qfrac 1 2]); ("c", [qfrac 7 10; qfrac 3 10]); ("d", [qfrac 7 10;
      qfrac 3 10]); ("e", [qfrac 39 100; qfrac 61 100]); ("f", [qfrac 9467 50000; qfrac 40533 50000]); ("g", [qfrac 59 100;
      qfrac 41 100]); ("h", [qfrac 3913 5000; qfrac 1087 5000])]] = true.
Proof. vm_compute. reflexivity. Qed.

(** pptc/test_inferencecontroller.py:229-278 test_huang_inference_with_multiple_evidence *)
Example test_huang_inference_with_multiple_evidence : plays huang_graph
  [Expect [("a", [qfrac 1 2; qfrac 1 2]); ("b", [qfrac 9 20; qfrac 11 20]); ("c", [qfrac 9 20; qfrac 11 20]); ("d", [qfrac 17 25;
     qfrac 8 25]); ("e", [qfrac 93 200; qfrac 107 200]); ("f", [qfrac 22 125; qfrac 103 125]); ("g", [qfrac 83 200; qfrac 117 200]);
     ("h", [qfrac 823 1000; qfrac 177 1000])];
   Clear;
   Update_ [("a", "on"); ("f", "on")];
   Expect [("a", [qfrac 1 1; qfrac 0 1]); ("b", [qfrac 23 125; qfrac 102 125]); ("c", [qfrac 399 500; qfrac 101 500]);
      ("d", [qfrac 37 1000; qfrac 963 1000]); ("e", [qfrac 103 5000; qfrac 979 1000]); ("f", [qfrac 1 1; qfrac 0 1]);
      ("g", [qfrac 329 500; qfrac 171 500]); ("h", [qfrac 941 1000; qfrac 147 2500])]] = true.
Proof. vm_compute. reflexivity. Qed.

(** pptc/test_inferencecontroller.py:280-300 test_simple_inference *)
Example test_simple_inference : plays simple_graph
  [Expect [("a", [qfrac 1 2; qfrac 1 2]); ("b", [qfrac 9 20; qfrac 11 20]); ("c", [qfrac 9 20; qfrac 11 20]); ("d", [qfrac 17 25;
     qfrac 8 25]); ("e", [qfrac 93 200; qfrac 107 200]); ("f", [qfrac 22 125; qfrac 103 125])]] = true.
Proof. vm_compute. reflexivity. Qed.

(** pptc/test_inferencecontroller.py:302-356 test_inference_1 *)
Definition net_one : list bop :=
  let v_a := new_node 0 "a" ["on"; "off"] [qfrac 1 2; qfrac 1 2] in
  let v_b := new_node 1 "b" ["on"; "off"] [qfrac 1 2; qfrac 1 2; qfrac 2 5; qfrac 3 5] in
  let v_c := new_node 2 "c" ["on"; "off"] [qfrac 7 10; qfrac 3 10; qfrac 1 5; qfrac 4 5] in
  let v_d := new_node 3 "d" ["on"; "off"] [qfrac 9 10; qfrac 1 10; qfrac 1 2; qfrac 1 2] in
  let v_e := new_node 4 "e" ["on"; "off"] [qfrac 3 10; qfrac 7 10; qfrac 3 5; qfrac 2 5] in
  let v_f := new_node 5 "f" ["on"; "off"] [qfrac 1 100; qfrac 99 100; qfrac 1 100; qfrac 99 100; qfrac 1 100; qfrac 99 100; qfrac 99 100;
     qfrac 1 100] in
  let v_g := new_node 6 "g" ["on"; "off"] [qfrac 4 5; qfrac 1 5; qfrac 1 10; qfrac 9 10] in
  let v_h := new_node 7 "h" ["on"; "off"] [qfrac 1 20; qfrac 19 20; qfrac 19 20; qfrac 1 20; qfrac 19 20; qfrac 1 20; qfrac 19 20;
     qfrac 1 20] in
  [AddNode v_a; AddNode v_b; AddNode v_c; AddNode v_d; AddNode v_e; AddNode v_f; AddNode v_g; AddNode v_h; AddEdge v_a v_b;
     AddEdge v_a v_c; AddEdge v_b v_d; AddEdge v_c v_e; AddEdge v_d v_f; AddEdge v_e v_f; AddEdge v_c v_g; AddEdge v_e v_h;
     AddEdge v_g v_h].
Example test_inference_1 : plays net_one
  [Expect [("a", [qfrac 1 2; qfrac 1 2]); ("b", [qfrac 9 20; qfrac 11 20]); ("c", [qfrac 9 20; qfrac 11 20]); ("d", [qfrac 17 25;
     qfrac 8 25]); ("e", [qfrac 93 200; qfrac 107 200]); ("f", [qfrac 22 125; qfrac 103 125]); ("g", [qfrac 83 200; qfrac 117 200]);
     ("h", [qfrac 823 1000; qfrac 177 1000])]] = true.
Proof. vm_compute. reflexivity. Qed.

(** pptc/test_inferencecontroller.py:358-402 test_inference_2 *)
Definition net_two : list bop :=
  let v_a := new_node 0 "a" ["on"; "off"] [qfrac 7 10; qfrac 3 10] in
  let v_b := new_node 1 "b" ["on"; "off"] [qfrac 2 5; qfrac 3 5] in
  let v_c := new_node 2 "c" ["on"; "off"] [qfrac 9 10; qfrac 1 10; qfrac 3 10; qfrac 7 10; qfrac 1 2; qfrac 1 2; qfrac 1 10; qfrac 9 10] in
  let v_d := new_node 3 "d" ["on"; "off"] [qfrac 3 10; qfrac 7 10; qfrac 4 5; qfrac 1 5] in
  let v_e := new_node 4 "e" ["on"; "off"] [qfrac 3 5; qfrac 2 5; qfrac 1 5; qfrac 4 5] in
  let v_f := new_node 5 "f" ["on"; "off"] [qfrac 7 10; qfrac 3 10; qfrac 1 10; qfrac 9 10] in
  let v_g := new_node 6 "g" ["on"; "off"] [qfrac 2 5; qfrac 3 5; qfrac 9 10; qfrac 1 10] in
  [AddNode v_a; AddNode v_b; AddNode v_c; AddNode v_d; AddNode v_e; AddNode v_f; AddNode v_g; AddEdge v_a v_c; AddEdge v_b v_c;
     AddEdge v_c v_d; AddEdge v_c v_e; AddEdge v_d v_f; AddEdge v_d v_g].
Example test_inference_2 : plays net_two
  [Expect [("a", [qfrac 7 10; qfrac 3 10]); ("b", [qfrac 2 5; qfrac 3 5]); ("c", [qfrac 57 125; qfrac 68 125]); ("d", [qfrac 143 250;
     qfrac 107 250]); ("e", [qfrac 191 500; qfrac 309 500]); ("f", [qfrac 443 1000; qfrac 557 1000]); ("g", [qfrac 307 500;
     qfrac 193 500])]] = true.
Proof. vm_compute. reflexivity. Qed.

(** pptc/test_inferencecontroller.py:404-436 test_inference_4 *)
Definition net_four : list bop :=
  let v_a := new_node 0 "a" ["on"; "off"] [qfrac 7 10; qfrac 3 10] in
  let v_b := new_node 1 "b" ["on"; "off"] [qfrac 2 5; qfrac 3 5] in
  let v_c := new_node 2 "c" ["on"; "off"] [qfrac 9 10; qfrac 1 10; qfrac 3 10; qfrac 7 10; qfrac 1 2; qfrac 1 2; qfrac 1 10; qfrac 9 10] in
  let v_e := new_node 4 "e" ["on"; "off"] [qfrac 3 5; qfrac 2 5; qfrac 1 5; qfrac 4 5] in
  [AddNode v_a; AddNode v_b; AddNode v_c; AddNode v_e; AddEdge v_a v_c; AddEdge v_b v_c; AddEdge v_c v_e].
Example test_inference_4 : plays net_four
  [Expect [("a", [qfrac 7 10; qfrac 3 10]); ("b", [qfrac 2 5; qfrac 3 5]); ("c", [qfrac 57 125; qfrac 68 125]); ("e", [qfrac 239 625;
     qfrac 386 625])]] = true.
Proof. vm_compute. reflexivity. Qed.

(** pptc/test_inferencecontroller.py:438-518 test_inference_libpgm *)
Definition net_libpgm : list bop :=
  let v_difficulty := new_node 0 "difficulty" ["easy"; "hard"] [qfrac 3 5; qfrac 2 5] in
  let v_intelligence := new_node 1 "intelligence" ["low"; "high"] [qfrac 7 10; qfrac 3 10] in
  let v_grade := new_node 2 "grade" ["a"; "b"; "c"] [qfrac 3 10; qfrac 2 5; qfrac 3 10; qfrac 9 10; qfrac 2 25; qfrac 1 50; qfrac 1 20;
     qfrac 1 4; qfrac 7 10; qfrac 1 2; qfrac 3 10; qfrac 1 5] in
  let v_sat := new_node 3 "sat" ["low"; "high"] [qfrac 19 20; qfrac 1 20; qfrac 1 5; qfrac 4 5] in
  let v_letter := new_node 4 "letter" ["weak"; "strong"] [qfrac 1 10; qfrac 9 10; qfrac 2 5; qfrac 3 5; qfrac 99 100; qfrac 1 100] in
  [AddNode v_difficulty; AddNode v_intelligence; AddNode v_grade; AddNode v_sat; AddNode v_letter; AddEdge v_difficulty v_grade;
     AddEdge v_intelligence v_grade; AddEdge v_intelligence v_sat; AddEdge v_grade v_letter].
Example test_inference_libpgm : plays net_libpgm
  [Expect [("difficulty", [qfrac 3 5; qfrac 2 5]); ("intelligence", [qfrac 7 10; qfrac 3 10]); ("grade", [qfrac 181 500; qfrac 36 125;
     qfrac 7 20]); ("sat", [qfrac 29 40; qfrac 11 40]); ("letter", [qfrac 249 500; qfrac 251 500])];
   Clear;
   SetOne "sat" "high";
   Expect [("difficulty", [qfrac 3 5; qfrac 2 5]); ("intelligence", [qfrac 127 1000; qfrac 873 1000]); ("grade", [qfrac 671 1000;
      qfrac 19 100; qfrac 139 1000]); ("sat", [qfrac 0 1; qfrac 1 1]); ("letter", [qfrac 281 1000; qfrac 719 1000])];
   Clear;
   SetOne "sat" "low";
   Expect [("difficulty", [qfrac 3 5; qfrac 2 5]); ("intelligence", [qfrac 917 1000; qfrac 207 2500]); ("grade", [qfrac 49 200;
      qfrac 163 500; qfrac 43 100]); ("sat", [qfrac 1 1; qfrac 0 1]); ("letter", [qfrac 29 50; qfrac 21 50])]] = true.
Proof. vm_compute. reflexivity. Qed.

(** pptc/test_inferencecontroller.py:520-561 test_inference_libpgm2 *)
Definition net_libpgm2 : list bop :=
  let v_letter := new_node 4 "Letter" ["weak"; "strong"] [qfrac 1 10; qfrac 9 10; qfrac 2 5; qfrac 3 5; qfrac 99 100; qfrac 1 100] in
  let v_grade := new_node 2 "Grade" ["a"; "b"; "c"] [qfrac 3 10; qfrac 2 5; qfrac 3 10; qfrac 9 10; qfrac 2 25; qfrac 1 50; qfrac 1 20;
     qfrac 1 4; qfrac 7 10; qfrac 1 2; qfrac 3 10; qfrac 1 5] in
  let v_intelligence := new_node 3 "Intelligence" ["low"; "high"] [qfrac 7 10; qfrac 3 10] in
  let v_sat := new_node 1 "SAT" ["low"; "high"] [qfrac 19 20; qfrac 1 20; qfrac 1 5; qfrac 4 5] in
  let v_difficulty := new_node 0 "Difficulty" ["easy"; "hard"] [qfrac 3 5; qfrac 2 5] in
  [AddNode v_letter; AddNode v_grade; AddNode v_intelligence; AddNode v_sat; AddNode v_difficulty; AddEdge v_difficulty v_grade;
     AddEdge v_intelligence v_grade; AddEdge v_intelligence v_sat; AddEdge v_grade v_letter].
Example test_inference_libpgm2 : plays net_libpgm2
  [Expect [("Difficulty", [qfrac 3 5; qfrac 2 5]); ("Intelligence", [qfrac 7 10; qfrac 3 10]); ("Grade", [qfrac 181 500; qfrac 36 125;
     qfrac 7 20]); ("SAT", [qfrac 29 40; qfrac 11 40]); ("Letter", [qfrac 249 500; qfrac 251 500])]] = true.
Proof. vm_compute. reflexivity. Qed.

(** pptc/test_inferencecontroller.py:563-587 test_trivial_inference, bbn1 *)
Definition net_trivial_1 : list bop :=
  let v_a1 := new_node 0 "a" ["t"; "f"] [qfrac 1 5; qfrac 4 5] in
  let v_b1 := new_node 1 "b" ["t"; "f"] [qfrac 1 10; qfrac 9 10; qfrac 9 10; qfrac 1 10] in
  [AddNode v_a1; AddNode v_b1; AddEdge v_a1 v_b1].
Example test_trivial_inference_1 : plays net_trivial_1
  [Expect [("a", [qfrac 1 5; qfrac 4 5]); ("b", [qfrac 37 50; qfrac 13 50])]] = true.
Proof. vm_compute. reflexivity. Qed.

(** pptc/test_inferencecontroller.py:563-587 test_trivial_inference, bbn2 *)
Definition net_trivial_2 : list bop :=
  let v_a2 := new_node 1 "a" ["t"; "f"] [qfrac 1 5; qfrac 4 5] in
  let v_b2 := new_node 0 "b" ["t"; "f"] [qfrac 1 10; qfrac 9 10; qfrac 9 10; qfrac 1 10] in
  [AddNode v_a2; AddNode v_b2; AddEdge v_a2 v_b2].
Example test_trivial_inference_2 : plays net_trivial_2
  [Expect [("a", [qfrac 1 5; qfrac 4 5]); ("b", [qfrac 37 50; qfrac 13 50])]] = true.
Proof. vm_compute. reflexivity. Qed.

(** pptc/test_inferencecontroller.py:563-587 test_trivial_inference, bbn3 *)
Definition net_trivial_3 : list bop :=
  let v_a3 := new_node 0 "a" ["t"; "f"] [qfrac 1 5; qfrac 4 5] in
  let v_b3 := new_node 1 "b" ["t"; "f"] [qfrac 1 10; qfrac 9 10] in
  [AddNode v_a3; AddNode v_b3].
Example test_trivial_inference_3 : plays net_trivial_3
  [Expect [("a", [qfrac 1 5; qfrac 4 5]); ("b", [qfrac 1 10; qfrac 9 10])]] = true.
Proof. vm_compute. reflexivity. Qed.

(** pptc/test_inferencecontroller.py:589-626 test_inference_var_permutation, bbn1 *)
Definition net_permutation_1 : list bop :=
  let v_a1 := new_node 0 "a" ["t"; "f"] [qfrac 1 5; qfrac 4 5] in
  let v_b1 := new_node 1 "b" ["t"; "f"] [qfrac 1 10; qfrac 9 10; qfrac 9 10; qfrac 1 10] in
  let v_c1 := new_node 2 "c" ["t"; "f"] [qfrac 1 5; qfrac 4 5; qfrac 7 10; qfrac 3 10] in
  [AddNode v_a1; AddNode v_b1; AddNode v_c1; AddEdge v_a1 v_b1; AddEdge v_b1 v_c1].
Example test_inference_var_permutation_1 : plays net_permutation_1
  [Expect [("a", [qfrac 1 5; qfrac 4 5]); ("b", [qfrac 37 50; qfrac 13 50]); ("c", [qfrac 33 100; qfrac 67 100])]] = true.
Proof. vm_compute. reflexivity. Qed.

(** pptc/test_inferencecontroller.py:589-626 test_inference_var_permutation, bbn2 *)
Definition net_permutation_2 : list bop :=
  let v_a2 := new_node 2 "a" ["t"; "f"] [qfrac 1 5; qfrac 4 5] in
  let v_b2 := new_node 1 "b" ["t"; "f"] [qfrac 1 10; qfrac 9 10; qfrac 9 10; qfrac 1 10] in
  let v_c2 := new_node 0 "c" ["t"; "f"] [qfrac 1 5; qfrac 4 5; qfrac 7 10; qfrac 3 10] in
  [AddNode v_a2; AddNode v_b2; AddNode v_c2; AddEdge v_a2 v_b2; AddEdge v_b2 v_c2].
Example test_inference_var_permutation_2 : plays net_permutation_2
  [Expect [("a", [qfrac 1 5; qfrac 4 5]); ("b", [qfrac 37 50; qfrac 13 50]); ("c", [qfrac 33 100; qfrac 67 100])]] = true.
Proof. vm_compute. reflexivity. Qed.

(** pptc/test_inferencecontroller.py:710-731 test_six_values_parents *)
Definition net_six_parents : list bop :=
  let v_a := new_node 0 "a" ["s1"; "s2"; "s3"; "s4"; "s5"; "s6"] [qfrac 1 10; qfrac 1 10; qfrac 1 10; qfrac 1 10; qfrac 1 10; qfrac 1 2] in
  let v_b := new_node 1 "b" ["t"; "f"] [qfrac 1 5; qfrac 4 5; qfrac 4 5; qfrac 1 5; qfrac 4 5; qfrac 1 5; qfrac 4 5; qfrac 1 5;
     qfrac 4 5; qfrac 1 5; qfrac 1 5; qfrac 4 5] in
  [AddNode v_a; AddNode v_b; AddEdge v_a v_b].
Example test_six_values_parents : plays net_six_parents
  [Expect [("a", [qfrac 1 10; qfrac 1 10; qfrac 1 10; qfrac 1 10; qfrac 1 10; qfrac 1 2]); ("b", [qfrac 11 25; qfrac 14 25])]] = true.
Proof. vm_compute. reflexivity. Qed.

(** pptc/test_inferencecontroller.py:733-751 test_six_values_child *)
Definition net_six_child : list bop :=
  let v_a := new_node 0 "a" ["t"; "f"] [qfrac 1 10; qfrac 9 10] in
  let v_b := new_node 1 "b" ["s1"; "s2"; "s3"; "s4"; "s5"; "s6"] [qfrac 1 10; qfrac 1 10; qfrac 1 10; qfrac 1 10; qfrac 1 10; qfrac 1 2;
     qfrac 1 5; qfrac 1 5; qfrac 1 5; qfrac 1 5; qfrac 1 10; qfrac 1 10] in
  [AddNode v_a; AddNode v_b; AddEdge v_a v_b].
Example test_six_values_child : plays net_six_child
  [Expect [("a", [qfrac 1 10; qfrac 9 10]); ("b", [qfrac 19 100; qfrac 19 100; qfrac 19 100; qfrac 19 100; qfrac 1 10;
     qfrac 7 50])]] = true.
Proof. vm_compute. reflexivity. Qed.

(** pptc/test_inferencecontroller.py:628-671 test_forest_inference *)
Definition net_forest : list bop :=
  let v_a := new_node 0 "a" ["t"; "f"] [qfrac 1 5; qfrac 4 5] in
  let v_b := new_node 1 "b" ["t"; "f"] [qfrac 1 10; qfrac 9 10; qfrac 9 10; qfrac 1 10] in
  let v_c := new_node 2 "c" ["t"; "f"] [qfrac 1 5; qfrac 4 5] in
  let v_d := new_node 3 "d" ["t"; "f"] [qfrac 1 10; qfrac 9 10; qfrac 9 10; qfrac 1 10] in
  let v_e := new_node 4 "e" ["t"; "f"] [qfrac 1 5; qfrac 4 5] in
  let v_f := new_node 5 "f" ["t"; "f"] [qfrac 1 10; qfrac 9 10; qfrac 9 10; qfrac 1 10] in
  [AddNode v_a; AddNode v_b; AddNode v_c; AddNode v_d; AddNode v_e; AddNode v_f; AddEdge v_a v_b; AddEdge v_c v_d; AddEdge v_e v_f].
Example test_forest_inference : forallb (fun o => match apply o (build net_forest) with Ok (_, j) => all_near [("0=t", qfrac 1 5);
   ("0=f", qfrac 4 5);
   ("1=t", qfrac 7400000000000001 10000000000000000);
   ("1=f", qfrac 13 50);
   ("2=t", qfrac 1 5);
   ("2=f", qfrac 4 5);
   ("3=t", qfrac 7400000000000001 10000000000000000);
   ("3=f", qfrac 13 50);
   ("4=t", qfrac 1 5);
   ("4=f", qfrac 4 5);
   ("5=t", qfrac 7400000000000001 10000000000000000);
   ("5=f", qfrac 13 50)]
  (reported j) | Err _ => false end) orders = true.
Proof. vm_compute. reflexivity. Qed.

(** pptc/test_inferencecontroller.py:673-708 test_reapply: the first and the second network of the test *)
Definition net_before : list bop :=
  let v_a := new_node 0 "a" ["t"; "f"] [qfrac 1 5; qfrac 4 5] in
  let v_b := new_node 1 "b" ["t"; "f"] [qfrac 1 10; qfrac 9 10; qfrac 9 10; qfrac 1 10] in
  [AddNode v_a; AddNode v_b; AddEdge v_a v_b].
Definition net_after : list bop :=
  let a := new_node 0 "a" ["t"; "f"] [qfrac 3 10; qfrac 7 10] in
  let b := new_node 1 "b" ["t"; "f"] [qfrac 2 10; qfrac 8 10; qfrac 8 10; qfrac 2 10] in
  [AddNode a; AddNode b; AddEdge a b].
Example test_reapply : forallb (fun o =>
  match (r <- apply o (build net_before) ;; let (_, j) := r in
         k <- reapply o j [(0, [qfrac 3 10; qfrac 7 10]); (1, [qfrac 2 10; qfrac 8 10; qfrac 8 10; qfrac 2 10])] ;;
         s <- apply o (build net_after) ;; let (_, l) := s in Ok (reported j, reported k, reported l)) with
  | Ok (lhs, rhs, again) =>
      forallb (fun kv => match dget rhs (fst kv) with Some v => negb (qeqb v (snd kv)) | None => false end) lhs &&
      Nat.eqb (List.length again) 4 && all_near again rhs
  | Err _ => false
  end) orders = true.
Proof. vm_compute. reflexivity. Qed.

(** ** tests/pptc: the stages, on the Huang graph *)

(** pptc/test_potentialinitializer.py:22-82 test_potential_initializer *)
Example test_potential_initializer : match pot_init (build huang_graph) with Ok h => prints (map potential_str (flat_map (fun p => match n_pot (snd p) with Some t => [t] | None => [] end) h)) [("0=on", qfrac 1 2);
   ("0=off", qfrac 1 2);
   ("0=on,1=on", qfrac 1 2);
   ("0=on,1=off", qfrac 1 2);
   ("0=off,1=on", qfrac 2 5);
   ("0=off,1=off", qfrac 3 5);
   ("0=on,2=on", qfrac 7 10);
   ("0=on,2=off", qfrac 3 10);
   ("0=off,2=on", qfrac 1 5);
   ("0=off,2=off", qfrac 4 5);
   ("1=on,3=on", qfrac 9 10);
   ("1=on,3=off", qfrac 1 10);
   ("1=off,3=on", qfrac 1 2);
   ("1=off,3=off", qfrac 1 2);
   ("2=on,4=on", qfrac 3 10);
   ("2=on,4=off", qfrac 7 10);
   ("2=off,4=on", qfrac 3 5);
   ("2=off,4=off", qfrac 2 5);
   ("3=on,4=on,5=on", qfrac 1 100);
   ("3=on,4=on,5=off", qfrac 99 100);
   ("3=on,4=off,5=on", qfrac 1 100);
   ("3=on,4=off,5=off", qfrac 99 100);
   ("3=off,4=on,5=on", qfrac 1 100);
   ("3=off,4=on,5=off", qfrac 99 100);
   ("3=off,4=off,5=on", qfrac 99 100);
   ("3=off,4=off,5=off", qfrac 1 100);
   ("2=on,6=on", qfrac 4 5);
   ("2=on,6=off", qfrac 1 5);
   ("2=off,6=on", qfrac 1 10);
   ("2=off,6=off", qfrac 9 10);
   ("4=on,6=on,7=on", qfrac 1 20);
   ("4=on,6=on,7=off", qfrac 19 20);
   ("4=on,6=off,7=on", qfrac 19 20);
   ("4=on,6=off,7=off", qfrac 1 20);
   ("4=off,6=on,7=on", qfrac 19 20);
   ("4=off,6=on,7=off", qfrac 1 20);
   ("4=off,6=off,7=on", qfrac 19 20);
   ("4=off,6=off,7=off", qfrac 1 20)] | Err _ => false end = true.
Proof. vm_compute. reflexivity. Qed.

(** pptc/test_moralizer.py:23-53 test_moralizer *)
Example test_moralizer : match moralize (b_g (build huang_graph)) with Ok u => same_texts (map (edge_str n_id) (get_edges u)) ["0--1";
   "0--2"; "1--3"; "2--4"; "3--5"; "4--5"; "2--6"; "4--7"; "6--7"; "3--4"; "4--6"] | Err _ => false end = true.
Proof. vm_compute. reflexivity. Qed.

(** pptc/test_triangulator.py:24-43 test_triangulator *)
Example test_triangulator : forallb (fun o => match stages o huang_graph with Ok (h, cs, _) => same_texts (map (clique_str h) cs) ["(d,e,f)";
   "(e,g,h)"; "(c,e,g)"; "(a,b,c)"; "(b,c,d)"; "(c,d,e)"] | Err _ => false end) orders = true.
Proof. vm_compute. reflexivity. Qed.

(** pptc/test_transformer.py:25-73 test_transformer *)
(** under the order that CPython gives to sets of small integers: the order of the names inside a text depends on it *)
Example test_transformer : forallb (fun o => match stages o huang_graph with Ok (h, _, j) => same_texts (map (jnode_str h) (dvals (jt_nodes j)))
  ["(d,e,f)"; "(e,g,h)"; "(c,e,g)"; "(a,b,c)"; "(b,c,d)"; "(c,d,e)"; "|(a,b,c) -- b,c -- (b,c,d)|"; "|(b,c,d) -- c,d -- (c,d,e)|";
     "|(c,e,g) -- c,e -- (c,d,e)|"; "|(d,e,f) -- d,e -- (c,d,e)|"; "|(e,g,h) -- e,g -- (c,e,g)|"] &&
  same_texts (map (jtedge_str h) (dvals (jt_edges j)))
  ["(a,b,c)--|(a,b,c) -- b,c -- (b,c,d)|--(b,c,d)"; "(b,c,d)--|(b,c,d) -- c,d -- (c,d,e)|--(c,d,e)";
     "(c,e,g)--|(c,e,g) -- c,e -- (c,d,e)|--(c,d,e)"; "(d,e,f)--|(d,e,f) -- d,e -- (c,d,e)|--(c,d,e)";
     "(e,g,h)--|(e,g,h) -- e,g -- (c,e,g)|--(c,e,g)"] | Err _ => false end) [ord_asc] = true.
Proof. vm_compute. reflexivity. Qed.

(** pptc/test_initializer.py:26-123 test_initializer *)
Example test_initializer : forallb (fun o => match (s <- stages o huang_graph ;;
   let (_, j) := s in initialize j) with Ok j => prints (map potential_str (dvals (jt_pots j)))
  [("3=on,4=on,5=on", qfrac 1 100);
   ("3=on,4=on,5=off", qfrac 99 100);
   ("3=on,4=off,5=on", qfrac 1 100);
   ("3=on,4=off,5=off", qfrac 99 100);
   ("3=off,4=on,5=on", qfrac 1 100);
   ("3=off,4=on,5=off", qfrac 99 100);
   ("3=off,4=off,5=on", qfrac 99 100);
   ("3=off,4=off,5=off", qfrac 1 100);
   ("4=on,6=on,7=on", qfrac 1 20);
   ("4=on,6=on,7=off", qfrac 19 20);
   ("4=on,6=off,7=on", qfrac 19 20);
   ("4=on,6=off,7=off", qfrac 1 20);
   ("4=off,6=on,7=on", qfrac 19 20);
   ("4=off,6=on,7=off", qfrac 1 20);
   ("4=off,6=off,7=on", qfrac 19 20);
   ("4=off,6=off,7=off", qfrac 1 20);
   ("2=on,4=on,6=on", qfrac 4 5);
   ("2=on,4=on,6=off", qfrac 1 5);
   ("2=on,4=off,6=on", qfrac 4 5);
   ("2=on,4=off,6=off", qfrac 1 5);
   ("2=off,4=on,6=on", qfrac 1 10);
   ("2=off,4=on,6=off", qfrac 9 10);
   ("2=off,4=off,6=on", qfrac 1 10);
   ("2=off,4=off,6=off", qfrac 9 10);
   ("0=on,1=on,2=on", qfrac 7 40);
   ("0=off,1=on,2=on", qfrac 1 25);
   ("0=on,1=on,2=off", qfrac 3 40);
   ("0=off,1=on,2=off", qfrac 4 25);
   ("0=on,1=off,2=on", qfrac 7 40);
   ("0=off,1=off,2=on", qfrac 3 50);
   ("0=on,1=off,2=off", qfrac 3 40);
   ("0=off,1=off,2=off", qfrac 6 25);
   ("1=on,2=on,3=on", qfrac 9 10);
   ("1=off,2=on,3=on", qfrac 1 2);
   ("1=on,2=on,3=off", qfrac 1 10);
   ("1=off,2=on,3=off", qfrac 1 2);
   ("1=on,2=off,3=on", qfrac 9 10);
   ("1=off,2=off,3=on", qfrac 1 2);
   ("1=on,2=off,3=off", qfrac 1 10);
   ("1=off,2=off,3=off", qfrac 1 2);
   ("2=on,3=on,4=on", qfrac 3 10);
   ("2=off,3=on,4=on", qfrac 3 5);
   ("2=on,3=on,4=off", qfrac 7 10);
   ("2=off,3=on,4=off", qfrac 2 5);
   ("2=on,3=off,4=on", qfrac 3 10);
   ("2=off,3=off,4=on", qfrac 3 5);
   ("2=on,3=off,4=off", qfrac 7 10);
   ("2=off,3=off,4=off", qfrac 2 5);
   ("1=on,2=on", qfrac 1 1);
   ("1=on,2=off", qfrac 1 1);
   ("1=off,2=on", qfrac 1 1);
   ("1=off,2=off", qfrac 1 1);
   ("2=on,3=on", qfrac 1 1);
   ("2=on,3=off", qfrac 1 1);
   ("2=off,3=on", qfrac 1 1);
   ("2=off,3=off", qfrac 1 1);
   ("2=on,4=on", qfrac 1 1);
   ("2=on,4=off", qfrac 1 1);
   ("2=off,4=on", qfrac 1 1);
   ("2=off,4=off", qfrac 1 1);
   ("3=on,4=on", qfrac 1 1);
   ("3=on,4=off", qfrac 1 1);
   ("3=off,4=on", qfrac 1 1);
   ("3=off,4=off", qfrac 1 1);
   ("4=on,6=on", qfrac 1 1);
   ("4=on,6=off", qfrac 1 1);
   ("4=off,6=on", qfrac 1 1);
   ("4=off,6=off", qfrac 1 1)] | Err _ => false end) orders = true.
Proof. vm_compute. reflexivity. Qed.

(** pptc/test_propagator.py:27-125 test_propagator *)
Example test_propagator : forallb (fun o => match (s <- stages o huang_graph ;; let (_, j) := s in j <- initialize j ;;
   propagate o j) with Ok j => prints (map potential_str (dvals (jt_pots j)))
  [("3=on,4=on,5=on", qfrac 63 20000);
   ("3=on,4=on,5=off", qfrac 6231 20000);
   ("3=on,4=off,5=on", qfrac 73 20000);
   ("3=on,4=off,5=off", qfrac 7233 20000);
   ("3=off,4=on,5=on", qfrac 3 2000);
   ("3=off,4=on,5=off", qfrac 93 625);
   ("3=off,4=off,5=on", qfrac 21 125);
   ("3=off,4=off,5=off", qfrac 17 10000);
   ("4=on,6=on,7=on", qfrac 141 20000);
   ("4=on,6=on,7=off", qfrac 2679 20000);
   ("4=on,6=off,7=on", qfrac 1539 5000);
   ("4=on,6=off,7=off", qfrac 81 5000);
   ("4=off,6=on,7=on", qfrac 2603 10000);
   ("4=off,6=on,7=off", qfrac 137 10000);
   ("4=off,6=off,7=on", qfrac 4959 20000);
   ("4=off,6=off,7=off", qfrac 261 20000);
   ("2=on,4=on,6=on", qfrac 27 250);
   ("2=on,4=on,6=off", qfrac 27 1000);
   ("2=on,4=off,6=on", qfrac 63 250);
   ("2=on,4=off,6=off", qfrac 63 1000);
   ("2=off,4=on,6=on", qfrac 33 1000);
   ("2=off,4=on,6=off", qfrac 297 1000);
   ("2=off,4=off,6=on", qfrac 11 500);
   ("2=off,4=off,6=off", qfrac 99 500);
   ("0=on,1=on,2=on", qfrac 7 40);
   ("0=off,1=on,2=on", qfrac 1 25);
   ("0=on,1=on,2=off", qfrac 3 40);
   ("0=off,1=on,2=off", qfrac 4 25);
   ("0=on,1=off,2=on", qfrac 7 40);
   ("0=off,1=off,2=on", qfrac 3 50);
   ("0=on,1=off,2=off", qfrac 3 40);
   ("0=off,1=off,2=off", qfrac 6 25);
   ("1=on,2=on,3=on", qfrac 387 2000);
   ("1=off,2=on,3=on", qfrac 47 400);
   ("1=on,2=on,3=off", qfrac 43 2000);
   ("1=off,2=on,3=off", qfrac 47 400);
   ("1=on,2=off,3=on", qfrac 423 2000);
   ("1=off,2=off,3=on", qfrac 63 400);
   ("1=on,2=off,3=off", qfrac 47 2000);
   ("1=off,2=off,3=off", qfrac 63 400);
   ("2=on,3=on,4=on", qfrac 933 10000);
   ("2=off,3=on,4=on", qfrac 1107 5000);
   ("2=on,3=on,4=off", qfrac 2177 10000);
   ("2=off,3=on,4=off", qfrac 369 2500);
   ("2=on,3=off,4=on", qfrac 417 10000);
   ("2=off,3=off,4=on", qfrac 543 5000);
   ("2=on,3=off,4=off", qfrac 973 10000);
   ("2=off,3=off,4=off", qfrac 181 2500);
   ("1=on,2=on", qfrac 43 200);
   ("1=on,2=off", qfrac 47 200);
   ("1=off,2=on", qfrac 47 200);
   ("1=off,2=off", qfrac 63 200);
   ("2=on,3=on", qfrac 311 1000);
   ("2=on,3=off", qfrac 139 1000);
   ("2=off,3=on", qfrac 369 1000);
   ("2=off,3=off", qfrac 181 1000);
   ("2=on,4=on", qfrac 27 200);
   ("2=on,4=off", qfrac 63 200);
   ("2=off,4=on", qfrac 33 100);
   ("2=off,4=off", qfrac 11 50);
   ("3=on,4=on", qfrac 3147 10000);
   ("3=on,4=off", qfrac 3653 10000);
   ("3=off,4=on", qfrac 1503 10000);
   ("3=off,4=off", qfrac 1697 10000);
   ("4=on,6=on", qfrac 141 1000);
   ("4=on,6=off", qfrac 81 250);
   ("4=off,6=on", qfrac 137 500);
   ("4=off,6=off", qfrac 261 1000)] | Err _ => false end) orders = true.
Proof. vm_compute. reflexivity. Qed.

(** ** tests/graph: graphs of bare nodes (the id is the node) *)

Definition self (i : Z) : Z := i.
Definition two_nodes : graph Z := add_node self (add_node self g_empty 0) 1.
(** graph/test_graph.py:25-56 test_graph_creation *)
Definition plain_graph : graph Z := add_edge self (add_edge self two_nodes (mkEdge 0 1 UNDIRECTED)) (mkEdge 1 2 UNDIRECTED).
Example test_graph_creation :
  List.length (get_nodes plain_graph) = 3%nat /\ List.length (get_edges plain_graph) = 2%nat /\
  (get_neighbors plain_graph 0, get_neighbors plain_graph 1, get_neighbors plain_graph 2) = ([1], [0; 2], [1]) /\
  (edge_exists plain_graph 0 1, edge_exists plain_graph 1 2, edge_exists plain_graph 0 2) = (true, true, false).
Proof. vm_compute. auto. Qed.
(** graph/test_graph.py:58-126 test_graph_neighbor_tracking, test_ug_neighbor_tracking *)
Example test_graph_neighbor_tracking :
  g_nbrs plain_graph = [(0, [1]); (1, [0; 2]); (2, [1])] /\ g_nbrs (remove_node plain_graph 0) = [(1, [2]); (2, [1])].
Proof. vm_compute. auto. Qed.

Definition add_all (add : graph Z -> edge Z -> res (graph Z)) (es : list (Z * Z)) : res (graph Z) :=
  foldM (fun g e => add g (mkEdge (fst e) (snd e) DIRECTED)) es two_nodes.
(** graph/test_graph.py:128-161 test_dag_neighbor_tracking *)
Example test_dag_neighbor_tracking : forall o, In o orders ->
  match add_all (dag_add_edge self o) [(0, 1); (1, 2)] with
  | Ok g => g_nbrs g = [(0, [1]); (1, [0; 2]); (2, [1])] /\ g_nbrs (remove_node g 0) = [(1, [2]); (2, [1])]
  | Err _ => False
  end.
Proof. intros o [<- | [<- | [<- | []]]]; vm_compute; auto. Qed.
(** graph/test_dag.py:30-79 test_dag_creation: the third edge would close a cycle *)
Example test_dag_creation : forall o, In o orders ->
  match add_all (dag_add_edge self o) [(0, 1); (1, 2); (2, 0)] with
  | Ok g =>
      List.length (get_nodes g) = 3%nat /\ List.length (get_edges g) = 2%nat /\
      same_texts (map str_of_Z (get_neighbors g 1)) ["0"; "2"] = true /\ (get_neighbors g 0, get_neighbors g 2) = ([1], [1]) /\
      (dag_edge_exists g 0 1, dag_edge_exists g 1 2, dag_edge_exists g 0 2) = (true, true, false) /\
      (get_parents g 0, get_parents g 1, get_parents g 2) = ([], [0], [1]) /\
      (get_children o g 0, get_children o g 1, get_children o g 2) = ([1], [2], [])
  | Err _ => False
  end.
Proof. intros o [<- | [<- | [<- | []]]]; vm_compute; repeat split. Qed.
(** graph/test_pdag.py:23-76 test_pdag_creation *)
Example test_pdag_creation : forall o, In o orders ->
  match add_all (pdag_add_edge self o) [(0, 1); (1, 2); (2, 0)] with
  | Ok g =>
      List.length (get_nodes g) = 3%nat /\ List.length (get_edges g) = 2%nat /\
      (pdag_edge_exists g 0 1, pdag_edge_exists g 1 2, pdag_edge_exists g 0 2) = (true, true, false) /\
      (pdag_directed_edge_exists g 0 1, pdag_directed_edge_exists g 1 2, pdag_directed_edge_exists g 0 2) = (true, true, false) /\
      (get_parents g 0, get_parents g 1, get_parents g 2) = ([], [0], [1]) /\
      (get_out_nodes o g 0, get_out_nodes o g 1, get_out_nodes o g 2) = ([1], [2], [])
  | Err _ => False
  end.
Proof. intros o [<- | [<- | [<- | []]]]; vm_compute; repeat split. Qed.

(** ** tests/graph/test_node.py *)
Definition four : heap := map (fun n => (n_id n, n)) [huang_a; huang_b; huang_c; huang_d].
Definition abc := mk_clique [0; 1; 2].
Definition bcd := mk_clique [1; 2; 3].
(** graph/test_node.py:89-125 test_bbn_node_creation *)
Example test_bbn_node_creation :
  map (fun n => (n_id n, n_weight n)) [huang_a; huang_b; huang_c; huang_d; huang_e; huang_f; huang_g; huang_h] =
  map (fun i => (i, 2)) [0; 1; 2; 3; 4; 5; 6; 7].
Proof. reflexivity. Qed.
(** graph/test_node.py:127-143 test_clique_creation *)
Example test_clique_creation :
  cl_id abc = "0-1-2" /\ cl_weight (h_weight four) abc = 8 /\ map (contains abc) [0; 1; 2; 3] = [true; true; true; false].
Proof. vm_compute. auto. Qed.
(** graph/test_node.py:145-170 test_clique_is_superset *)
Example test_clique_is_superset :
  map (is_superset abc) (map mk_clique [[0]; [1]; [2]; [3]; [0; 1; 2]; [0; 1]; [0; 2]; [1; 2]; [2; 3]]) =
  [true; true; true; false; true; true; true; true; false].
Proof. vm_compute. reflexivity. Qed.
(** graph/test_node.py:172-192 test_sep_set_creation *)
Example test_sep_set_creation :
  ss_nodes (get_sep_set abc bcd) = [1; 2] /\ ss_cost (h_weight four) (get_sep_set abc bcd) = 16 /\ ss_mass (get_sep_set abc bcd) = 2%nat.
Proof. vm_compute. auto. Qed.
(** graph/test_node.py:194-221 test_str *)
Example test_node_str :
  map node_str [huang_a; huang_b; huang_c; huang_d] = ["0|a|on,off"; "1|b|on,off"; "2|c|on,off"; "3|d|on,off"] /\
  clique_str four abc = "(a,b,c)" /\ clique_str four bcd = "(b,c,d)" /\ sepset_str four (get_sep_set abc bcd) = "|(a,b,c) -- b,c -- (b,c,d)|".
Proof. vm_compute. auto. Qed.

(** ** tests/graph/test_potential.py *)
Definition entry (l : list (Z * string)) : pentry := mkPE (fold_left (fun d p => dset d (fst p) (snd p)) l []) 1%Qc.
Definition on_on := entry [(0, "on"); (1, "on")].
Definition on_off' := entry [(0, "on"); (1, "off")].
Definition off_on := entry [(0, "off"); (1, "on")].
Definition off_off := entry [(0, "off"); (1, "off")].
(** graph/test_potential.py:21-39 test_potential_entry_matches; 41-52 test_potential_entry_duplicate *)
Example test_potential_entry_matches :
  pe_matches on_on on_on = true /\ pe_matches on_on on_off' = false /\ pe_matches on_on (pe_duplicate on_on) = true.
Proof. vm_compute. auto. Qed.
(** graph/test_potential.py:54-77 test_potential_get_matching_entry *)
Example test_potential_get_matching_entry :
  map (fun e => List.length (get_matching_entries [on_on; on_off'; off_on; off_off] e)) [on_on; on_off'; off_on; off_off;
     entry [(3, "off"); (1, "off")]] =
  [1; 1; 1; 1; 0]%nat.
Proof. vm_compute. reflexivity. Qed.
(** graph/test_potential.py:79-99 test_str *)
Example test_potential_str :
  potential_str [on_on; on_off'; off_on; off_off] =
  ("0=on,1=on|1.00000" ++ newline ++ "0=on,1=off|1.00000" ++ newline ++ "0=off,1=on|1.00000" ++ newline ++ "0=off,1=off|1.00000")%string.
Proof. vm_compute. reflexivity. Qed.

(** ** tests/graph/test_jointree.py *)
(** graph/test_jointree.py:29-57 test_jointree_creation *)
Example test_jointree_creation : forall o, In o orders ->
  let c0 := mk_clique [0; 1] in let c1 := mk_clique [1; 2] in
  match foldM (jt_add_edge o) [get_sep_set c0 c1; get_sep_set c0 c1; get_sep_set c1 c0; get_sep_set c0 c0] (jt_empty []) with
  | Ok j => List.length (jt_nodes j) = 3%nat /\ List.length (jt_edges j) = 1%nat /\ List.length (get_flattened_edges j) = 2%nat
  | Err _ => False
  end.
Proof. intros o [<- | [<- | [<- | []]]]; vm_compute; auto. Qed.
(** graph/test_jointree.py:109-215 test_to_dict *)
Definition n0 := new_node 0 "n0" ["t"; "f"] [qfrac 2 10; qfrac 8 10].
Definition n1 := new_node 1 "n1" ["t"; "f"] [qfrac 9 10; qfrac 1 10; qfrac 9 10; qfrac 1 10].
Definition n2 := new_node 2 "n2" ["t"; "f"] [qfrac 6 10; qfrac 4 10; qfrac 4 10; qfrac 6 10].
Definition serial : list bop := [AddNode n0; AddNode n1; AddNode n2; AddEdge n0 n1; AddEdge n1 n2].
Example test_jointree_to_dict :
  match (r <- apply ord_asc (build serial) ;; let (b, j) := r in jt_to_dict ord_asc j b) with
  | Ok d =>
      Nat.eqb (List.length (jd_bbn d)) 3 = true /\
      map (fun i => match dget (jd_bbn d) (KInt i) with
                    | Some n => (nd_id n, nd_name n, nd_values n, map this (nd_probs n))
                    | None => (0, "", [], [])
                    end) [0; 1; 2] =
      map (fun n => (n_id n, n_name n, n_values n, map this (n_probs n))) [n0; n1; n2] /\
      jd_edges d = ["0-1-1-1-2"] /\
      same_texts (map fst (jd_nodes d)) ["0-1"; "0-1-1-1-2"; "1-2"] = true /\
      dget (jd_nodes d) "0-1" = Some (DClique [0; 1]) /\ dget (jd_nodes d) "1-2" = Some (DClique [1; 2]) /\
      dget (jd_nodes d) "0-1-1-1-2" = Some (DSepset "0-1" "1-2") /\
      jd_pinfo d = [("1", [0]); ("2", [1])]
  | Err _ => False
  end.
Proof. vm_compute. repeat split. Qed.
(** graph/test_jointree.py:217-332 test_from_dict, with the dictionary of test_to_dict as JSON gives it back; 334-355
    test_simple_serde *)
Definition serde_near (ops : list bop) (n : nat) : bool :=
  forallb (fun o =>
    match (r <- apply o (build ops) ;; let (b, j) := r in
           d <- jt_to_dict o j b ;; k <- jt_from_dict o (json_jt d) ;; k <- apply_from_serde o k ;; Ok (reported j, reported k)) with
    | Ok (lhs, rhs) => Nat.eqb (List.length lhs) n && Nat.eqb (List.length rhs) n && all_near lhs rhs
    | Err _ => false
    end) orders.
Example test_jointree_serde : serde_near serial 6 && serde_near net_before 4 = true.
Proof. vm_compute. reflexivity. Qed.

(** ** tests/graph/test_dag.py *)
(** graph/test_dag.py:114-301 test_to_dict *)
Example test_bbn_to_dict :
  let d := bbn_to_dict (build huang_graph) in
  bd_edges d = [(0, 1); (0, 2); (1, 3); (2, 4); (3, 5); (4, 5); (2, 6); (4, 7); (6, 7)] /\
  map fst (bd_nodes d) = map KInt [0; 1; 2; 3; 4; 5; 6; 7] /\
  map (fun p => (nd_id (snd p), nd_name (snd p), nd_values (snd p))) (bd_nodes d) =
  map (fun p => (fst p, snd p, ["on"; "off"])) [(0, "a"); (1, "b"); (2, "c"); (3, "d"); (4, "e"); (5, "f"); (6, "g"); (7, "h")] /\
  map (fun p => map this (nd_probs (snd p))) (bd_nodes d) =
  map (map this) (map tenths [[5; 5]; [5; 5; 4; 6]; [7; 3; 2; 8]; [9; 1; 5; 5]; [3; 7; 6; 4]] ++
                  [hundredths [1; 99; 1; 99; 1; 99; 99; 1]; tenths [8; 2; 1; 9]; hundredths [5; 95; 95; 5; 95; 5; 95; 5]]).
Proof. vm_compute. repeat split. Qed.
(** graph/test_dag.py:318-327 test_from_dict *)
Example test_bbn_from_dict :
  match bbn_from_dict (bbn_to_dict (build huang_graph)) with
  | Ok b => List.length (get_nodes (b_g b)) = 8%nat /\ List.length (get_edges (b_g b)) = 9%nat
  | Err _ => False
  end.
Proof. vm_compute. auto. Qed.
(** graph/test_dag.py:81-112 test_csv_serde, with five-digit numbers in the file; the numbers are not compared *)
Example test_csv_serde :
  match from_csv (fun _ => Some 0%Qc) (to_csv fmt5 (build huang_graph)) with
  | Ok b =>
      same_texts (map node_str (get_nodes (b_g b))) (map node_str (get_nodes (b_g (build huang_graph)))) &&
      same_texts (map (edge_str n_id) (get_edges (b_g b))) (map (edge_str n_id) (get_edges (b_g (build huang_graph))))
  | Err _ => false
  end = true.
Proof. vm_compute. reflexivity. Qed.
(** graph/test_dag.py:329-339 test_to_dne *)
Example test_to_dne :
  match to_dne fmt5 (build huang_graph) "my_bnet" with
  | Ok text => forallb (fun n => match index 0 ("node " ++ n)%string text with Some _ => true | None => false end) ["a"; "b"; "c"; "d";
     "e"; "f"; "g"; "h"]
  | Err _ => false
  end = true.
Proof. vm_compute. reflexivity. Qed.

(** ** tests/graph/test_factory.py *)
(** graph/test_factory.py:19-79 get_dict *)
Definition libpgm_dict : libpgm := mkLib ["Letter"; "Grade"; "Intelligence"; "SAT"; "Difficulty"]
  [("Letter", mkVD ["weak"; "strong"] 4 (Some ["Grade"])
     (Keyed [("['A']", [qfrac 1 10; qfrac 9 10]); ("['B']", [qfrac 4 10; qfrac 6 10]); ("['C']", [qfrac 99 100; qfrac 1 100])]));
   ("SAT", mkVD ["lowscore"; "highscore"] 3 (Some ["Intelligence"])
     (Keyed [("['low']", [qfrac 95 100; qfrac 5 100]); ("['high']", [qfrac 2 10; qfrac 8 10])]));
   ("Grade", mkVD ["A"; "B"; "C"] 2 (Some ["Difficulty"; "Intelligence"])
     (Keyed [("['easy', 'low']", [qfrac 3 10; qfrac 4 10; qfrac 3 10]); ("['easy', 'high']", [qfrac 9 10; qfrac 8 100; qfrac 2 100]);
             ("['hard', 'low']", [qfrac 5 100; qfrac 25 100; qfrac 7 10]); ("['hard', 'high']", [qfrac 5 10; qfrac 3 10; qfrac 2 10])]));
   ("Intelligence", mkVD ["low"; "high"] 1 None (Plain [qfrac 7 10; qfrac 3 10]));
   ("Difficulty", mkVD ["easy"; "hard"] 0 None (Plain [qfrac 6 10; qfrac 4 10]))].
(** graph/test_factory.py:117-126 test_from_libpgm_discrete_json; 128-151 test_from_libpgm_discrete_dictionary. (There the check runs
    with debug=True, which compares nothing; here it compares.) *)
Example test_from_libpgm_discrete_dictionary :
  match from_libpgm libpgm_dict with
  | Ok b =>
      Nat.eqb (List.length (g_nodes (b_g b))) 5 && Nat.eqb (List.length (g_edges (b_g b))) 4 &&
      forallb (fun o => match apply o b with
                        | Ok (_, j) => expectb j [("Difficulty", [qfrac 6 10; qfrac 4 10]); ("Intelligence", [qfrac 7 10; qfrac 3 10]);
                                                  ("Grade", [qfrac 362 1000; qfrac 288 1000; qfrac 350 1000]);
                                                  ("SAT", [qfrac 725 1000; qfrac 275 1000]); ("Letter", [qfrac 498 1000; qfrac 502 1000])]
                        | Err _ => false
                        end) orders
  | Err _ => false
  end = true.
Proof. vm_compute. reflexivity. Qed.
(** graph/test_factory.py:198-237 test_ordered; 242-285 test_not_ordered. The tests bound the difference from one side; here from
    both. *)
Definition learned (df : frame) : bool :=
  match from_data [("a", []); ("b", ["a"]); ("c", ["a"]); ("d", ["b"; "c"])] df with
  | Ok b =>
      forallb (fun o => match (r <- apply o b ;; get_posteriors (snd r)) with
                        | Ok ps =>
                            forallb (fun e => match dget ps (fst e) with
                                              | Some m => forallb (fun kv => match dget m (fst kv) with Some v => near (qfrac 1 100000) (snd kv) v | None => false end) (snd e)
                                              | None => false
                                              end)
                                    [("a", [("0", qfrac 2 10); ("1", qfrac 6 10); ("2", qfrac 2 10)]); ("b", [("0", qfrac 6 10);
                                       ("1", qfrac 4 10)]);
                                     ("c", [("0", qfrac 4 10); ("1", qfrac 6 10)]); ("d", [("0", qfrac 4 10); ("1", qfrac 4 10);
                                        ("2", qfrac 2 10)])]
                        | Err _ => false
                        end) orders
  | Err _ => false
  end.
Definition col_a := ("a", ["0"; "1"; "1"; "1"; "2"]).
Definition col_b := ("b", ["1"; "0"; "0"; "0"; "1"]).
Definition col_c := ("c", ["0"; "1"; "1"; "0"; "1"]).
Definition col_d := ("d", ["0"; "1"; "1"; "0"; "2"]).
Example test_ordered : learned [col_a; col_b; col_c; col_d] = true.
Proof. vm_compute. reflexivity. Qed.
Example test_not_ordered : learned [col_a; col_c; col_b; col_d] = true.
Proof. vm_compute. reflexivity. Qed.

(** ** tests/causality/test_ace.py *)
(** causality/test_ace.py:10-43 get_drug_network; 61-72 test_ace. The test bounds the differences from one side; here from both. *)
Definition net_drug : list bop :=
  let v_X := new_node 1 "drug" ["false"; "true"] [qfrac 23323615160349853 100000000000000000; qfrac 1533527696793003 2000000000000000;
     qfrac 7563025210084033 10000000000000000; qfrac 24369747899159663 100000000000000000] in
  let v_Y := new_node 2 "recovery" ["false"; "true"] [qfrac 6200000000000001 20000000000000000; qfrac 69 100; qfrac 27 100; qfrac 73 100;
     qfrac 13 100; qfrac 87 100; qfrac 1399999999999999 20000000000000000; qfrac 93 100] in
  let v_Z := new_node 0 "gender" ["female"; "male"] [qfrac 49 100; qfrac 51 100] in
  [AddNode v_X; AddNode v_Y; AddNode v_Z; AddEdge v_Z v_X; AddEdge v_Z v_Y; AddEdge v_X v_Y].
Example test_ace : forallb (fun o =>
  match (r <- ace_init o (build net_drug) ;; let (b, j) := r in get_ace o b j "drug" "recovery" "true") with
  | Ok (_, m) => match dget m "true", dget m "false" with
                 | Some t, Some f => near milli t (qfrac 832 1000) && near milli f (qfrac 782 1000)
                 | _, _ => false
                 end
  | Err _ => false
  end) orders = true.
Proof. vm_compute. reflexivity. Qed.

(** ** tests/sampling/test_sampling.py *)
Definition table_is (t : res M_Sampling.table) (rows : list (list Qc)) : bool :=
  match t with
  | Ok t => match M_Sampling.tb_probs t with
            | M_Sampling.Flat l => match rows with [r] => nears milli l r | _ => false end
            | M_Sampling.Keyed d => Nat.eqb (List.length d) (List.length rows) && forallb (fun p => nears milli (fst p) (snd p)) (combine (dvals d) rows)
            end
  | Err _ => false
  end.
Definition value_is (t : res M_Sampling.table) (p : Qc) (s : list (Z * string)) (v : string) : bool :=
  match (t <- t ;; M_Sampling.get_value t p s) with Ok w => String.eqb v w | Err _ => false end.
(** sampling/test_sampling.py:31-42 test_table; 44-60 test_pa_ch_table *)
Example test_table :
  let t := M_Sampling.mk_table huang_a [] in
  table_is t [[qfrac 5 10; qfrac 1 1]] && value_is t (qfrac 4 10) [] "on" && value_is t (qfrac 6 10) [] "off" = true.
Proof. vm_compute. reflexivity. Qed.
Example test_pa_ch_table :
  let t := M_Sampling.mk_table huang_b [huang_a] in
  table_is t [[qfrac 5 10; qfrac 1 1]; [qfrac 4 10; qfrac 1 1]] &&
  value_is t (qfrac 4 10) [(0, "on")] "on" && value_is t (qfrac 7 10) [(0, "on")] "off" &&
  value_is t (qfrac 3 10) [(0, "off")] "on" && value_is t (qfrac 6 10) [(0, "off")] "off" = true.
Proof. vm_compute. reflexivity. Qed.
(** sampling/test_sampling.py:62-100 test_multiple_pa_ch_table, with the nodes of test_ace.py (the same numbers) *)
Definition drug_node (i : Z) : bnode := match dget (g_nodes (b_g (build net_drug))) i with Some n => n | None => n0 end.
Example test_multiple_pa_ch_table :
  let t := M_Sampling.mk_table (drug_node 2) [drug_node 1; drug_node 0] in
  table_is t [[qfrac 31 100; qfrac 1 1]; [qfrac 27 100; qfrac 1 1]; [qfrac 13 100; qfrac 1 1]; [qfrac 7 100; qfrac 1 1]] = true /\
  match t with
  | Ok t => match M_Sampling.tb_probs t with M_Sampling.Keyed d => dkeys d | _ => [] end
  | Err _ => []
  end = ["0=female,1=false"; "0=female,1=true"; "0=male,1=false"; "0=male,1=true"].
Proof. vm_compute. auto. Qed.
(** sampling/test_sampling.py:102-153: the three sorting tests; 155-193 test_sampler_tables *)
Definition sorted_by (lt : M_Sampling.snode -> M_Sampling.snode -> bool) l := M_Sampling.small_sort lt l.
Definition plain_node (i : Z) (name : string) : bnode := new_node i name ["on"; "off"] [].
Example test_topological_sorts :
  M_Sampling.topological_sort sorted_by (build huang_graph) = [0; 1; 2; 3; 4; 5; 6; 7] /\
  (let a := plain_node 0 "a" in let b := plain_node 1 "b" in let c := plain_node 2 "c" in
   M_Sampling.topological_sort sorted_by (build [AddNode a; AddNode b; AddNode c; AddEdge c b; AddEdge b a]) = [2; 1; 0] /\
   M_Sampling.topological_sort sorted_by (build [AddNode a; AddNode b; AddNode c; AddEdge b a; AddEdge b c]) = [1; 0; 2]).
Proof. vm_compute. auto. Qed.
Example test_sampler_tables :
  match M_Sampling.logic_sampler sorted_by (build [AddNode huang_a; AddNode huang_b; AddNode huang_c; AddEdge huang_a huang_b;
     AddEdge huang_b huang_c]) with
  | Ok s =>
      M_Sampling.sp_nodes s = [0; 1; 2] /\ dkeys (M_Sampling.sp_tables s) = [0; 1; 2] /\
      table_is (dgetE (M_Sampling.sp_tables s) 0) [[qfrac 5 10; qfrac 1 1]] = true /\
      table_is (dgetE (M_Sampling.sp_tables s) 1) [[qfrac 5 10; qfrac 1 1]; [qfrac 4 10; qfrac 1 1]] = true /\
      table_is (dgetE (M_Sampling.sp_tables s) 2) [[qfrac 7 10; qfrac 1 1]; [qfrac 2 10; qfrac 1 1]] = true
  | Err _ => False
  end.
Proof. vm_compute. repeat split. Qed.

(** ** tests/gaussian/test_inference.py, from the rounded numbers of test_repr (177-180) instead of the random data *)
Definition castillo : M_Gauss.ginf :=
  M_Gauss.Build_ginf ["A"; "B"; "C"; "D"] [qfrac 2 1000; qfrac (-9) 1000; qfrac 7 1000; qfrac (-18) 1000] 4
    (fun i j => nth j (nth i [[qfrac 991 1000; qfrac 8 1000; qfrac 1001 1000; qfrac 204 1000]; [qfrac 8 1000; qfrac 1010 1000;
       qfrac 14 1000; qfrac 799 1000];
                              [qfrac 1001 1000; qfrac 14 1000; qfrac 1996 1000; qfrac 225 1000]; [qfrac 204 1000; qfrac 799 1000;
                                 qfrac 225 1000; qfrac 1685 1000]] []) 0%Qc) [].
(** the inverse of a three by three matrix, by cofactors *)
Definition inverse3 (k : nat) (a : M_Gauss.arr) : res M_Gauss.arr :=
  let m i j := a (Nat.modulo i 3) (Nat.modulo j 3) in
  let cof i j := (m (S i) (S j) * m (S (S i)) (S (S j)) - m (S i) (S (S j)) * m (S (S i)) (S j))%Qc in
  let det := (m O O * cof O O + m O 1%nat * cof O 1%nat + m O 2%nat * cof O 2%nat)%Qc in
  if Nat.eqb k 3 then Ok (fun i j => (cof j i / det)%Qc) else Err ValueError.
(** gaussian/test_inference.py:182-194 test_repr, marginals: the means come out negated *)
Example test_marginals :
  match M_Gauss.gmarginals castillo with
  | Ok l =>
      map (fun x => fst (fst x)) l = ["A"; "B"; "C"; "D"] /\
      nears milli (map (fun x => snd (fst x)) l) [qfrac (-17234) 10000000; qfrac 91710 10000000; qfrac (-67120) 10000000;
         qfrac 180856 10000000] = true /\
      nears milli (map snd l) [qfrac 990700 1000000; qfrac 1010018 1000000; qfrac 1995704 1000000; qfrac 1685137 1000000] = true
  | Err _ => False
  end.
Proof. vm_compute. auto. Qed.
(** gaussian/test_inference.py:143-163 test_do_inferences: A = 1, B = 2, C = 3 *)
Example test_do_inferences :
  match M_Gauss.do_inferences inverse3 castillo [("A", qfrac 1 1); ("B", qfrac 2 1); ("C", qfrac 3 1)] with
  | Ok g => nears (qfrac 5 1000) (M_Gauss.gi_M g) [qfrac (-183205) 100000]
  | Err _ => false
  end = true.
Proof. vm_compute. reflexivity. Qed.
