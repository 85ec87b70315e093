(** The example networks of the library: BbnUtil (pybbn/graph/dag.py:403-485). Decimal literals stand for the exact fractions. *)
From Verif Require Import Py M_Graph M_Node.
Local Open Scope string_scope.

(** [BbnNode(Variable(i, name, ["on", "off"]), probs)] *)
Definition on_off (i : Z) (name : string) (probs : list Qc) : bnode := new_node i name ["on"; "off"] probs.
Definition tenths (l : list Z) : list Qc := map (fun z => Q2Qc (z # 10)) l.
Definition hundredths (l : list Z) : list Qc := map (fun z => Q2Qc (z # 100)) l.

(** dag.py:415-428, 460-468 *)
Definition huang_a := on_off 0 "a" (tenths [5; 5])%Z.
Definition huang_b := on_off 1 "b" (tenths [5; 5; 4; 6])%Z.
Definition huang_c := on_off 2 "c" (tenths [7; 3; 2; 8])%Z.
Definition huang_d := on_off 3 "d" (tenths [9; 1; 5; 5])%Z.
Definition huang_e := on_off 4 "e" (tenths [3; 7; 6; 4])%Z.
Definition huang_f := on_off 5 "f" (hundredths [1; 99; 1; 99; 1; 99; 99; 1])%Z.
Definition huang_g := on_off 6 "g" (tenths [8; 2; 1; 9])%Z.
Definition huang_h := on_off 7 "h" (hundredths [5; 95; 95; 5; 95; 5; 95; 5])%Z.

(** dag.py:408-451 get_huang_graph: the calls made *)
Definition huang_graph : list bop :=
  [AddNode huang_a; AddNode huang_b; AddNode huang_c; AddNode huang_d; AddNode huang_e; AddNode huang_f; AddNode huang_g; AddNode huang_h;
   AddEdge huang_a huang_b; AddEdge huang_a huang_c; AddEdge huang_b huang_d; AddEdge huang_c huang_e; AddEdge huang_d huang_f;
   AddEdge huang_e huang_f; AddEdge huang_c huang_g; AddEdge huang_e huang_h; AddEdge huang_g huang_h].
(** dag.py:453-485 get_simple: the calls made *)
Definition simple_graph : list bop :=
  [AddNode huang_a; AddNode huang_b; AddNode huang_c; AddNode huang_d; AddNode huang_e; AddNode huang_f;
   AddEdge huang_a huang_b; AddEdge huang_a huang_c; AddEdge huang_b huang_d; AddEdge huang_c huang_e; AddEdge huang_d huang_f; AddEdge huang_e huang_f].
