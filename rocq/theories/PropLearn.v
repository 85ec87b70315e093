(** What networks learned from data report. Nothing but theorems and examples. *)
From Verif Require Import Py M_Graph M_Node M_Pptc M_Factory Spec SpecNet SpecEv SpecCohere SpecFactory L_Base L_Check L_R1 L_R12 SpecLearn L_Learn.
Open Scope nat_scope.

(** C116. If no column has more than one parent, then what is reported for the network learned from a frame, before any evidence, is for each column
    the part of the records that has the value. *)
Theorem C116_tree : forall structure df n, frame_ok df n -> structure_ok structure df -> acyclic (cell_in df) -> acyclic (cause structure) -> linked structure df ->
  (forall c, In c (columns df) -> List.length (parents_of structure c) <= 1) ->
  exists b, from_data structure df = Ok b /\ forall o, ord_ok o -> exists b2 j t, apply o b = Ok (b2, j) /\ get_posteriors j = Ok t /\
    forall c, In c (columns df) -> exists vs, values_of df c vs /\ dget t c = Some (map (fun v => (v, share df n c v)) vs).
Proof. exact c116_tree. Qed.
Print Assumptions C116_tree.

(** With any structure: evidence that is true of a record is possible, so what is reported are probabilities that sum to 1; and of a column whose
    parents are known to be as in the record, while nothing is known about the column and what depends on it, the part of the records with these
    parents that has the value is reported. *)
Theorem C116_record : forall structure df n, frame_ok df n -> structure_ok structure df -> acyclic (cell_in df) -> acyclic (cause structure) -> linked structure df ->
  (forall c, In c (columns df) -> by_name (parents_of structure c)) ->
  exists ops id vals, from_data structure df = Ok (build ops) /\ (forall c, In c (columns df) -> values_of df c (vals c)) /\
    describes ops (columns df) id vals (parents_of structure) (parents_of structure) (fun c a => frequency (records df n) c (parents_of structure c) (List.length (vals c)) a) /\
    forall o h r, ord_ok o -> valid_history (net_of ops) h -> let L := fun c => shown (net_of ops) (calls h) (id c) in
      In r (records df n) -> true_of L (columns df) r ->
      exists j t, session o ops h = Ok j /\ get_posteriors j = Ok t /\
        (forall c, In c (columns df) -> exists m, dget t c = Some m /\ map fst m = vals c /\ qsum (map snd m) = 1%Qc) /\
        (forall c, In c (columns df) -> (forall p w, cause structure p c -> In w (vals p) -> w <> r p -> L p w = 0%Qc) ->
          (forall x w, path (cause structure) c x -> In x (columns df) -> In w (vals x) -> L x w = 1%Qc) ->
          dget t c = Some (map (fun v => (v, (count (records df n) (c :: parents_of structure c) (with_cell r c v) / count (records df n) (parents_of structure c) r)%Qc)) (vals c))).
Proof. exact c116_row. Qed.
Print Assumptions C116_record.

(** a -> c -> b: the parts are reported *)
Example C116_case : frame_ok abc_frame 6 /\ structure_ok abc_chain abc_frame /\ acyclic (cell_in abc_frame) /\ acyclic (cause abc_chain) /\ linked abc_chain abc_frame /\
  forallb (fun c => Nat.leb (List.length (parents_of abc_chain c)) 1) (columns abc_frame) = true /\
  map (fun c => map (fun v => this (share abc_frame 6 c v)) ["0"; "1"]%string) (columns abc_frame) = [[1 # 2; 1 # 2]; [2 # 3; 1 # 3]; [5 # 6; 1 # 6]]%Q /\
  learned_answers abc_chain [] = [("c", [("0", 1 # 2); ("1", 1 # 2)]); ("a", [("0", 2 # 3); ("1", 1 # 3)]); ("b", [("0", 5 # 6); ("1", 1 # 6)])]%string%Q.
Proof. split; [exact abc_frame_ok|]. split; [exact abc_chain_ok|]. split; [exact abc_acyclic|]. split; [exact abc_chain_acyclic|]. split; [exact abc_chain_linked|]. vm_compute. auto. Qed.
(** a -> c <- b: not of [c], because [a] and [b] are not independent in the data; but once they are known *)
Example C116_two_parents : acyclic (cause abc_sorted) /\ linked abc_sorted abc_frame /\ this (share abc_frame 6 "c" "0") = (1 # 2)%Q /\
  dget (learned_answers abc_sorted []) "c"%string = Some [("0", 55 # 108); ("1", 53 # 108)]%string%Q /\
  (let N := net_of (abc_ops abc_sorted) in
   dget (learned_answers abc_sorted [(ord_id, observe N (abc_id "a") "0"); (ord_rev, observe N (abc_id "b") "0")]%string) "c"%string = Some [("0", 2 # 3); ("1", 1 # 3)]%string%Q) /\
  (let N := net_of (abc_ops abc_sorted) in let L := shown N (calls [(ord_id, observe N (abc_id "a") "0"); (ord_rev, observe N (abc_id "b") "0")]) in
   map (fun c => map (fun v => this (L (abc_id c) v)) (dom N (abc_id c))) (columns abc_frame) = [[1; 1]; [1; 0]; [1; 0]]%Q /\
   map (row abc_frame 0) (columns abc_frame) = ["0"; "0"; "0"])%string /\
  (let r := row abc_frame 0 in map (fun v => this (count (records abc_frame 6) ["c"; "a"; "b"] (with_cell r "c" v))) ["0"; "1"] = [2 # 1; 1 # 1]%Q /\
   this (count (records abc_frame 6) ["a"; "b"] r) = (3 # 1)%Q)%string.
Proof. split; [exact abc_sorted_acyclic|]. split; [exact abc_sorted_linked|]. vm_compute. repeat split. Qed.
