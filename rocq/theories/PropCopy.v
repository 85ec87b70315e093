(** Properties of copies of join trees. Nothing but theorems and examples. *)
From Verif Require Import Py M_Graph M_Node M_Pptc M_Copy2 Spec SpecNet SpecEv L_Check Ex L_R1 L_R7 L_Copy2 M_Copy SpecCopy L_Copy L_CopyEx L_Shallow.
Open Scope nat_scope.

(** C76. deepcopy of an object, with whatever cycles and shared parts: it ends, every object reached is copied exactly once
    with its contents, sharing and cycles included, the old objects stay as they were, and from the copy none of them is
    reached. *)
Theorem C76_deepcopy : forall h v, closed h -> (forall p, v = Rf p -> p < List.length h) -> plain h [v] ->
  exists h' f, deepcopy_top h v = Ok (h', through f v) /\ copied h h' [v] f /\
    (forall p, reached h' [through f v] p -> List.length h <= p).
Proof. exact c76. Qed.
Print Assumptions C76_deepcopy.

(** A join tree: one memo for its seven dictionaries, so what they share is shared in the copy; the listener is left out. *)
Theorem C76_tree : forall h p ob vs, closed h -> nth_error h p = Some ob ->
  Forall2 (fun f v => slot (o_slots ob) f = Some v) attributes vs -> plain h vs ->
  exists h' p' f, deepcopy_tree h p = Ok (h', p') /\ copied h h' vs f /\
    nth_error h' p' = Some (mkObj "JoinTree" (combine (map AStr attributes) (map (through f) vs) ++ [(AStr "listener", At ANone)])) /\
    forall q, reached h' [Rf p'] q -> List.length h <= q.
Proof. exact c76_tree. Qed.
Print Assumptions C76_tree.

(** two cliques that share a node which knows one of them: so it is in the copy *)
Example C76_case : closed small /\ plain small small_parts /\ (forall ob, nth_error small 0 = Some ob -> Forall2 (fun f v => slot (o_slots ob) f = Some v) attributes small_parts) /\
  (match deepcopy_tree small 0 with
   | Ok (h', p') =>
       let node := follow h' (Rf p') [AStr "nodes"; AStr "1-2"; AStr "nodes"; AInt 1]%string in
       Nat.eqb (List.length h') (2 * List.length small - 1) &&
       same_ref node (follow h' (Rf p') [AStr "nodes"; AStr "2-3"; AStr "nodes"; AInt 0]%string) &&
       same_ref (follow h' (Rf p') [AStr "nodes"; AStr "1-2"]%string)
                (follow h' (Rf p') [AStr "nodes"; AStr "2-3"; AStr "nodes"; AInt 0; AStr "metadata"; AStr "parent.clique"]%string) &&
       same_ref (follow h' (Rf p') [AStr "nodes"; AStr "|2|"]%string) (follow h' (Rf p') [AStr "edges"; AStr "e2"; AStr "sep_set"]%string) &&
       negb (same_ref node (Some (Rf 23)))
   | Err _ => false end) = true.
Proof. split; [exact small_closed|]. split; [exact small_plain|]. split; [exact small_fields|]. vm_compute. reflexivity. Qed.

(** C77. The full claim would be: a copy of a join tree answers as the tree itself. It is false: evidence has no effect on
    what the copy reports. *)
Theorem C77_copy_refuted : exists ops o h h' j ja jc t,
  well_shaped ops /\ connected ops /\ ord_ok o /\ valid_history (net_of ops) h /\ valid_history (net_of ops) h' /\
  session o ops h = Ok j /\ do_calls j h' = (ja, None) /\ get_posteriors ja = Ok t /\
  do_calls (copy_tree j) h' = (jc, None) /\ get_posteriors jc <> Ok t.
Proof. exact c77_refuted. Qed.
Print Assumptions C77_copy_refuted.

(** What the copy does: it reports what the tree did when it was copied, whatever evidence is given to it later; the evidence
    is accepted and its likelihoods are stored, on top of those from before. *)
Theorem C77_copy_partial : forall ops o h h', well_shaped ops -> ord_ok o ->
  valid_history (net_of ops) h -> valid_history (net_of ops) h' -> let N := net_of ops in
  exists j t j', session o ops h = Ok j /\ get_posteriors j = Ok t /\ get_posteriors (copy_tree j) = Ok t /\
    do_calls (copy_tree j) h' = (j', None) /\ get_posteriors j' = Ok t /\
    (forall i v, In i (vars N) -> In v (dom N i) -> stored_likelihood j' i v = Some (in_force N (calls h ++ calls h') i v)).
Proof. exact c77. Qed.
Print Assumptions C77_copy_partial.

(** Giving a copy new CPTs is the same as giving them to the tree. *)
Theorem C77_reapply : forall j o cpts, reapply o (copy_tree j) cpts = reapply o j cpts.
Proof. exact c77_reapply. Qed.
Print Assumptions C77_reapply.

(** evidence before the copy and after it *)
Example C77_case : valid_history (net_of diamond) hard_history /\
  (match session ord_rev diamond [(ord_id, Update [e_c_on])] with
   | Ok j => match do_calls (copy_tree j) hard_history, do_calls j hard_history with
             | (jc, None), (ja, None) =>
                 table_isb (net_of diamond) (net_name diamond) (in_force (net_of diamond) [Update [e_c_on]]) jc &&
                 negb (table_isb (net_of diamond) (net_name diamond) (in_force (net_of diamond) [Update [e_c_on]]) ja)
             | _, _ => false end
   | Err _ => false end) = true.
Proof. split; [exact hard_history_ok|]. vm_compute. reflexivity. Qed.

(** C87. A shallow copy (copy.copy of a node, an edge, a variable, a network or a join tree) is one new object; the others
    stay as they were. As long as no attribute of the two is set, whatever else is changed, any attribute of the copy leads
    to the same objects as that of the original; setting an attribute of the original is not seen in the copy. *)
Theorem C87_shallow : forall h p ob, nth_error h p = Some ob -> exists h' p', copy_obj h p = Ok (h', p') /\ p' = List.length h /\ List.length h' = S (List.length h) /\
  (forall q, q < List.length h -> nth_error h' q = nth_error h q) /\ nth_error h' p' = Some ob /\
  (forall g, nth_error g p = Some ob -> nth_error g p' = Some ob -> forall k ks w, leads g (Rf p') (k :: ks) w <-> leads g (Rf p) (k :: ks) w) /\
  (forall g, nth_error g p' = Some ob -> forall k v, leads g (Rf p') [k] v <-> In (k, v) (o_slots ob)).
Proof. exact c87. Qed.
Print Assumptions C87_shallow.

(** From the copy exactly the old objects are reached that the attributes of the original lead to. *)
Theorem C87_reached : forall h p ob, closed h -> nth_error h p = Some ob -> forall h' p', copy_obj h p = Ok (h', p') ->
  forall q, reached h' [Rf p'] q <-> q = p' \/ exists k r, In (k, Rf r) (o_slots ob) /\ path (refers h) r q.
Proof. exact c87_deep. Qed.
Print Assumptions C87_reached.

(** a copied join tree has the same listener; an item set in the dictionary of nodes of one is in that of the other, a new
    dictionary of nodes given to one is not *)
Example C87_case : closed small /\
  (match copy_obj small 0 with
   | Ok (h', p') =>
       let g := put_obj h' 1 (mkObj "dict" [at_ "new" (Rf 8)]) in
       let t := put_obj h' 0 (mkObj "JoinTree" [at_ "nodes" (Rf 2)]) in
       Nat.eqb p' 34 &&
       same_ref (follow h' (Rf p') [AStr "listener"]%string) (Some (Rf 32)) &&
       same_ref (follow g (Rf p') [AStr "nodes"; AStr "new"]%string) (Some (Rf 8)) && same_ref (follow g (Rf 0) [AStr "nodes"; AStr "new"]%string) (Some (Rf 8)) &&
       same_ref (follow t (Rf p') [AStr "nodes"]%string) (Some (Rf 1)) && same_ref (follow t (Rf 0) [AStr "nodes"]%string) (Some (Rf 2))
   | Err _ => false end) = true.
Proof. split; [exact small_closed|]. vm_compute. reflexivity. Qed.
