(** Answers that are rows of the tables. Nothing but theorems and examples. *)
From Verif Require Import Py M_Graph M_Node M_Pptc Spec SpecNet SpecEv SpecSep SpecPot SpecCohere SpecChain SpecRow L_Base L_Check Ex L_R1 L_R4 L_SepEx L_CohereEx L_RuleEx L_Row L_RowEx.
Open Scope nat_scope.

(** C100. If the values of its parents are known, and nothing about the variable itself or its effects, then what is reported of a variable
    is the row of its table; whatever else is known, so long as it is possible. *)
Theorem C100_row : forall ops o h y a, well_shaped ops -> connected ops -> acyclic (is_parent (net_of ops)) -> stochastic (net_of ops) ->
  ord_ok o -> valid_history (net_of ops) h -> let N := net_of ops in let L := shown N (calls h) in possible N L ->
  In y (vars N) -> free N L y -> (forall d, effect_of N y d -> free N L d) -> causes_known N L y a ->
  exists j t, session o ops h = Ok j /\ get_posteriors j = Ok t /\ dget t (net_name ops y) = Some (map (fun v => (v, cpt_entry N y (upd a y v))) (dom N y)).
Proof. exact c100_row. Qed.
Print Assumptions C100_row.

(** Going through a possible world from causes to effects, observing each value after asking for it, the numbers reported are the entries of the tables. *)
Theorem C100_forward : forall ops o (os : Z -> Ord) a l, well_shaped ops -> connected ops -> acyclic (is_parent (net_of ops)) -> stochastic (net_of ops) ->
  ord_ok o -> (forall i, ord_ok (os i)) -> (forall i, In i (vars (net_of ops)) -> In (a i) (dom (net_of ops) i)) ->
  (forall i, In i (vars (net_of ops)) -> cpt_entry (net_of ops) i a <> 0%Qc) -> Permutation l (vars (net_of ops)) -> causes_first (net_of ops) l ->
  chained o ops os a [] l (map (fun i => cpt_entry (net_of ops) i a) l).
Proof. exact c100_forward. Qed.
Print Assumptions C100_forward.

Local Open Scope Z_scope.
(** [diamond] with [a] on and [c] off: the first row of the table of [b] *)
Example C100_case : let N := net_of diamond in well_shaped diamond /\ connected diamond /\ acyclic (is_parent N) /\ stochastic N /\ valid_history N seen_ac /\
  (let L := shown N (calls seen_ac) in let a := world [(10, "on")]%string in
   possible N L /\ In 2 (vars N) /\ free N L 2 /\ (forall d, effect_of N 2 d -> free N L d) /\ causes_known N L 2 a) /\
  map (fun p => (fst p, this (snd p))) (answer seen_ac 2) = [("x", 1 # 2); ("y", 1 # 4); ("z", 1 # 4)]%string%Q.
Proof.
  cbv zeta. split; [exact diamond_ok|]. split; [exact diamond_connected|]. split; [apply rankedb_ok with diamond_rank; vm_compute; reflexivity|].
  split; [apply stochasticb_ok; vm_compute; reflexivity|]. split; [split; [orders|apply valid_calls_ok; vm_compute; reflexivity]|].
  split; [apply rowb_ok; vm_compute; reflexivity|]. vm_compute. reflexivity.
Qed.
(** once its effect [d] is seen it is another *)
Example C100_effect_seen : map (fun p => (fst p, this (snd p))) (answer (seen_ac ++ [(ord_id, Update [e_d_t])]) 2) <> [("x", 1 # 2); ("y", 1 # 4); ("z", 1 # 4)]%string%Q.
Proof. vm_compute. discriminate. Qed.
(** one world of [diamond], with entries that are not 0 *)
Example C100_world : let N := net_of diamond in causes_first N [10; 1; 2; 30] /\ Permutation [10; 1; 2; 30] (vars N) /\
  forallb (fun i => mem (one_world i) (dom N i)) (vars N) = true /\
  map (fun i => this (cpt_entry N i one_world)) [10; 1; 2; 30] = [4 # 5; 7 # 10; 7 # 10; 3 # 5]%Q /\
  map (fun q => this q) (along diamond one_world [] [10; 1; 2; 30]) = [4 # 5; 7 # 10; 7 # 10; 3 # 5]%Q.
Proof.
  cbv zeta. split; [apply causes_firstb_ok; vm_compute; reflexivity|]. split; [|vm_compute; auto]. vm_compute. apply perm_skip, perm_swap.
Qed.
