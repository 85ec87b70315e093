(** Values reported as impossible or certain. Nothing but theorems and examples. *)
From Verif Require Import Py M_Graph M_Node M_Pptc Spec SpecNet SpecEv SpecSep SpecPot SpecCohere SpecLeft L_Base L_Check Ex L_R1 L_SepEx L_CohereEx L_Left2 L_LeftEx.
Open Scope nat_scope.

(** C105. Whatever evidence was entered, through whichever calls: 0 is reported for a value exactly when no world with that
    value is left, that is when each has a 0 in some table or a 0 in the evidence shown. How large the other numbers are
    does not matter. *)
Theorem C105_zero : forall ops o h i v, well_shaped ops -> connected ops -> ord_ok o -> valid_history (net_of ops) h -> let N := net_of ops in
  In i (vars N) -> In v (dom N i) -> (answers o ops h (net_name ops i) v 0%Qc <-> forall a, left_over N (shown N (calls h)) a -> a i <> v).
Proof. exact c105_zero. Qed.
Print Assumptions C105_zero.

(** 1 is reported exactly when some world is left and all that are left have the value. *)
Theorem C105_one : forall ops o h i v, well_shaped ops -> connected ops -> ord_ok o -> valid_history (net_of ops) h -> let N := net_of ops in
  In i (vars N) -> In v (dom N i) ->
  (answers o ops h (net_name ops i) v 1%Qc <-> (exists a, left_over N (shown N (calls h)) a) /\ forall a, left_over N (shown N (calls h)) a -> a i = v).
Proof. exact c105_one. Qed.
Print Assumptions C105_one.

(** A value reported as impossible stays so in any network, after any calls, that leave no more worlds. *)
Theorem C105_support : forall ops o h ops' o' h' i v, well_shaped ops -> connected ops -> ord_ok o -> valid_history (net_of ops) h ->
  well_shaped ops' -> connected ops' -> ord_ok o' -> valid_history (net_of ops') h' -> let N := net_of ops in let N' := net_of ops' in
  (forall a, left_over N' (shown N' (calls h')) a -> left_over N (shown N (calls h)) a) ->
  In i (vars N) -> In v (dom N i) -> In i (vars N') -> In v (dom N' i) -> answers o ops h (net_name ops i) v 0%Qc -> answers o' ops' h' (net_name ops' i) v 0%Qc.
Proof. exact c105_support. Qed.
Print Assumptions C105_support.

(** In one network: evidence that rules out the same values or more of them keeps the zeros. *)
Theorem C105_keeps : forall ops o h o' h' i v, well_shaped ops -> connected ops -> ord_ok o -> ord_ok o' -> valid_history (net_of ops) h -> valid_history (net_of ops) h' -> let N := net_of ops in
  (forall k y, In k (vars N) -> In y (dom N k) -> shown N (calls h) k y = 0%Qc -> shown N (calls h') k y = 0%Qc) ->
  In i (vars N) -> In v (dom N i) -> answers o ops h (net_name ops i) v 0%Qc -> answers o' ops h' (net_name ops i) v 0%Qc.
Proof. exact c105_keeps. Qed.
Print Assumptions C105_keeps.

(** Observing a value reported as impossible makes every number 0; observing any other value makes it certain. *)
Theorem C105_next : forall ops o h o' i v, well_shaped ops -> connected ops -> ord_ok o -> ord_ok o' -> valid_history (net_of ops) h -> Forall hard_call (calls h) -> let N := net_of ops in
  In i (vars N) -> In v (dom N i) -> free N (in_force N (calls h)) i ->
  (answers o ops h (net_name ops i) v 0%Qc -> forall k y, In k (vars N) -> In y (dom N k) -> answers o ops (h ++ [(o', observe N i v)]) (net_name ops k) y 0%Qc) /\
  (forall p, answers o ops h (net_name ops i) v p -> p <> 0%Qc -> answers o ops (h ++ [(o', observe N i v)]) (net_name ops i) v 1%Qc).
Proof. exact c105_next. Qed.
Print Assumptions C105_next.

Local Open Scope Z_scope.
(** [diamond] after [b] = z and [d] = f: two worlds are left, both with [c] = off *)
Example C105_case : let N := net_of diamond in valid_history N seen_zf /\ Forall hard_call (calls seen_zf) /\ freeb N (in_force N (calls seen_zf)) 1 = true /\
  seen_as (remaining N (shown N (calls seen_zf))) [10; 2; 1; 30] = [["on"; "z"; "off"; "f"]; ["off"; "z"; "off"; "f"]]%string /\
  told diamond seen_zf 1 "on" = 0%Qc /\ told diamond seen_zf 1 "off" = 1%Qc /\ this (told diamond seen_zf 10 "on") = (5 # 397)%Q /\
  told diamond (with_one diamond seen_zf 1 "on") 10 "on" = 0%Qc /\ told diamond (with_one diamond seen_zf 1 "on") 10 "off" = 0%Qc /\
  told diamond (with_one diamond seen_zf 1 "off") 1 "off" = 1%Qc.
Proof.
  cbv zeta. split; [split; [orders|apply valid_calls_ok; vm_compute; reflexivity]|]. split; [apply hard_calls_ok; vm_compute; reflexivity|].
  repeat split; try (apply Qc_is_canon); vm_compute; reflexivity.
Qed.
(** soft evidence on top: [c] = on is still impossible, other numbers move *)
Example C105_keeps_case : let N := net_of diamond in valid_history N leaning /\
  (forall k y, In k (vars N) -> In y (dom N k) -> shown N (calls seen_zf) k y = 0%Qc -> shown N (calls leaning) k y = 0%Qc) /\
  told diamond leaning 1 "on" = 0%Qc /\ qeqb (told diamond leaning 10 "on") (told diamond seen_zf 10 "on") = false.
Proof.
  cbv zeta. split; [split; [orders|apply valid_calls_ok; vm_compute; reflexivity]|]. split; [apply weakerb_ok; vm_compute; reflexivity|].
  split; [apply Qc_is_canon|]; vm_compute; reflexivity.
Qed.
