(** Numbers that are 0 or 1, over sessions. *)
From Verif Require Import Py M_Graph M_Node M_Pptc Spec SpecNet SpecEv SpecSep SpecPot SpecCohere SpecLeft L_Base L_Sums L_Table L_Exact L_Apply L_Net L_Claims L_P1 L_P2 L_Hist L_Mix L_Flow L_Cohere L_Left.
Open Scope Qc_scope.

Lemma shown_pos N cs : forall i v, In i (vars N) -> In v (dom N i) -> 0 <= shown N cs i v.
Proof. intros i v Hi Hv. apply (unit_shown N cs i v Hi Hv). Qed.
Lemma now_answers ops o h i v : well_shaped ops -> connected ops -> ord_ok o -> valid_history (net_of ops) h -> In i (vars (net_of ops)) -> In v (dom (net_of ops) i) ->
  answers o ops h (net_name ops i) v (exact_posterior (net_of ops) (shown (net_of ops) (calls h)) i v).
Proof. intros HW Hc Ho Hh Hi Hv. destruct (session_exact ops o h HW Hc Ho Hh) as (j & t & A1 & A2 & A3). exists j. split; auto. eapply table_reported; eauto. Qed.
Lemma answers_eq o ops h n v p q : answers o ops h n v p -> answers o ops h n v q -> p = q.
Proof. intros (j & A & B) (j' & A' & B'). congruence. Qed.

Theorem c105_zero ops o h i v : well_shaped ops -> connected ops -> ord_ok o -> valid_history (net_of ops) h -> let N := net_of ops in
  In i (vars N) -> In v (dom N i) -> (answers o ops h (net_name ops i) v 0 <-> forall a, left_over N (shown N (calls h)) a -> a i <> v).
Proof.
  intros HW Hc Ho Hh N Hi Hv. pose proof (now_answers ops o h i v HW Hc Ho Hh Hi Hv) as A. fold N in A. rewrite <- (posterior_none N _ (net_shape ops HW) (shown_pos _ _) i v Hi). split.
  - intros B. apply (answers_eq _ _ _ _ _ _ _ A B).
  - intros E. rewrite E in A. exact A.
Qed.
Theorem c105_one ops o h i v : well_shaped ops -> connected ops -> ord_ok o -> valid_history (net_of ops) h -> let N := net_of ops in
  In i (vars N) -> In v (dom N i) -> (answers o ops h (net_name ops i) v 1 <-> (exists a, left_over N (shown N (calls h)) a) /\ forall a, left_over N (shown N (calls h)) a -> a i = v).
Proof.
  intros HW Hc Ho Hh N Hi Hv. pose proof (now_answers ops o h i v HW Hc Ho Hh Hi Hv) as A. fold N in A. rewrite <- (posterior_all N _ (net_shape ops HW) (shown_pos _ _) i v Hi Hv). split.
  - intros B. apply (answers_eq _ _ _ _ _ _ _ A B).
  - intros E. rewrite E in A. exact A.
Qed.
Theorem c105_support ops o h ops' o' h' i v : well_shaped ops -> connected ops -> ord_ok o -> valid_history (net_of ops) h ->
  well_shaped ops' -> connected ops' -> ord_ok o' -> valid_history (net_of ops') h' -> let N := net_of ops in let N' := net_of ops' in
  (forall a, left_over N' (shown N' (calls h')) a -> left_over N (shown N (calls h)) a) ->
  In i (vars N) -> In v (dom N i) -> In i (vars N') -> In v (dom N' i) -> answers o ops h (net_name ops i) v 0 -> answers o' ops' h' (net_name ops' i) v 0.
Proof.
  intros HW Hc Ho Hh HW' Hc' Ho' Hh' N N' S Hi Hv Hi' Hv' A. pose proof (proj1 (c105_zero ops o h i v HW Hc Ho Hh Hi Hv) A) as B. apply (proj2 (c105_zero ops' o' h' i v HW' Hc' Ho' Hh' Hi' Hv')). intros a Ha. apply B. apply S. exact Ha.
Qed.
Theorem c105_keeps ops o h o' h' i v : well_shaped ops -> connected ops -> ord_ok o -> ord_ok o' -> valid_history (net_of ops) h -> valid_history (net_of ops) h' -> let N := net_of ops in
  (forall k y, In k (vars N) -> In y (dom N k) -> shown N (calls h) k y = 0 -> shown N (calls h') k y = 0) ->
  In i (vars N) -> In v (dom N i) -> answers o ops h (net_name ops i) v 0 -> answers o' ops h' (net_name ops i) v 0.
Proof.
  intros HW Hc Ho Ho' Hh Hh' N Z Hi Hv A. apply (c105_support ops o h ops o' h' i v); auto. intros a [Ha R]. split; auto. intros (k & Hk & [E|E]); apply R; exists k; split; auto.
Qed.
Theorem c105_next ops o h o' i v : well_shaped ops -> connected ops -> ord_ok o -> ord_ok o' -> valid_history (net_of ops) h -> Forall hard_call (calls h) -> let N := net_of ops in
  In i (vars N) -> In v (dom N i) -> free N (in_force N (calls h)) i ->
  (answers o ops h (net_name ops i) v 0 -> forall k y, In k (vars N) -> In y (dom N k) -> answers o ops (h ++ [(o', observe N i v)]) (net_name ops k) y 0) /\
  (forall p, answers o ops h (net_name ops i) v p -> p <> 0 -> answers o ops (h ++ [(o', observe N i v)]) (net_name ops i) v 1).
Proof.
  intros HW Hc Ho Ho' Hh Hd N Hi Hv Hf. pose proof (prior_answers ops o h i v HW Hc Ho Hh Hd Hi Hv) as A. fold N in A. set (L := in_force N (calls h)) in *.
  pose proof (net_shape ops HW) as HN. fold N in HN. pose proof (force_pos ops h Hh) as HL. fold N L in HL. split.
  - intros B k y Hk Hy. assert (E : mass_of N L i v = 0).
    { pose proof (answers_eq _ _ _ _ _ _ _ A B) as E. rewrite (posterior_none N L HN HL i v Hi) in E. apply mass_zero; auto. intros a Ha Ea. destruct (ruled_dec N L a) as [|R]; auto. exfalso. apply (E a); auto. split; auto. }
    pose proof (later_answers ops o h o' i v k y HW Hc Ho Ho' Hh Hd Hi Hv Hk Hy) as C. fold N L in C. unfold exact_posterior in C. rewrite total_observing, E in C by auto. destruct (Qc_eq_dec 0 0); [exact C|congruence].
  - intros p B Hp. pose proof (answers_eq _ _ _ _ _ _ _ A B) as E.
    pose proof (later_answers ops o h o' i v i v HW Hc Ho Ho' Hh Hd Hi Hv Hi Hv) as C. fold N L in C. unfold exact_posterior in C, E. rewrite total_observing, mass_observing in C by auto.
    destruct (Qc_eq_dec (total N L) 0); [congruence|]. destruct (Qc_eq_dec (mass_of N L i v) 0) as [Z|Z]; [exfalso; apply Hp; rewrite <- E, Z; unfold Qcdiv; ring|].
    replace (both N L i v i v) with (mass_of N L i v) in C. { replace 1 with (mass_of N L i v / mass_of N L i v) by (field; auto). exact C. }
    unfold mass_of, both. apply sums_ext. intros a. destruct (string_dec (a i) v); auto.
Qed.
