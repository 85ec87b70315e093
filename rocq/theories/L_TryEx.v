(** A history with rejected calls. *)
From Verif Require Import Py M_Graph M_Node M_Pptc Spec SpecNet SpecEv SpecTry L_Base L_Check Ex L_R1 L_R2.
Open Scope nat_scope.
Open Scope string_scope.

Definition plausibleb (N : net) (e : evidence) : bool :=
  match ev_dom e with [] => false | _ => true end &&
  (negb (mem (ev_node e) (vars N)) || (eqlb (ev_dom e) (dom N (ev_node e)) && nodupb (dkeys (ev_values e)))).
Lemma eqlb_string (a b : list string) : eqlb a b = true -> a = b.
Proof. unfold eqlb. destruct (list_eq_dec string_dec a b); auto. discriminate. Qed.
Lemma plausibleb_ok N e : plausibleb N e = true -> plausible N e.
Proof.
  unfold plausibleb. intros H. apply andb_true_iff in H. destruct H as [H1 H2]. split. { intros _ E. rewrite E in H1. discriminate. }
  intros Hi. rewrite (proj2 (mem_In _ _) Hi) in H2. cbn [negb orb] in H2. apply andb_true_iff in H2. destruct H2 as [H2 H3]. split; [apply eqlb_string; auto|apply nodupb_ok; auto].
Qed.
Definition plausible_callb (N : net) (c : call) : bool :=
  match c with
  | Update es => forallb (plausibleb N) es
  | Unobserve ns => forallb (fun n => negb (mem (n_id n) (vars N)) || eqlb (n_values n) (dom N (n_id n))) ns
  | UnobserveAll => true
  | SetObservation e => plausibleb N e
  end.
Lemma plausible_callb_ok N c : plausible_callb N c = true -> plausible_call N c.
Proof.
  destruct c as [es|ns| |e]; simpl; auto; try apply plausibleb_ok; rewrite forallb_forall, Forall_forall.
  - intros H e He. apply plausibleb_ok; auto.
  - intros H n Hn Hi. specialize (H n Hn). rewrite (proj2 (mem_In _ _) Hi) in H. apply eqlb_string; auto.
Qed.
Lemma plausible_history_ok N h : Forall (fun p => ord_ok (fst p)) h -> forallb (plausible_callb N) (calls h) = true -> plausible_history N h.
Proof. intros H1 H2. split; auto. rewrite forallb_forall in H2. apply Forall_forall. intros c Hc. apply plausible_callb_ok; auto. Qed.

(** c: both values possible, and a third *)
Definition e_c_odd := build_evidence n_c FINDING [("off", 1%Qc); ("on", 1%Qc); ("maybe", 1%Qc)].
Definition e_stranger := build_evidence n_6 OBSERVATION [("on", 1%Qc)].
Definition odd_history : history := [(ord_id, Update [e_c_on]); (ord_rev, Update [e_c_odd])].
Definition rough_history : history :=
  [(ord_id, Update [e_c_on]); (ord_rev, Update [e_d_t; e_stranger]); (ord_id, SetObservation (build_evidence n_c OBSERVATION []));
   (ord_id, Unobserve [n_c; n_6]); (ord_rev, Update [e_d_t; e_c_odd]); (ord_id, SetObservation e_d_bad); (ord_rev, UnobserveAll); (ord_id, Update [e_c_odd]);
   (ord_rev, SetObservation e_c_on)].
Lemma rough_plausible : plausible_history (net_of diamond) rough_history.
Proof. apply plausible_history_ok; [repeat (constructor; [apply ord_id_ok || apply ord_rev_ok|]); constructor|vm_compute; reflexivity]. Qed.
Lemma odd_plausible : plausible_history (net_of diamond) odd_history.
Proof. apply plausible_history_ok; [repeat (constructor; [apply ord_id_ok || apply ord_rev_ok|]); constructor|vm_compute; reflexivity]. Qed.

(** posteriors that differ *)
Definition staleb (ops : list bop) (o : Ord) (h : history) (o' : Ord) (x v : string) : bool :=
  match apply o (build ops) with
  | Ok (_, j) =>
      match do_tries j h with
      | (j', _) =>
          match unobserve_all o' j' with
          | (j2, None) =>
              match get_posteriors j, get_posteriors j2 with
              | Ok t, Ok t2 => qdiff (dget (dgets t x) v) (dget (dgets t2 x) v)
              | _, _ => false
              end
          | _ => false
          end
      end
  | Err _ => false
  end.
Lemma staleb_ok ops o h o' x v : staleb ops o h o' x v = true ->
  exists b j j' xs j2 t t2, apply o (build ops) = Ok (b, j) /\ do_tries j h = (j', xs) /\ unobserve_all o' j' = (j2, None) /\ get_posteriors j = Ok t /\ get_posteriors j2 = Ok t2 /\ t2 <> t.
Proof.
  unfold staleb. destruct (apply o (build ops)) as [[b j]|]; [|discriminate]. destruct (do_tries j h) as [j' xs] eqn:E1. destruct (unobserve_all o' j') as [j2 [|]] eqn:E2; [discriminate|].
  destruct (get_posteriors j) as [t|] eqn:E3; [|discriminate]. destruct (get_posteriors j2) as [t2|] eqn:E4; [|discriminate]. intros H. exists b, j, j', xs, j2, t, t2. repeat (split; auto).
  apply qdiff_ok in H. intros ->. apply H. auto.
Qed.
Theorem c83_refuted : exists ops o h o' b j j' xs j2 t t2, well_shaped ops /\ connected ops /\ ord_ok o /\ ord_ok o' /\ plausible_history (net_of ops) h /\
  apply o (build ops) = Ok (b, j) /\ do_tries j h = (j', xs) /\ unobserve_all o' j' = (j2, None) /\ get_posteriors j = Ok t /\ get_posteriors j2 = Ok t2 /\ t2 <> t.
Proof.
  destruct (staleb_ok diamond ord_id odd_history ord_id "d" "t") as [b [j [j' [xs [j2 [t [t2 H]]]]]]]; [vm_compute; reflexivity|].
  exists diamond, ord_id, odd_history, ord_id, b, j, j', xs, j2, t, t2. split; [apply diamond_ok|]. split; [apply diamond_connected|]. split; [apply ord_id_ok|]. split; [apply ord_id_ok|]. split; [apply odd_plausible|]. exact H.
Qed.
