(** Checkers and witnesses for the factory. *)
From Verif Require Import Py M_Graph M_Node M_Factory Spec SpecNet SpecFactory L_Base L_Table L_Build L_Check L_Plain L_Fac L_Lib L_Data L_Data2.
Open Scope nat_scope.

Definition dupfree (l : list string) : bool := nodupb l.
Lemma dupfree_ok l : dupfree l = true -> NoDup l.
Proof. apply nodupb_ok. Qed.
Definition within (l m : list string) : bool := forallb (fun x => mem x m) l.
Lemma within_ok l m : within l m = true -> incl l m.
Proof. unfold within. rewrite forallb_forall. intros H x Hx. apply mem_In, H, Hx. Qed.
Definition nonnil {A} (l : list A) : bool := match l with [] => false | _ => true end.
Lemma nonnil_ok {A} (l : list A) : nonnil l = true -> l <> [].
Proof. destruct l; [discriminate|intros _; discriminate]. Qed.

Definition frame_okb (df : frame) (n : nat) : bool :=
  dupfree (columns df) && nonnil (columns df) && forallb (fun cl => Nat.eqb (List.length (snd cl)) n) df && Nat.ltb 0 n &&
  forallb identifier (columns df) && forallb (fun c => forallb plain_text (cells df c)) (columns df).
Lemma frame_okb_ok df n : frame_okb df n = true -> frame_ok df n.
Proof.
  unfold frame_okb. rewrite !andb_true_iff, !forallb_forall. intros (((((H1 & H2) & H3) & H4) & H5) & H6). constructor.
  - split; [apply dupfree_ok, H1|apply nonnil_ok, H2].
  - intros c l H. apply Nat.eqb_eq. apply (H3 (c, l) H).
  - apply Nat.ltb_lt, H4.
  - exact H5.
  - intros c x Hx. destruct (in_dec string_dec c (columns df)) as [Y|N].
    + specialize (H6 c Y). rewrite forallb_forall in H6. apply H6, Hx.
    + unfold cells in Hx. destruct (dget df c) as [l|] eqn:E; [|destruct Hx]. exfalso. apply N. apply dget_In in E. apply in_map_iff. exists (c, l). auto.
Qed.
Definition structure_okb (s : list (string * list string)) (df : frame) : bool :=
  dupfree (map fst s) && within (map fst s) (columns df) && within (columns df) (map fst s) &&
  forallb (fun kv => dupfree (snd kv) && within (snd kv) (columns df) && negb (mem (fst kv) (snd kv))) s.
Lemma structure_okb_ok s df : structure_okb s df = true -> structure_ok s df.
Proof.
  unfold structure_okb. rewrite !andb_true_iff, forallb_forall. intros (((H1 & H2) & H3) & H4). constructor.
  - split; [apply dupfree_ok, H1|]. intros c. split; [apply (within_ok _ _ H2)|apply (within_ok _ _ H3)].
  - intros c ps H. specialize (H4 (c, ps) H). cbn [fst snd] in H4. rewrite !andb_true_iff in H4. destruct H4 as ((A & B) & C). split; [apply dupfree_ok, A|]. split; [apply within_ok, B|].
    apply mem_false. apply negb_true_iff, C.
Qed.
Definition apartb (df : frame) : bool := forallb (fun c => forallb (fun x => negb (mem x (columns df))) (cells df c)) (columns df).
Lemma apartb_ok df : apartb df = true -> acyclic (cell_in df).
Proof.
  unfold apartb. rewrite forallb_forall. intros H.
  assert (A : forall x c, cell_in df x c -> ~ In x (columns df)).
  { intros x c [H1 H2]. specialize (H c H1). rewrite forallb_forall in H. specialize (H x H2). apply mem_false, negb_true_iff, H. }
  intros x y Hxy Hp. destruct Hp as [z|y b x Hyb _].
  - apply (A z z Hxy). apply Hxy.
  - apply (A y b Hyb). apply Hxy.
Qed.
Definition sortedb (l : list string) : bool := if list_eq_dec string_dec (isort str_leb l) l then true else false.
Lemma sortedb_ok l : sortedb l = true -> by_name l.
Proof. unfold sortedb. destruct (list_eq_dec string_dec (isort str_leb l) l) as [E|]; [|discriminate]. intros _. rewrite <- E. apply by_name_isort. Qed.

Definition libpgm_okb (bn : libpgm) : bool :=
  dupfree (lp_V bn) && nonnil (lp_V bn) && dupfree (map fst (lp_data bn)) && within (map fst (lp_data bn)) (lp_V bn) && within (lp_V bn) (map fst (lp_data bn)) &&
  forallb (fun x => forallb (fun y => negb (Z.eqb (lp_ord bn x) (lp_ord bn y)) || String.eqb x y) (lp_V bn)) (lp_V bn) &&
  forallb (fun c => dupfree (lp_vals bn c) && nonnil (lp_vals bn c)) (lp_V bn) &&
  forallb (fun c => dupfree (lp_pars bn c) && within (lp_pars bn c) (lp_V bn) && negb (mem c (lp_pars bn c))) (lp_V bn) &&
  forallb (fun c => forallb (fun vs => match lp_row bn c vs with
                                        | Some l => Nat.eqb (List.length l) (List.length (lp_vals bn c)) && forallb (qleb 0%Qc) l
                                        | None => false end) (cartesian (map (lp_vals bn) (lp_pars bn c)))) (lp_V bn).
Lemma libpgm_okb_ok bn : libpgm_okb bn = true -> libpgm_ok bn.
Proof.
  unfold libpgm_okb. rewrite !andb_true_iff, !forallb_forall. intros ((((((((H1 & H2) & H3) & H4) & H5) & H6) & H7) & H8) & H9). constructor.
  - split; [apply dupfree_ok, H1|apply nonnil_ok, H2].
  - split; [apply dupfree_ok, H3|]. intros c. split; [apply (within_ok _ _ H4)|apply (within_ok _ _ H5)].
  - intros x y Hx Hy E. specialize (H6 x Hx). rewrite forallb_forall in H6. specialize (H6 y Hy). apply orb_true_iff in H6. destruct H6 as [H|H]; [|apply String.eqb_eq, H]. rewrite E, Z.eqb_refl in H. discriminate.
  - intros c Hc. specialize (H7 c Hc). apply andb_true_iff in H7. destruct H7. split; [apply dupfree_ok; assumption|apply nonnil_ok; assumption].
  - intros c Hc. specialize (H8 c Hc). rewrite !andb_true_iff in H8. destruct H8 as ((A & B) & C). split; [apply dupfree_ok, A|]. split; [apply within_ok, B|]. apply mem_false, negb_true_iff, C.
  - intros c vs Hc Hvs. specialize (H9 c Hc). rewrite forallb_forall in H9. apply cartesian_combination in Hvs. specialize (H9 vs Hvs). destruct (lp_row bn c vs) as [l|]; [|discriminate]. exists l. split; [reflexivity|].
    apply andb_true_iff in H9. destruct H9 as [A B]. split; [apply Nat.eqb_eq, A|]. rewrite forallb_forall in B. intros q Hq. apply qleb_le, B, Hq.
Qed.

(** grass: sprinkler and rain depend on cloudy, grass on both, the parents listed against the order of V *)
Definition grass_lib : libpgm := mkLib ["grass"; "rain"; "cloudy"; "sprinkler"]%string
  [("cloudy", mkVD ["t"; "f"] 0 None (Plain [qfrac 1 2; qfrac 1 2]));
   ("grass", mkVD ["t"; "f"] 3 (Some ["sprinkler"; "rain"])
      (Keyed [("['off', 'f']", [0%Qc; 1%Qc]); ("['off', 't']", [qfrac 9 10; qfrac 1 10]); ("['low', 't']", [qfrac 95 100; qfrac 5 100]);
              ("['low', 'f']", [qfrac 1 2; qfrac 1 2]); ("['high', 't']", [qfrac 99 100; qfrac 1 100]); ("['high', 'f']", [qfrac 8 10; qfrac 2 10])]));
   ("sprinkler", mkVD ["off"; "low"; "high"] 1 (Some ["cloudy"]) (Keyed [("['t']", [qfrac 8 10; qfrac 1 10; qfrac 1 10]); ("['f']", [qfrac 2 10; qfrac 3 10; qfrac 5 10])]));
   ("rain", mkVD ["t"; "f"] 2 (Some ["cloudy"]) (Keyed [("['t']", [qfrac 8 10; qfrac 2 10]); ("['f']", [qfrac 2 10; qfrac 8 10])]))]%string.
Lemma grass_lib_ok : libpgm_ok grass_lib.
Proof. apply libpgm_okb_ok. vm_compute. reflexivity. Qed.

(** data: c is mostly a, whatever b; the combination a = "1", b = "1" never occurs *)
Definition abc_frame : frame :=
  [("c", ["0"; "0"; "1"; "1"; "0"; "1"]); ("a", ["0"; "0"; "0"; "1"; "0"; "1"]); ("b", ["0"; "0"; "0"; "0"; "1"; "0"])]%string.
Definition abc_sorted : list (string * list string) := [("a", []); ("c", ["a"; "b"]); ("b", [])]%string.
Definition abc_unsorted : list (string * list string) := [("a", []); ("c", ["b"; "a"]); ("b", [])]%string.
Lemma abc_frame_ok : frame_ok abc_frame 6.
Proof. apply frame_okb_ok. vm_compute. reflexivity. Qed.
Lemma abc_acyclic : acyclic (cell_in abc_frame).
Proof. apply apartb_ok. vm_compute. reflexivity. Qed.
Lemma abc_sorted_ok : structure_ok abc_sorted abc_frame.
Proof. apply structure_okb_ok. vm_compute. reflexivity. Qed.
Lemma abc_unsorted_ok : structure_ok abc_unsorted abc_frame.
Proof. apply structure_okb_ok. vm_compute. reflexivity. Qed.
Lemma abc_by_name c : In c (columns abc_frame) -> by_name (parents_of abc_sorted c).
Proof. intros H. apply sortedb_ok. revert c H. apply (proj1 (forallb_forall _ _)). vm_compute. reflexivity. Qed.

(** the position of what the table read in the order of the network's parents says *)
Definition abc_id (c : string) : Z := match data_n2i abc_frame with Ok d => match dget d c with Some i => i | None => 0%Z end | Err _ => 0%Z end.
Definition abc_ops (s : list (string * list string)) : list bop :=
  plain_ops (map (dnode s abc_frame abc_id) (columns abc_frame)) (flat_map (fun c => map (fun p => (dnode s abc_frame abc_id p, dnode s abc_frame abc_id c)) (parents_of s c)) (map fst s)).
Lemma abc_built s : structure_ok s abc_frame -> from_data s abc_frame = Ok (build (abc_ops s)).
Proof.
  intros H. eapply (from_data_ops s abc_frame 6 abc_frame_ok H abc_id).
  - vm_compute. reflexivity.
  - intros c Hc. repeat (destruct Hc as [<-|Hc]; [vm_compute; reflexivity|]). destruct Hc.
Qed.

Definition entry_wrongb (ops : list bop) (s : list (string * list string)) (df : frame) (n : nat) (id : string -> Z) (c : string) (a : asg) : bool :=
  negb (qeqb (cpt_entry (net_of ops) (id c) a) (frequency (records df n) c (parents_of s c) (List.length (net_dom ops (id c))) (fun x => a (id x)))).
Lemma entry_wrongb_ok ops s df n id c a : entry_wrongb ops s df n id c a = true ->
  cpt_entry (net_of ops) (id c) a <> frequency (records df n) c (parents_of s c) (List.length (net_dom ops (id c))) (fun x => a (id x)).
Proof. unfold entry_wrongb. intros H E. rewrite E in H. apply negb_true_iff, qeqb_false in H. congruence. Qed.
Definition okonb (dm : Z -> list string) (vs : list Z) (a : asg) : bool := forallb (fun v => mem (a v) (dm v)) vs.
Lemma okonb_ok dm vs a : okonb dm vs a = true -> okon dm vs a.
Proof. unfold okonb. rewrite forallb_forall. intros H v Hv. apply mem_In, H, Hv. Qed.
(** a = "1", b = "0" *)
Definition abc_asg : asg := fun i => if Z.eqb i (abc_id "a") then "1"%string else if Z.eqb i (abc_id "c") then "1"%string else "0"%string.

Lemma c37_order : exists structure df n ops id c a, frame_ok df n /\ structure_ok structure df /\ acyclic (cell_in df) /\
  from_data structure df = Ok (build ops) /\ In c (columns df) /\ net_name ops (id c) = c /\ net_par ops (id c) = map id (parents_of structure c) /\
  (forall p, In p (parents_of structure c) -> net_name ops (id p) = p) /\
  okon (net_dom ops) (net_par ops (id c) ++ [id c]) a /\
  cpt_entry (net_of ops) (id c) a <> frequency (records df n) c (parents_of structure c) (List.length (net_dom ops (id c))) (fun x => a (id x)).
Proof.
  exists abc_unsorted, abc_frame, 6, (abc_ops abc_unsorted), abc_id, "c"%string, abc_asg. split; [exact abc_frame_ok|]. split; [exact abc_unsorted_ok|]. split; [exact abc_acyclic|].
  split; [apply abc_built, abc_unsorted_ok|]. split; [left; reflexivity|]. split; [vm_compute; reflexivity|]. split; [vm_compute; reflexivity|].
  split. { intros p [<-|[<-|[]]]; vm_compute; reflexivity. }
  split; [apply okonb_ok; vm_compute; reflexivity|]. apply entry_wrongb_ok. vm_compute. reflexivity.
Qed.

(** a column that has its own name among its cells *)
Definition own_name : frame := [("blue", ["red"; "blue"; "red"]); ("big", ["yes"; "no"; "no"])]%string.
Lemma c37_cells : exists structure df n, frame_ok df n /\ structure_ok structure df /\
  (forall c, In c (columns df) -> by_name (parents_of structure c)) /\ from_data structure df = Err NetworkXError.
Proof.
  exists [("blue", ["big"]); ("big", [])]%string, own_name, 3. split; [apply frame_okb_ok; vm_compute; reflexivity|]. split; [apply structure_okb_ok; vm_compute; reflexivity|]. split.
  - intros c H. apply sortedb_ok. revert c H. apply (proj1 (forallb_forall _ _)). vm_compute. reflexivity.
  - vm_compute. reflexivity.
Qed.

Lemma describes_entry ops V id vals pars entry : describes ops V id vals pars pars entry -> forall c a, In c V -> okon (net_dom ops) (net_par ops (id c) ++ [id c]) a ->
  cpt_entry (net_of ops) (id c) a = entry c (fun x => a (id x)).
Proof.
  intros D c a Hc Ha. pose proof (ds_entry _ _ _ _ _ _ _ D c a Hc) as E. rewrite (ds_par _ _ _ _ _ _ _ D c Hc) in Ha. unfold cpt_entry. cbn [net_of dom par cpt]. rewrite (ds_par _ _ _ _ _ _ _ D c Hc). apply E, Ha.
Qed.
Theorem c38' bn : libpgm_ok bn -> exists ops, from_libpgm bn = Ok (build ops) /\ well_shaped ops /\
  describes ops (lp_V bn) (lp_ord bn) (lp_vals bn) (lp_pars bn) (lp_pars bn) (lp_entry bn) /\
  forall c a, In c (lp_V bn) -> okon (net_dom ops) (net_par ops (lp_ord bn c) ++ [lp_ord bn c]) a ->
    cpt_entry (net_of ops) (lp_ord bn c) a = lp_entry bn c (fun x => a (lp_ord bn x)).
Proof. intros OK. destruct (c38 bn OK) as (ops & E & W & D). exists ops. split; [exact E|]. split; [exact W|]. split; [exact D|]. apply (describes_entry _ _ _ _ _ _ D). Qed.
Theorem c37_partial' structure df n : frame_ok df n -> structure_ok structure df -> acyclic (cell_in df) ->
  (forall c, In c (columns df) -> by_name (parents_of structure c)) ->
  exists ops id vals, from_data structure df = Ok (build ops) /\ well_shaped ops /\ (forall c, In c (columns df) -> values_of df c (vals c)) /\
    describes ops (columns df) id vals (parents_of structure) (parents_of structure)
      (fun c a => frequency (records df n) c (parents_of structure c) (List.length (vals c)) a) /\
    forall c a, In c (columns df) -> okon (net_dom ops) (net_par ops (id c) ++ [id c]) a ->
      cpt_entry (net_of ops) (id c) a = frequency (records df n) c (parents_of structure c) (List.length (vals c)) (fun x => a (id x)).
Proof.
  intros OK SO HA HB. destruct (c37_partial structure df n OK SO HA HB) as (ops & id & vals & E & W & VV & D). exists ops, id, vals. split; [exact E|]. split; [exact W|]. split; [exact VV|]. split; [exact D|].
  apply (describes_entry _ _ _ _ _ _ D).
Qed.
