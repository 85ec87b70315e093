(** Printed join trees read back. *)
From Coq Require Import Ascii.
From Verif Require Import Py M_Graph M_Node M_Pptc M_Serde M_Csv M_Text M_Str Spec SpecNet SpecEv SpecPot SpecText SpecStr SpecPrint SpecShow L_Base L_Good L_Root L_Forest L_Walk L_Ids L_Trans L_Csv L_Text L_Tree L_Exact L_Apply L_Net L_Hist L_Shown L_Prop L_P1 L_Serde L_Part L_Flat L_Str L_Str2 L_Print.
Open Scope nat_scope.
Local Open Scope list_scope.

Lemma chop_last a x : chop (a ++ String x "") = a.
Proof. induction a as [|y a IH]; auto. simpl. rewrite IH. destruct a; reflexivity. Qed.
Lemma bar_in a b : has_bar (a ++ String "|" b) = true.
Proof. induction a as [|x a IH]; [reflexivity|]. unfold has_bar in *. cbn [String.append list_ascii_of_string existsb]. rewrite IH. apply orb_true_r. Qed.

Section Text.
  Context (h : heap) (nm : Z -> string).
  Definition jn (l : list string) : string := join "," l.
  Definition told (l : list Z) : Prop := l <> [] /\ forall k, In k l -> h_name h k = nm k /\ tidy_name (nm k).
  Lemma told_free c l : told l -> c = "("%char \/ c = ")"%char \/ c = "|"%char \/ c = "-"%char \/ c = line_feed -> free c (join "," (names_of h l)) /\ free c (join "," (isort str_leb (names_of h l))).
  Proof using.
    intros [_ H] E. assert (F : forall s, In s (names_of h l) -> free c s).
    { intros s Hs. apply in_map_iff in Hs. destruct Hs as (k & <- & Hk). destruct (H k Hk) as [-> (T1 & T2 & T3 & T4 & T5 & T6)]. destruct E as [ ->|[ ->|[ ->|[ ->| ->]]]]; auto. }
    assert (N : c <> ","%char) by (destruct E as [ ->|[ ->|[ ->|[ ->| ->]]]]; discriminate).
    split; apply join_free_c; auto; apply Forall_forall; intros s Hs; apply F; auto. apply isort_In in Hs; auto.
  Qed.
  Lemma told_fields l : told l -> fields "," (join "," (names_of h l)) = map nm l /\ exists x, fields "," (join "," (isort str_leb (names_of h l))) = x /\ Permutation x (map nm l).
  Proof using.
    intros [N H]. assert (E : names_of h l = map nm l) by (apply map_ext_in; intros k Hk; apply H; auto).
    assert (F : Forall (free ",") (names_of h l)). { rewrite E. apply Forall_forall. intros s Hs. apply in_map_iff in Hs. destruct Hs as (k & <- & Hk). apply (H k Hk). }
    assert (N' : names_of h l <> []) by (destruct l; [congruence|discriminate]). split; [rewrite fields_join by auto; exact E|].
    exists (isort str_leb (names_of h l)). split; [|rewrite E; apply isort_perm].
    apply fields_join; [intros X; apply N'; apply Permutation_nil; rewrite <- X; apply isort_perm|]. apply Forall_forall. intros s Hs. apply isort_In in Hs. rewrite Forall_forall in F. auto.
  Qed.
  Lemma read_clique_ok c : told (cl_nodes c) -> exists x, read_clique (clique_str h c) = Some x /\ names_members nm x c.
  Proof using.
    intros T. destruct (told_fields _ T) as [_ (x & E & P)]. exists x. split; auto. unfold clique_str. set (J := join "," (isort str_leb (names_of h (cl_nodes c)))) in *.
    change (read_clique ("(" ++ J ++ ")")) with (Some (fields "," (chop (J ++ ")")))). rewrite chop_last, E. reflexivity.
  Qed.
  Definition sep_told (s : sepset) : Prop := told (cl_nodes (ss_left s)) /\ told (ss_nodes s) /\ told (cl_nodes (ss_right s)).
  Definition body (s : sepset) : string := (clique_str h (ss_left s) ++ " -- " ++ join "," (names_of h (ss_nodes s)) ++ " -- " ++ clique_str h (ss_right s))%string.
  Lemma read_body s : sep_told s -> exists x, read_between (body s) = Some x /\ names_sepset nm x s.
  Proof using.
    intros (T1 & T2 & T3). destruct (told_fields _ T1) as [_ (l & El & Pl)]. destruct (told_fields _ T2) as [En _]. destruct (told_fields _ T3) as [_ (r & Er & Pr)].
    exists (l, map nm (ss_nodes s), r). split; [|repeat split; auto]. unfold body, clique_str.
    destruct (told_free ")" _ T1 ltac:(auto)) as [_ F1]. destruct (told_free "(" _ T2 ltac:(auto)) as [F2 _]. destruct (told_free "-" _ T2 ltac:(auto)) as [F3 _].
    set (A := join "," (isort str_leb (names_of h (cl_nodes (ss_left s))))) in *. set (B := join "," (names_of h (ss_nodes s))) in *. set (C := join "," (isort str_leb (names_of h (cl_nodes (ss_right s))))) in *.
    assert (X : (("(" ++ A ++ ")") ++ " -- " ++ B ++ " -- " ++ "(" ++ C ++ ")")%string = (("(" ++ A) ++ String ")" ((" -- " ++ B ++ " -- ") ++ String "(" (C ++ ")")))%string).
    { rewrite !sapp_assoc. reflexivity. }
    rewrite X. unfold read_between. rewrite cut_free by (apply free_cons; split; [discriminate|exact F1]).
    rewrite cut_free by (repeat (apply free_cons; split; [discriminate|]); apply free_app; split; [exact F2|repeat (apply free_cons; split; [discriminate|]); apply free_nil]).
    assert (Y : fields "-" (" -- " ++ B ++ " -- ")%string = [" "; ""; " " ++ B ++ " "; ""; " "]%string).
    { rewrite fields_split. change (" -- " ++ B ++ " -- ")%string with (" " ++ String "-" ("" ++ String "-" (" " ++ B ++ " -- ")))%string. rewrite !split_app.
      assert (Z : (" " ++ B ++ " -- ")%string = ((" " ++ B ++ " ") ++ String "-" ("" ++ String "-" " "))%string) by (rewrite !sapp_assoc; reflexivity). rewrite Z, !split_app.
      rewrite (split_free "-" (" " ++ B ++ " ")%string); [reflexivity|]. apply free_cons. split; [discriminate|]. apply free_app. split; [exact F3|]. apply free_cons. split; [discriminate|apply free_nil]. }
    rewrite Y. change (("(" ++ A) ++ ")")%string with ("(" ++ A ++ ")")%string. change (read_clique ("(" ++ A ++ ")")) with (Some (fields "," (chop (A ++ ")")))). change (read_clique ("(" ++ C ++ ")")) with (Some (fields "," (chop (C ++ ")")))).
    cbv iota. change (tail (" " ++ B ++ " ")) with (B ++ " ")%string. rewrite !chop_last, El, En, Er. reflexivity.
  Qed.
  Lemma sepset_str_eq s : sepset_str h s = ("|" ++ body s ++ "|")%string.
  Proof using. unfold sepset_str, body. rewrite !sapp_assoc. reflexivity. Qed.
  Lemma read_sepset_ok s : sep_told s -> exists x, read_sepset (sepset_str h s) = Some x /\ names_sepset nm x s.
  Proof using.
    intros T. destruct (read_body s T) as (x & E & P). exists x. split; auto. rewrite sepset_str_eq. change (read_sepset ("|" ++ body s ++ "|")) with (read_between (chop (body s ++ "|"))). rewrite chop_last. exact E.
  Qed.
  Lemma clique_free c x : told (cl_nodes c) -> x = "|"%char \/ x = line_feed -> free x (clique_str h c).
  Proof using. intros T E. unfold clique_str. apply free_cons. split; [destruct E as [ ->| ->]; discriminate|]. apply free_app. split; [apply (told_free x _ T); intuition|]. apply free_cons. split; [destruct E as [ ->| ->]; discriminate|apply free_nil]. Qed.
  Lemma body_free s x : sep_told s -> x = "|"%char \/ x = line_feed -> free x (body s).
  Proof using.
    intros (T1 & T2 & T3) E. unfold body. apply free_app. split; [apply clique_free; auto|].
    assert (D : free x " -- "). { repeat (apply free_cons; split; [destruct E as [ ->| ->]; discriminate|]). apply free_nil. }
    apply free_app. split; auto. apply free_app. split; [apply (told_free x _ T2); intuition|]. apply free_app. split; auto. apply clique_free; auto.
  Qed.
  Lemma read_link_ok s : sep_told s -> exists x, read_link (jtedge_str h s) = Some x /\ names_members nm (fst (fst x)) (ss_left s) /\ names_sepset nm (snd (fst x)) s /\ names_members nm (snd x) (ss_right s).
  Proof using.
    intros T. destruct (read_body s T) as (x & E & P). pose proof T as (T1 & T2 & T3). destruct (read_clique_ok _ T1) as (l & El & Pl). destruct (read_clique_ok _ T3) as (r & Er & Pr).
    exists (l, x, r). split; [|repeat split; auto; apply P]. unfold jtedge_str. rewrite sepset_str_eq.
    assert (X : (clique_str h (ss_left s) ++ "--" ++ ("|" ++ body s ++ "|") ++ "--" ++ clique_str h (ss_right s))%string = ((clique_str h (ss_left s) ++ "--") ++ String "|" (body s ++ String "|" ("--" ++ clique_str h (ss_right s))))%string).
    { rewrite !sapp_assoc. cbn [String.append]. rewrite ?sapp_assoc. reflexivity. }
    rewrite X. unfold read_link. rewrite cut_free by (apply free_app; split; [apply clique_free; auto|repeat (apply free_cons; split; [discriminate|]); apply free_nil]).
    rewrite cut_free by (apply body_free; auto).
    assert (Y : (clique_str h (ss_left s) ++ "--")%string = ((clique_str h (ss_left s) ++ "-") ++ "-")%string) by (rewrite sapp_assoc; reflexivity).
    rewrite Y, !chop_last. change (tail (tail ("--" ++ clique_str h (ss_right s)))) with (clique_str h (ss_right s)). rewrite El, E, Er. reflexivity.
  Qed.
  Lemma sepset_free s : sep_told s -> free line_feed (sepset_str h s).
  Proof using. intros T. rewrite sepset_str_eq. apply free_cons. split; [discriminate|]. apply free_app. split; [apply body_free; auto|]. apply free_cons. split; [discriminate|apply free_nil]. Qed.
  Lemma jtedge_free s : sep_told s -> free line_feed (jtedge_str h s).
  Proof using.
    intros T. pose proof (sepset_free s T) as F. destruct T as (T1 & T2 & T3). unfold jtedge_str. apply free_app. split; [apply clique_free; auto|]. do 2 (apply free_cons; split; [discriminate|]).
    apply free_app. split; [exact F|]. do 2 (apply free_cons; split; [discriminate|]). apply clique_free; auto.
  Qed.
End Text.

Section Tree.
  Context (j : jtree) (nm : Z -> string).
  Let h := jt_heap j.
  Context (HC : forall c, In c (jt_cliques j) -> told h nm (cl_nodes c)) (HS : forall s, In s (jt_sepsets j) -> sep_told h nm s).
  Context (HE : jt_edges j = map (fun s => (jt_edge_key s, s)) (jt_sepsets j)) (H0 : jt_nodes j <> []).

  Lemma edges_are : dvals (jt_edges j) = jt_sepsets j.
  Proof using HE. rewrite HE. unfold dvals. rewrite map_map. apply map_id. Qed.
  Lemma node_cases n : In n (dvals (jt_nodes j)) -> match n with JC c => In c (jt_cliques j) | JS s => In s (jt_sepsets j) end.
  Proof using. intros Hn. destruct n as [c|s]; apply in_flat_map; eexists; (split; [exact Hn|left; auto]). Qed.
  Lemma tree_lines : filter (fun l => negb (is_blank l)) (fields line_feed (jtree_str j)) = map (jnode_str h) (dvals (jt_nodes j)) ++ map (jtedge_str h) (jt_sepsets j).
  Proof using HC HS HE H0.
    unfold jtree_str. fold h. rewrite edges_are. rewrite lines.
    - rewrite filter_app. f_equal.
      + apply filter_all. intros x Hx. apply in_map_iff in Hx. destruct Hx as ([c|s] & <- & _); reflexivity.
      + assert (G : forall l, filter (fun l => negb (is_blank l)) (map (jtedge_str h) l) = map (jtedge_str h) l) by (intros l; apply filter_all; intros x Hx; apply in_map_iff in Hx; destruct Hx as (z & <- & _); reflexivity).
        clear - G. destruct (jt_sepsets j) as [|s L]; [reflexivity|]. exact (G (s :: L)).
    - unfold dvals. destruct (jt_nodes j); [congruence|discriminate].
    - apply Forall_forall. intros x Hx. apply in_map_iff in Hx. destruct Hx as (n & <- & Hn). apply node_cases in Hn. destruct n as [c|s]; cbn [jnode_str]; [apply (clique_free h nm); auto|apply (sepset_free h nm); auto].
    - apply Forall_forall. intros x Hx. apply in_map_iff in Hx. destruct Hx as (s & <- & Hs). apply (jtedge_free h nm); auto.
  Qed.
  Lemma clique_no_bar c : In c (jt_cliques j) -> has_bar (clique_str h c) = false.
  Proof using HC. intros Hc. apply bar_free. apply (clique_free h nm); auto. Qed.
  Lemma edge_bar s : has_bar (jtedge_str h s) = true.
  Proof using. unfold jtedge_str. rewrite sepset_str_eq. change ("--" ++ ("|" ++ body h s ++ "|") ++ "--" ++ clique_str h (ss_right s))%string with (String "-" (String "-" (String "|" ((body h s ++ "|") ++ "--" ++ clique_str h (ss_right s))))).
    change (String "-" (String "-" (String "|" ((body h s ++ "|") ++ "--" ++ clique_str h (ss_right s))))) with ("--" ++ String "|" ((body h s ++ "|") ++ "--" ++ clique_str h (ss_right s)))%string. rewrite <- sapp_assoc. apply bar_in. Qed.
  Lemma pick (f : string -> bool) (g : jnode -> list string) : (forall n, In n (dvals (jt_nodes j)) -> (if f (jnode_str h n) then [jnode_str h n] else []) = g n) ->
    filter f (map (jnode_str h) (dvals (jt_nodes j))) = flat_map g (dvals (jt_nodes j)).
  Proof using. induction (dvals (jt_nodes j)) as [|n l IH]; intros H; [reflexivity|]. cbn [map filter flat_map]. rewrite <- (H n (or_introl eq_refl)), <- IH by (intros; apply H; right; auto). destruct (f (jnode_str h n)); reflexivity. Qed.

  Theorem read_tree_ok : exists cs ss es, read_tree (jtree_str j) = Some (cs, ss, es) /\ Forall2 (names_members nm) cs (jt_cliques j) /\ Forall2 (names_sepset nm) ss (jt_sepsets j) /\
    Forall2 (fun x s => names_members nm (fst (fst x)) (ss_left s) /\ names_sepset nm (snd (fst x)) s /\ names_members nm (snd x) (ss_right s)) es (jt_sepsets j).
  Proof using HC HS HE H0.
    unfold read_tree. rewrite tree_lines, !filter_app.
    assert (A1 : filter (fun l => negb (has_bar l)) (map (jnode_str h) (dvals (jt_nodes j))) = map (clique_str h) (jt_cliques j)).
    { rewrite (pick _ (fun n => match n with JC c => [clique_str h c] | JS _ => [] end)).
      - unfold jt_cliques. induction (dvals (jt_nodes j)) as [|[c|s] l IH]; cbn [flat_map app map]; auto. f_equal. exact IH.
      - intros n Hn. apply node_cases in Hn. destruct n as [c|s]; cbn [jnode_str]; [rewrite clique_no_bar by auto; reflexivity|]. rewrite sepset_str_eq. reflexivity. }
    assert (A2 : filter (fun l => negb (has_bar l)) (map (jtedge_str h) (jt_sepsets j)) = []).
    { apply filter_none. intros x Hx. apply in_map_iff in Hx. destruct Hx as (s & <- & _). rewrite edge_bar. reflexivity. }
    assert (B1 : filter bar_first (map (jnode_str h) (dvals (jt_nodes j))) = map (sepset_str h) (jt_sepsets j)).
    { rewrite (pick _ (fun n => match n with JS s => [sepset_str h s] | JC _ => [] end)).
      - clear A1 A2. unfold jt_sepsets. induction (dvals (jt_nodes j)) as [|[c|s] l IH]; cbn [flat_map app map]; auto. f_equal. exact IH.
      - intros n Hn. destruct n as [c|s]; reflexivity. }
    assert (B2 : filter bar_first (map (jtedge_str h) (jt_sepsets j)) = []).
    { apply filter_none. intros x Hx. apply in_map_iff in Hx. destruct Hx as (s & <- & _). reflexivity. }
    assert (C1 : filter (fun l => has_bar l && negb (bar_first l)) (map (jnode_str h) (dvals (jt_nodes j))) = []).
    { apply filter_none. intros x Hx. apply in_map_iff in Hx. destruct Hx as (n & <- & Hn). apply node_cases in Hn. destruct n as [c|s]; cbn [jnode_str]; [rewrite clique_no_bar by auto; reflexivity|]. rewrite sepset_str_eq. reflexivity. }
    assert (C2 : filter (fun l => has_bar l && negb (bar_first l)) (map (jtedge_str h) (jt_sepsets j)) = map (jtedge_str h) (jt_sepsets j)).
    { apply filter_all. intros x Hx. apply in_map_iff in Hx. destruct Hx as (s & <- & _). rewrite edge_bar. reflexivity. }
    rewrite A1, A2, B1, B2, C1, C2, !app_nil_r. cbn [app].
    destruct (every_Forall2 read_clique (clique_str h) (names_members nm) (jt_cliques j)) as (cs & E1 & F1). { intros c Hc. apply read_clique_ok; auto. }
    destruct (every_Forall2 read_sepset (sepset_str h) (names_sepset nm) (jt_sepsets j)) as (ss & E2 & F2). { intros s Hs. apply read_sepset_ok; auto. }
    destruct (every_Forall2 read_link (jtedge_str h) (fun x s => names_members nm (fst (fst x)) (ss_left s) /\ names_sepset nm (snd (fst x)) s /\ names_members nm (snd x) (ss_right s)) (jt_sepsets j)) as (es & E3 & F3). { intros s Hs. apply read_link_ok; auto. }
    exists cs, ss, es. rewrite E1, E2, E3. auto.
  Qed.
End Tree.

Theorem c103_tree ops o hist : well_shaped ops -> ord_ok o -> valid_history (net_of ops) hist -> (forall i, In i (vars (net_of ops)) -> tidy_name (net_name ops i)) ->
  exists j cs ss es, session o ops hist = Ok j /\ read_tree (jtree_str j) = Some (cs, ss, es) /\ Forall2 (names_members (net_name ops)) cs (jt_cliques j) /\ Forall2 (names_sepset (net_name ops)) ss (jt_sepsets j) /\
    Forall2 (fun x s => names_members (net_name ops) (fst (fst x)) (ss_left s) /\ names_sepset (net_name ops) (snd (fst x)) s /\ names_members (net_name ops) (snd x) (ss_right s)) es (jt_sepsets j).
Proof.
  intros HW Ho Hh HT. destruct (session_tight ops o hist HW Ho Hh) as [j [A1 [_ [T2 [T3 _]]]]]. destruct (session_live ops o hist HW Ho Hh) as [j' [ev [B1 [B2 _]]]]. rewrite A1 in B1. inversion B1; subst j'. clear B1.
  destruct (session_saveable ops o hist HW Ho Hh) as [j' [C1 [C2 HJ]]]. rewrite A1 in C1. inversion C1; subst j'. clear C1. set (N := net_of ops) in *.
  pose proof (lv_net _ _ _ _ B2) as HN. pose proof (jn_ids _ _ _ HN) as Hids. change (jt_bbn_ids (set_jevid j ev)) with (jt_bbn_ids j) in Hids.
  assert (Hn : forall k, In k (vars N) -> h_name (jt_heap j) k = net_name ops k). { intros k Hk. apply (jn_nm _ _ _ HN k Hk). }
  assert (Hm : forall c k, In c (jt_cliques j) -> In k (cl_nodes c) -> In k (vars N)). { intros c k Hc Hk. apply Hids. unfold jt_bbn_ids. rewrite sof_In. apply in_flat_map. eauto. }
  assert (TC : forall c, In c (jt_cliques j) -> told (jt_heap j) (net_name ops) (cl_nodes c)). { intros c Hc. split; [apply T3; auto|]. intros k Hk. split; [apply Hn|apply HT]; eauto. }
  assert (TS : forall s, In s (jt_sepsets j) -> sep_told (jt_heap j) (net_name ops) s).
  { intros s Hs. destruct (jg_ends _ HJ s Hs) as [L [R _]]. split; [apply TC; auto|]. split; [|apply TC; auto]. split; [apply T2; auto|].
    intros k Hk. assert (Ik : In k (cl_nodes (ss_left s))). { destruct (sv_good _ C2 s Hs) as (a & b & -> & Ha & Hb & _). rewrite mk_sepset_left. revert Hk. rewrite mk_sepset_nodes. unfold inter. intros Hk. apply filter_In in Hk. tauto. }
    split; [apply Hn|apply HT]; apply (Hm (ss_left s)); auto. }
  destruct (read_tree_ok j (net_name ops) TC TS (sv_edges _ C2)) as (cs & ss & es & E & F1 & F2 & F3).
  - intros E. pose proof (ws_some _ HW) as W. change (net_vars ops) with (vars N) in W. destruct (vars N) as [|v V] eqn:EV; [congruence|].
    assert (X : In v (jt_bbn_ids j)) by (apply Hids; left; auto). unfold jt_bbn_ids in X. rewrite sof_In in X. apply in_flat_map in X. destruct X as (c & Hc & _). unfold jt_cliques in Hc. rewrite E in Hc. exact Hc.
  - exists j, cs, ss, es. auto.
Qed.
