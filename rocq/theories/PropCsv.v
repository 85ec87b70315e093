(** Properties of CSV files. Nothing but theorems and examples. *)
From Coq Require Import Ascii.
From Verif Require Import Py M_Graph M_Node M_Pptc M_Serde M_Factory M_Csv Spec SpecNet SpecEv SpecSer SpecCsv L_Base L_Check Ex L_R1 L_Csv2 L_R13 L_Part6.
Open Scope nat_scope.

(** C21. A network whose names and values are not empty, without commas, bars and line ends, and without white space at
    their ends is written and read back with the same variables in the same order, the same values, CPTs and names, and the
    same parents in the same order. [show] and [read] stand for printing and reading floats. *)
Theorem C21_roundtrip : forall show read ops, number_format show read -> clean_texts ops ->
  exists ops', from_csv read (to_csv show (build ops)) = Ok (build ops') /\ same_network ops ops'.
Proof. exact c21. Qed.
Print Assumptions C21_roundtrip.

(** Inference on the network read back is exact for the original one. *)
Theorem C21_posteriors : forall show read ops, number_format show read -> clean_texts ops -> well_shaped ops -> connected ops ->
  exists b', from_csv read (to_csv show (build ops)) = Ok b' /\
    forall o h, ord_ok o -> valid_history (net_of ops) h ->
      exists b2 j j' t, apply o b' = Ok (b2, j) /\ do_calls j h = (j', None) /\ get_posteriors j' = Ok t /\
        exact_table (net_of ops) (net_name ops) (shown (net_of ops) (calls h)) t.
Proof. exact c21_posteriors. Qed.
Print Assumptions C21_posteriors.

(** On any network, also one in several parts, the one read back gives the numbers the original gives. *)
Theorem C21_same_numbers : forall show read ops, number_format show read -> clean_texts ops -> well_shaped ops ->
  exists b', from_csv read (to_csv show (build ops)) = Ok b' /\
  forall o o' h, ord_ok o -> ord_ok o' -> valid_history (net_of ops) h ->
    exists j b2 j2 j2' t t', session o ops h = Ok j /\ get_posteriors j = Ok t /\
      apply o' b' = Ok (b2, j2) /\ do_calls j2 h = (j2', None) /\ get_posteriors j2' = Ok t' /\
      Permutation (map fst t) (map fst t') /\ forall k, dget t k = dget t' k.
Proof. exact c21_any. Qed.
Print Assumptions C21_same_numbers.

(** Without the proviso the network read back can have other values, and nothing is raised. *)
Theorem C21_any_text_refuted : exists show read ops b i n, number_format show read /\ well_shaped ops /\ connected ops /\
  from_csv read (to_csv show (build ops)) = Ok b /\ dget (g_nodes (b_g b)) i = Some n /\ n_values n <> net_dom ops i.
Proof. exact c21_refuted. Qed.
Print Assumptions C21_any_text_refuted.

(** the hypotheses hold: fractions are printed as n/d *)
Example C21_case : number_format show_frac read_frac /\ clean_texts diamond /\ well_shaped diamond /\ connected diamond /\
  to_csv show_frac (build (coin "coin" "heads up" "tails")) =
    ("1,coin,heads up,tails,|,1/2,1/2" ++ newline ++ "2,copy,h,t,|,1/1,0/1,0/1,1/1" ++ newline ++ "1,2,directed" ++ newline)%string /\
  reread (coin "coin" "heads up" "tails") =
    Ok ([(1%Z, ("coin"%string, ["heads up"%string; "tails"%string])); (2%Z, ("copy"%string, ["h"%string; "t"%string]))], [(2%Z, [1%Z])]).
Proof.
  split; [exact frac_format|]. split; [exact diamond_clean|]. split; [exact diamond_ok|]. split; [exact diamond_connected|]. split; vm_compute; reflexivity.
Qed.

(** each part of the proviso is needed *)
Example C21_needed :
  let first r := match r with Ok ((_, nv) :: _, _) => Some nv | _ => None end in
  (** a comma in a name, a comma in a value *)
  first (reread (coin "coin, fair" "h" "t")) = Some ("coin"%string, ["fair"%string; "h"%string; "t"%string]) /\
  first (reread (coin "coin" "1,5" "2")) = Some ("coin"%string, ["1"%string; "5"%string; "2"%string]) /\
  (** white space at the end, an empty value, an empty name *)
  first (reread (coin "coin" "h " " t")) = Some ("coin"%string, ["h"%string; "t"%string]) /\
  first (reread (coin "coin" "" "t")) = Some ("coin"%string, ["t"%string]) /\
  first (reread (coin "" "h" "t")) = Some ("h"%string, ["t"%string]) /\
  (** a bar, a newline, a carriage return *)
  reread (coin "coin" "h|1" "t") = Err ValueError /\
  reread (coin "coin" ("h" ++ newline ++ "1") "t") = Err ValueError /\
  reread (coin "coin" ("h" ++ return_ ++ "1") "t") = Err ValueError.
Proof. repeat split; vm_compute; reflexivity. Qed.
