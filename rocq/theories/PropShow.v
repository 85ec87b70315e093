(** Properties of printed join trees and Gaussians. Nothing but theorems and examples. *)
From Coq Require Import Ascii.
From Verif Require Import Py M_Graph M_Node M_Pptc M_Str M_Gauss M_Show Spec SpecNet SpecEv SpecStr SpecPrint SpecGauss SpecShow L_Check L_Gauss Ex L_Show L_Show2 L_ShowEx.
Local Open Scope string_scope.
Local Open Scope list_scope.

(** C103. The text of a join tree can be read back: a line for every clique, a line for every separation set, and a line for
    every one of them with the cliques it lies between. *)
Theorem C103_tree : forall ops o hist, well_shaped ops -> ord_ok o -> valid_history (net_of ops) hist -> (forall i, In i (vars (net_of ops)) -> tidy_name (net_name ops i)) ->
  exists j cs ss es, session o ops hist = Ok j /\ read_tree (jtree_str j) = Some (cs, ss, es) /\
    Forall2 (names_members (net_name ops)) cs (jt_cliques j) /\ Forall2 (names_sepset (net_name ops)) ss (jt_sepsets j) /\
    Forall2 (fun x s => names_members (net_name ops) (fst (fst x)) (ss_left s) /\ names_sepset (net_name ops) (snd (fst x)) s /\ names_members (net_name ops) (snd x) (ss_right s)) es (jt_sepsets j).
Proof. exact c103_tree. Qed.
Print Assumptions C103_tree.

(** The text of a Gaussian too: its headers, and its means, covariances and observed values to within half a thousandth. *)
Theorem C103_gaussian : forall g, gwf g -> gi_H g <> [] -> Forall plain_header (gi_H g) -> Forall plain_seen (map fst (gi_meta g)) ->
  exists m e o, read_gaussian (ginf_repr g) = Some (gi_H g, m, e, o) /\ Forall2 close3 m (map (mean_of g) (gi_H g)) /\
    Forall2 (fun row s => Forall2 close3 row (map (cov_of g s) (gi_H g))) e (gi_H g) /\
    map fst o = map fst (gi_meta g) /\ Forall2 close3 (map snd o) (map snd (gi_meta g)).
Proof. exact c103_gauss. Qed.
Print Assumptions C103_gaussian.

Example C103_case : well_shaped diamond /\ valid_history (net_of diamond) [] /\ (forall i, In i (vars (net_of diamond)) -> tidy_name (net_name diamond i)) /\
  match session ord_id diamond [] with
  | Ok j => match read_tree (jtree_str j) with Some (cs, ss, es) => (cs, map (fun x => snd (fst x)) ss, map fst es) | None => ([], [], []) end
  | Err _ => ([], [], [])
  end = ([["a"; "b"; "c"]; ["b"; "c"; "d"]], [["b"; "c"]], [(["a"; "b"; "c"], (["a"; "b"; "c"], ["b"; "c"], ["b"; "c"; "d"]))]).
Proof. split; [apply well_shapedb_ok; vm_compute; reflexivity|]. split; [split; constructor|]. split; [apply tidyb_ok; vm_compute; reflexivity|]. vm_compute. reflexivity. Qed.
Example C103_shown : gwf shown_g /\ Forall plain_header (gi_H shown_g) /\ Forall plain_seen (map fst (gi_meta shown_g)) /\
  ginf_repr shown_g = "GaussianInference[H=[left,right], M=[0.333,-2.500], E=[[1.333,-0.143]|[-0.143,1.333]], meta={top=1.125}]".
Proof.
  split. { split; [repeat constructor; simpl; intuition discriminate|]. split; [reflexivity|]. split; [reflexivity|]. split; [intros s Hs [E|[]]; subst s; simpl in Hs; intuition discriminate|repeat constructor; simpl; tauto]. }
  split; [apply plain_headers_ok; reflexivity|]. split; [apply plain_seen_ok; reflexivity|]. vm_compute. reflexivity.
Qed.
