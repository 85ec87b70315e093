(** Properties of the sampler. *)
From Verif Require Import Py M_Graph M_Node M_Sampling Spec SpecNet SpecPot SpecSamp L_Check L_Sort L_P4 L_P5 L_R4 L_Samp3 L_SampEx Ex.
Open Scope nat_scope.

(** C28 *)
Theorem C28_inverse_cdf_partial : forall dm n ps, proper_nodes dm (ps ++ [n]) -> ascending (map n_id ps) ->
  (2 <= List.length ps -> forall p x, In p ps -> In x (n_values p) -> no_comma x) -> n_values n <> [] ->
  size dm (map n_id ps ++ [n_id n]) <= List.length (n_probs n) -> (forall q, In q (n_probs n) -> (0 <= q)%Qc) ->
  exists t, mk_table n ps = Ok t /\
    forall a s u, okon dm (map n_id ps) a -> records s (map n_id ps) a -> (0 <= u)%Qc ->
    let row := row_for dm (n_probs n) (map n_id ps) (n_id n) a in
    (forall i x, nth_error (n_values n) i = Some x ->
       (get_value t u s = Ok x <-> (below row i <= u)%Qc /\ (u < below row (S i))%Qc) /\
       (below row (S i) - below row i = nth i row 0)%Qc) /\
    ((qsum row <= u)%Qc -> get_value t u s = Err IndexError).
Proof. exact c28. Qed.
Print Assumptions C28_inverse_cdf_partial.

(** two parents, three values: [dm_28], with the parents 1 and 2 of 3 *)
Example C28_case : proper_nodes dm_28 ([k_1; k_2] ++ [k_3]) /\ ascending (map n_id [k_1; k_2]) /\
  (forall p x, In p [k_1; k_2] -> In x (n_values p) -> no_comma x) /\ size dm_28 [1; 2; 3]%Z = List.length (n_probs k_3) /\
  shown (mk_table k_3 [k_1; k_2]) [(1%Z, "b"%string); (2%Z, "d"%string)] [0%Qc; qfrac 49 100; qfrac 1 2; qfrac 99 100; 1%Qc] =
  [Ok "x"; Ok "x"; Ok "z"; Ok "z"; Err IndexError]%string.
Proof.
  split; [|split; [apply ascb_ok; reflexivity|split; [|split; [reflexivity|vm_compute; reflexivity]]]].
  - split; [repeat constructor; simpl; intuition discriminate|]. intros n [<-|[<-|[<-|[]]]]; (split; [reflexivity|]); repeat constructor; simpl; intuition discriminate.
  - intros p x [<-|[<-|[]]] Hx; apply no_commab_ok; simpl in Hx; intuition (subst; reflexivity).
Qed.

(** with a comma in a value, two parent assignments share a key: [1 = "a", 2 = "b,2=c"] is answered from the row of
    [1 = "a,2=b", 2 = "c"], in which the value drawn is impossible in the row that should be used *)
Theorem C28_comma_refuted : exists dm n ps t a s u x, proper_nodes dm (ps ++ [n]) /\ ascending (map n_id ps) /\
  size dm (map n_id ps ++ [n_id n]) = List.length (n_probs n) /\
  mk_table n ps = Ok t /\ okon dm (map n_id ps) a /\ records s (map n_id ps) a /\ uniform u /\
  get_value t u s = Ok x /\ this (nth (row_index dm (map n_id ps ++ [n_id n]) (upd a (n_id n) x)) (n_probs n) 1%Qc) = 0%Q.
Proof. exact c28_comma_refuted. Qed.
Print Assumptions C28_comma_refuted.

(** a table made with parents that are not in ascending order cannot be used *)
Theorem C28_unsorted_refuted : exists n ps t s u, map n_id ps = [2; 1]%Z /\ mk_table n ps = Ok t /\
  dkeys s = [1; 2]%Z /\ uniform u /\ get_value t u s = Err KeyError.
Proof. exact c28_unsorted_refuted. Qed.
Print Assumptions C28_unsorted_refuted.

(** C29 *)
Theorem C29_topological_refuted : exists ops us, well_shaped ops /\ clean ops /\ acyclic (is_parent (net_of ops)) /\ stochastic (net_of ops) /\
  draw_for (net_of ops) us /\
  forall srt, sorter_ok srt -> exists s, logic_sampler srt (build ops) = Ok s /\ ~ topological (net_of ops) (sp_nodes s) /\
    forall n draws, get_samples s [] n (us :: draws) = Err KeyError.
Proof. exact c29_topological_refuted. Qed.
Print Assumptions C29_topological_refuted.

(** when "parent of, otherwise smaller id" is transitive on the nodes *)
Theorem C29_topological_partial : forall srt ops, sorter_ok srt -> well_shaped ops -> clean ops ->
  let N := net_of ops in acyclic (is_parent N) -> consistent N ->
  exists s, logic_sampler srt (build ops) = Ok s /\ topological N (sp_nodes s) /\
    (stochastic N -> forall ev n draws x, evidence_on N ev -> Forall (draw_for N) draws -> get_samples s ev n draws = Err x -> x = OutOfFuel).
Proof. exact c29. Qed.
Print Assumptions C29_topological_partial.

(** [diamond] with the edges into [d] added in ascending order of ids *)
Example C29_case : sorter_ok small /\ well_shaped diamond_asc /\ clean diamond_asc /\ acyclic (is_parent (net_of diamond_asc)) /\
  consistent (net_of diamond_asc) /\ stochastic (net_of diamond_asc) /\
  draw_for (net_of diamond_asc) [qfrac 1 10; qfrac 1 2; qfrac 3 5; qfrac 1 3] /\
  samples_of diamond_asc [] 1 [[qfrac 1 10; qfrac 1 2; qfrac 3 5; qfrac 1 3]] =
    ([10; 1; 2; 30]%Z, Ok [[(10%Z, "on"); (1%Z, "on"); (2%Z, "y"); (30%Z, "f")]])%string.
Proof.
  split; [exact small_sorter_ok|]. split; [apply well_shapedb_ok; vm_compute; reflexivity|]. split; [apply cleanb_ok; vm_compute; reflexivity|].
  split. { apply rankedb_ok with diamond_rank. vm_compute. reflexivity. } split; [apply consistentb_ok; vm_compute; reflexivity|].
  split; [apply stochasticb_ok; vm_compute; reflexivity|]. split; [apply drawb_ok; vm_compute; reflexivity|]. vm_compute. reflexivity.
Qed.

(** exactly when one pass raises, whatever the order: when it reaches a variable that has a parent that is neither
    visited before it nor in the evidence; nothing else goes wrong *)
Theorem C29_exactly : forall srt ops s, sorter_ok srt -> well_shaped ops -> clean ops -> let N := net_of ops in stochastic N ->
  logic_sampler srt (build ops) = Ok s ->
  forall ps ev us, by_id N ps -> evidence_on N ev -> possible_values N ev -> draw_for N us ->
    ((exists d, sample_once s ev us = Ok d) \/ sample_once s ev us = Err KeyError) /\
    (sample_once s ev us = Err KeyError <->
       exists before v after used rest a, sp_nodes s = before ++ v :: after /\ us = used ++ rest /\
         okon (dom N) (vars N) a /\ (forall i x, dget ev i = Some x -> a i = x) /\ Forall2 (selects (read_with N ps) a) before used /\
         (forall b1 w b2, before = b1 ++ w :: b2 -> incl (par N w) (b1 ++ dkeys ev)) /\ ~ incl (par N v) (before ++ dkeys ev)).
Proof. exact c29_exactly. Qed.
Print Assumptions C29_exactly.

(** without evidence: with a topological order no draw raises, with any other order every draw does *)
Theorem C29_no_evidence : forall srt ops s, sorter_ok srt -> well_shaped ops -> clean ops -> let N := net_of ops in stochastic N ->
  logic_sampler srt (build ops) = Ok s ->
  forall us, draw_for N us ->
    (topological N (sp_nodes s) -> exists d, sample_once s [] us = Ok d) /\
    (~ topological N (sp_nodes s) -> forall n draws, get_samples s [] n (us :: draws) = Err KeyError).
Proof. exact c29_plain. Qed.
Print Assumptions C29_no_evidence.

(** 0, 1, 2 with the edge from 2 to 0: the child is visited first; evidence on its parent repairs it, other evidence does not *)
Example C29_exactly_case : well_shaped crossed /\ clean crossed /\ stochastic (net_of crossed) /\
  (exists s, logic_sampler small (build crossed) = Ok s) /\ (exists ps, by_id (net_of crossed) ps) /\
  evidence_on (net_of crossed) [(2%Z, "off"%string)] /\ draw_for (net_of crossed) [qfrac 1 3; 0%Qc; qfrac 2 3] /\
  samples_of crossed [] 1 [[qfrac 1 3; 0%Qc; qfrac 2 3]] = ([0; 1; 2]%Z, Err KeyError) /\
  samples_of crossed [(1%Z, "on"%string)] 1 [[qfrac 1 3; 0%Qc; qfrac 2 3]] = ([0; 1; 2]%Z, Err KeyError) /\
  samples_of crossed [(2%Z, "off"%string)] 1 [[qfrac 1 3; 0%Qc; qfrac 2 3]] =
    ([0; 1; 2]%Z, Ok [[(2%Z, "off"); (0%Z, "off"); (1%Z, "on")]])%string.
Proof.
  split; [apply well_shapedb_ok; vm_compute; reflexivity|]. split; [apply cleanb_ok; vm_compute; reflexivity|].
  split; [apply stochasticb_ok; vm_compute; reflexivity|].
  split; [apply sampler_exists; [apply well_shapedb_ok; vm_compute; reflexivity|apply cleanb_ok; vm_compute; reflexivity]|].
  split; [eexists; apply by_id_net|]. split; [split; [repeat constructor; simpl; tauto|intros i [<-|[]]; vm_compute; auto]|].
  split; [apply drawb_ok; vm_compute; reflexivity|]. split; [|split]; vm_compute; reflexivity.
Qed.

(** C30 *)
Theorem C30_rejection_refuted : exists ops ev us, well_shaped ops /\ clean ops /\ stochastic (net_of ops) /\ consistent (net_of ops) /\
  acyclic (is_parent (net_of ops)) /\ evidence_on (net_of ops) ev /\ draw_for (net_of ops) us /\
  forall srt, sorter_ok srt -> exists s full d, logic_sampler srt (build ops) = Ok s /\
    sample_once s [] us = Ok full /\ ~ fits ev full /\ get_samples s ev 1 [us] = Ok [d].
Proof. exact c30_rejection_refuted. Qed.
Print Assumptions C30_rejection_refuted.

(** which draws one pass keeps: those that agree with the evidence, and those whose first disagreement is followed by
    evidence variables only *)
Theorem C30_exactly : forall srt ops s, sorter_ok srt -> well_shaped ops -> clean ops -> let N := net_of ops in stochastic N ->
  logic_sampler srt (build ops) = Ok s -> topological N (sp_nodes s) ->
  forall ev us, evidence_on N ev -> draw_for N us ->
    exists full d, sample_once s [] us = Ok full /\ sample_once s ev us = Ok d /\
      (List.length d = List.length (sp_nodes s) <-> fits ev full \/
         exists before v after x, sp_nodes s = before ++ v :: after /\ fits (filter (fun p => mem (fst p) before) ev) full /\
           dget ev v = Some x /\ dget full v <> Some x /\ incl (v :: after) (dkeys ev)) /\
      (fits ev full -> forall i, dget d i = dget full i).
Proof. exact c30_once. Qed.
Print Assumptions C30_exactly.

(** when there is no evidence on the variable visited last *)
Theorem C30_rejection_partial : forall srt ops s, sorter_ok srt -> well_shaped ops -> clean ops -> let N := net_of ops in stochastic N ->
  logic_sampler srt (build ops) = Ok s -> topological N (sp_nodes s) ->
  forall ev n draws, evidence_on N ev -> (forall before v, sp_nodes s = before ++ [v] -> ~ In v (dkeys ev)) -> Forall (draw_for N) draws ->
    match get_samples s ev n draws with
    | Ok l => exists used rest fulls kept, draws = used ++ rest /\
                Forall2 (fun us f => sample_once s [] us = Ok f) used fulls /\ selected (fits ev) fulls kept /\
                Forall2 (fun d f => forall i, dget d i = dget f i) l kept /\ List.length l = n
    | Err x => x = OutOfFuel
    end.
Proof. exact c30. Qed.
Print Assumptions C30_rejection_partial.

(** the hypotheses hold for [diamond_asc] (C29_case); evidence on [b], the first of two draws is rejected *)
Example C30_case : evidence_on (net_of diamond_asc) [(2%Z, "y"%string)] /\
  samples_of diamond_asc [(2%Z, "y"%string)] 1 [[qfrac 1 10; qfrac 1 2; qfrac 2 5; qfrac 1 3]; [qfrac 1 10; qfrac 1 2; qfrac 3 5; qfrac 1 3]] =
    ([10; 1; 2; 30]%Z, Ok [[(2%Z, "y"); (10%Z, "on"); (1%Z, "on"); (30%Z, "f")]])%string.
Proof. split; [split; [repeat constructor; simpl; tauto|intros i [<-|[]]; vm_compute; auto]|vm_compute; reflexivity]. Qed.

(** C31 *)
Theorem C31_same_cpt_refuted : exists ops v a u x, well_shaped ops /\ clean ops /\ stochastic (net_of ops) /\ acyclic (is_parent (net_of ops)) /\
  forall srt, sorter_ok srt -> exists s t, logic_sampler srt (build ops) = Ok s /\ dget (sp_tables s) v = Some t /\
    In v (net_vars ops) /\ okon (net_dom ops) (net_vars ops) a /\ uniform u /\
    get_value t u (map (fun i => (i, a i)) (net_par ops v)) = Ok x /\ cpt_entry (net_of ops) v (upd a v x) = 0%Qc.
Proof. exact c31_same_cpt_refuted. Qed.
Print Assumptions C31_same_cpt_refuted.

(** the table reads the CPT as if the parents had been added in ascending order of their ids *)
Theorem C31_reads : forall srt ops s, well_shaped ops -> clean ops -> logic_sampler srt (build ops) = Ok s ->
  let N := net_of ops in forall v, In v (vars N) ->
  exists t ps, dget (sp_tables s) v = Some t /\ Permutation ps (par N v) /\ ascending ps /\
    forall a d u, okon (dom N) (vars N) a -> records d (par N v) a -> uniform u ->
      forall i x, nth_error (dom N v) i = Some x ->
        let row := row_for (dom N) (cpt N v) ps v a in
        (get_value t u d = Ok x <-> (below row i <= u)%Qc /\ (u < below row (S i))%Qc).
Proof. exact c31_reads. Qed.
Print Assumptions C31_reads.

Theorem C31_same_cpt_partial : forall srt ops s, well_shaped ops -> clean ops -> logic_sampler srt (build ops) = Ok s ->
  let N := net_of ops in forall v, In v (vars N) -> ascending (par N v) ->
  exists t, dget (sp_tables s) v = Some t /\
    forall a d u, okon (dom N) (vars N) a -> records d (par N v) a -> uniform u ->
      forall i x, nth_error (dom N v) i = Some x ->
        (get_value t u d = Ok x <-> (below (cpt_row N v a) i <= u)%Qc /\ (u < below (cpt_row N v a) (S i))%Qc).
Proof. exact c31. Qed.
Print Assumptions C31_same_cpt_partial.

Example C31_case : well_shaped diamond_asc /\ clean diamond_asc /\ (exists s, logic_sampler small (build diamond_asc) = Ok s) /\
  forall v, In v (net_vars diamond_asc) -> ascending (net_par diamond_asc v).
Proof.
  split; [apply C29_case|]. split; [apply C29_case|]. split; [apply sampler_exists; apply C29_case|]. apply all_ascb_ok. vm_compute. reflexivity.
Qed.

(** C32: the draws that give [a] are a box whose volume is the probability of [a] *)
Theorem C32_joint : forall srt ops s, sorter_ok srt -> well_shaped ops -> clean ops -> let N := net_of ops in stochastic N ->
  logic_sampler srt (build ops) = Ok s -> topological N (sp_nodes s) -> (forall v, In v (vars N) -> ascending (par N v)) ->
  forall a, okon (dom N) (vars N) a -> exists lo hi : Z -> Qc,
    (forall us, draw_for N us ->
       ((exists d, sample_once s [] us = Ok d /\ records d (vars N) a) <->
        Forall2 (fun v u => (lo v <= u)%Qc /\ (u < hi v)%Qc) (sp_nodes s) us)) /\
    (forall v, In v (vars N) -> (0 <= lo v)%Qc /\ (lo v <= hi v)%Qc /\ (hi v <= 1)%Qc) /\
    qprod (map (fun v => (hi v - lo v)%Qc) (sp_nodes s)) = weight N no_evidence a.
Proof. exact c32. Qed.
Print Assumptions C32_joint.

(** parents added in any order: the distribution is that of the CPTs read with the parents in ascending order of ids *)
Theorem C32_any_order : forall srt ops s, sorter_ok srt -> well_shaped ops -> clean ops -> let N := net_of ops in stochastic N ->
  logic_sampler srt (build ops) = Ok s -> topological N (sp_nodes s) -> forall ps, by_id N ps ->
  forall a, okon (dom N) (vars N) a -> exists lo hi : Z -> Qc,
    (forall us, draw_for N us ->
       ((exists d, sample_once s [] us = Ok d /\ records d (vars N) a) <->
        Forall2 (fun v u => (lo v <= u)%Qc /\ (u < hi v)%Qc) (sp_nodes s) us)) /\
    (forall v, In v (vars N) -> (0 <= lo v)%Qc /\ (lo v <= hi v)%Qc /\ (hi v <= 1)%Qc) /\
    qprod (map (fun v => (hi v - lo v)%Qc) (sp_nodes s)) = weight (read_with N ps) no_evidence a.
Proof. exact c32_any. Qed.
Print Assumptions C32_any_order.

Theorem C32_samples : forall srt ops s, sorter_ok srt -> well_shaped ops -> clean ops -> let N := net_of ops in stochastic N ->
  logic_sampler srt (build ops) = Ok s -> topological N (sp_nodes s) ->
  forall n draws rest, n <> 0 -> List.length draws = n -> Forall (draw_for N) draws ->
    exists l, get_samples s [] n (draws ++ rest) = Ok l /\ Forall2 (fun us d => sample_once s [] us = Ok d) draws l.
Proof. exact c32_samples. Qed.
Print Assumptions C32_samples.

(** the hypotheses hold for [diamond_asc]: C29_case, C31_case and *)
Example C32_case : exists s, logic_sampler small (build diamond_asc) = Ok s /\ topological (net_of diamond_asc) (sp_nodes s).
Proof.
  destruct C29_case as (K & W & C & A & Co & _). destruct (C29_topological_partial small diamond_asc K W C A Co) as (s & E & T & _). exists s. auto.
Qed.

(** [diamond] itself, where the parents of [d] are added as 2, 1 -- not in ascending order: the hypotheses of C32_any_order
    hold, and the distribution sampled is not that of the network *)
Example C32_any_case : well_shaped diamond /\ clean diamond /\ stochastic (net_of diamond) /\
  (exists s, logic_sampler small (build diamond) = Ok s /\ topological (net_of diamond) (sp_nodes s)) /\
  net_par diamond 30 = [2; 1]%Z /\
  exists ps a, by_id (net_of diamond) ps /\ okon (net_dom diamond) (net_vars diamond) a /\
    weight (read_with (net_of diamond) ps) no_evidence a <> weight (net_of diamond) no_evidence a.
Proof. exact c32_any_case. Qed.
