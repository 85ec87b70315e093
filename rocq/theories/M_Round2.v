(** reapply and restored join trees with rounded arithmetic. What is not repeated here (update_bbn_cpts, pot_reinit,
    jt_to_dict, jt_from_dict) does no arithmetic: CPTs are numbers given by the caller, and JSON keeps them. *)
From Verif Require Import Py M_Graph M_Node M_Pptc M_Serde M_Round SpecEv SpecRe SpecSer.

Section Rounded.
  Context (a : arith).

  (** inferencecontroller.py:67-83, and the common tail of reapply (57-64) *)
  Definition apply_from_serde_r (o : Ord) (j : jtree) : res jtree :=
    let j := set_jevid (set_jlistener j false) [] in
    j <- pot_reinit j ;; j <- initialize_r a j ;; j <- propagate_r a o j ;; Ok (set_jlistener j true).
  (** inferencecontroller.py:44-64 *)
  Definition reapply_r (o : Ord) (j : jtree) (cpts : list (Z * list Qc)) : res jtree :=
    apply_from_serde_r o (update_bbn_cpts j cpts).

  (** the calls of a journey, one after the other (as in SpecRe and SpecSer) *)
  Definition do_deed_r (j : jtree) (d : deed) : res jtree :=
    match d with
    | Evidence o c => match do_call_r a o j c with (j, None) => Ok j | (_, Some x) => Err x end
    | Reapply o cpts => reapply_r o j cpts
    end.
  Definition reload_r (o o' : Ord) (json : bool) (b : bbn) (j : jtree) : res jtree :=
    d <- jt_to_dict o j b ;; j' <- jt_from_dict o' (if json then json_jt d else d) ;; apply_from_serde_r o' j'.
  Definition do_act_r (b : bbn) (j : jtree) (c : act) : res jtree :=
    match c with Do d => do_deed_r j d | Reload o o' w => reload_r o o' w b j end.
  Definition journey_r (o : Ord) (ops : list bop) (acts : list act) : res jtree :=
    bj <- apply_r a o (build ops) ;; foldM (do_act_r (fst bj)) acts (snd bj).
End Rounded.
