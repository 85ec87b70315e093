(** Sampling in rounded arithmetic. Nothing but theorems and examples. *)
From Verif Require Import Py M_Graph M_Node M_Pptc M_Round M_Sampling M_RoundSamp Spec SpecNet SpecPot SpecSamp SpecRound SpecStored L_Base L_Check L_SampEx L_RS3 L_RS4 L_RS5 L_RSEx.
Open Scope nat_scope.
Local Open Scope string_scope.
Local Open Scope list_scope.

(** C109: when nothing is rounded the sampler with rounding is the sampler without; *)
Theorem C109_identity : forall srt b, logic_sampler_r (fun x => x) srt b = logic_sampler srt b.
Proof. exact c109_identity. Qed.
Print Assumptions C109_identity.

(** floating point with [p] digits is wrong by at most the factor 1 + 2^(1-p), and moves no number past one that can be stored; *)
Theorem C109_floats : forall p, (1 <= p)%Z -> steady (ulp_factor p) (digits p).
Proof. exact c109_floats. Qed.
Print Assumptions C109_floats.

(** whatever the network: if no table has more than [k] numbers, the sampler with rounding returns for any draws, or raises, what
    the exact sampler does for draws that differ from them by at most the factor r^k. *)
Theorem C109_backward : forall r rnd, steady r rnd -> forall k srt b, stored_net rnd k b ->
  match logic_sampler srt b, logic_sampler_r rnd srt b with
  | Ok s, Ok s' => forall ev n draws, Forall (Forall (fun u => 0 <= u)%Qc) draws ->
      exists draws', Forall2 (Forall2 (within r k)) draws draws' /\ get_samples s ev n draws' = get_samples s' ev n draws
  | Err x, Err y => x = y
  | _, _ => False
  end.
Proof. exact c109_backward. Qed.
Print Assumptions C109_backward.

(** That it always returns a sample where the exact sampler does is false: ten values of the probability 0.1 each, as double precision
    stores it, add up to 1 - 2^-53 when summed in double precision. The draw 1 - 2^-53, which numpy can give, then raises IndexError. *)
Theorem C109_complete_refuted : exists ops u, well_shaped ops /\ net_vars ops = [1%Z] /\ stored_net (digits 53) 10 (build ops) /\ (1 <= qsum (net_cpt ops 1))%Qc /\ bits53 u /\
  forall srt, sorter_ok srt -> exists s s', logic_sampler srt (build ops) = Ok s /\ logic_sampler_r (digits 53) srt (build ops) = Ok s' /\
    (exists d, get_samples s [] 1 [[u]] = Ok [d]) /\ get_samples s' [] 1 [[u]] = Err IndexError.
Proof. exact c109_refuted. Qed.
Print Assumptions C109_complete_refuted.

(** It does for draws that stay below the sum of the row by the factor r^k; a value is drawn from its interval up to that factor, and never if its probability is 0. *)
Theorem C109_complete_partial : forall r rnd dm n ps, steady r rnd -> proper_nodes dm (ps ++ [n]) -> ascending (map n_id ps) ->
  (2 <= List.length ps -> forall p x, In p ps -> In x (n_values p) -> no_comma x) -> n_values n <> [] ->
  size dm (map n_id ps ++ [n_id n]) <= List.length (n_probs n) -> Forall (stored rnd) (n_probs n) ->
  exists t', mk_table_r rnd n ps = Ok t' /\
    forall a s u, okon dm (map n_id ps) a -> records s (map n_id ps) a -> (0 <= u)%Qc ->
    let row := row_for dm (n_probs n) (map n_id ps) (n_id n) a in let k := List.length (n_probs n) in
    ((u * r ^ k < qsum row)%Qc -> exists i x, nth_error (n_values n) i = Some x /\ get_value t' u s = Ok x /\ (0 < nth i row 0)%Qc) /\
    (forall i x, nth_error (n_values n) i = Some x -> get_value t' u s = Ok x -> (below row i <= u * r ^ k)%Qc /\ (u < below row (S i) * r ^ k)%Qc /\ (0 < nth i row 0)%Qc) /\
    (get_value t' u s = Err IndexError -> (qsum row <= u * r ^ k)%Qc).
Proof. exact c109_complete. Qed.
Print Assumptions C109_complete_partial.

(** [r_b] with its parent [r_a]: a draw within 10^-14 of 1 is not too great *)
Example C109_case_table : let dm := fun i : Z => if Z.eqb i 1 then n_values r_a else n_values r_b in let a := fun i : Z => "y" in
  proper_nodes dm ([r_a] ++ [r_b]) /\ size dm [1; 2]%Z = List.length (n_probs r_b) /\ Forall (stored (digits 53)) (n_probs r_b) /\ okon dm [1%Z] a /\
  ((1 - qfrac 1 100000000000000) * ulp_factor 53 ^ 9 < qsum (row_for dm (n_probs r_b) [1%Z] 2 a))%Qc.
Proof.
  split. { split; [repeat constructor; simpl; intuition discriminate|]. intros n [<-|[<-|[]]]; (split; [reflexivity|]); repeat constructor; simpl; intuition discriminate. }
  split; [reflexivity|]. split; [repeat (apply Forall_cons; [apply storedb_ok; vm_compute; reflexivity|]); constructor|]. split; [|vm_compute; reflexivity]. intros v [<-|[]]. simpl. auto.
Qed.

(** a root and its child; the draw [narrow] lies between the exact and the rounded sum of 0.1 and 0.2, so the samples differ *)
Example C109_case : stored_net (digits 53) 9 (build uneven) /\ bits53 (qfrac 3 4) /\ (0 <= narrow)%Qc /\
  drawn (logic_sampler small (build uneven)) [[qfrac 3 4; qfrac 1 20]; [narrow; qfrac 1 20]] = [[(1, "z"); (2, "q")]; [(1, "z"); (2, "q")]]%Z /\
  drawn (logic_sampler_r (digits 53) small (build uneven)) [[qfrac 3 4; qfrac 1 20]; [narrow; qfrac 1 20]] = [[(1, "z"); (2, "q")]; [(1, "y"); (2, "p")]]%Z.
Proof.
  split; [apply stored_netb_ok; vm_compute; reflexivity|]. split; [exists (3 * 2 ^ 51)%Z; split; [lia|apply Qc_is_canon; vm_compute; reflexivity]|]. split; [vm_compute; discriminate|]. split; vm_compute; reflexivity.
Qed.
