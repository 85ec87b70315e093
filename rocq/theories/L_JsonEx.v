(** JSON text of concrete values. *)
From Verif Require Import Py M_Graph M_Node M_Pptc M_Serde M_Csv L_Csv Spec SpecEv SpecRe SpecPart L_R8 M_Json M_Json2 SpecNet SpecSer SpecJson L_Base L_Serde L_Json L_Json2 L_Json3 L_P8.
Local Open Scope list_scope.

(** numerator, point, denominator *)
Definition show_dot (q : Qc) : string := (str_of_Z (Qnum q) ++ String "." (str_of_Z (Z.pos (Qden q))))%string.
Definition read_dot (s : string) : option Qc :=
  match split "." s with
  | [a; b] => match int_of_str a, int_of_str b with Ok n, Ok (Z.pos d) => Some (Q2Qc (n # d)) | _, _ => None end
  | _ => None
  end.
Lemma dot_format : float_format show_dot read_dot.
Proof.
  assert (F : forall z, free "." (str_of_Z z)).
  { intros z H. destruct (L_Json.int_chars z) as [_ [E _]]. assert (T : existsb pointed (M_Json.chars (str_of_Z z)) = true) by (apply existsb_exists; exists "."%char; auto). congruence. }
  intros q. split; [|split].
  - unfold read_dot, show_dot. rewrite split_app, !split_free by apply F. cbn [List.app]. rewrite !int_of_str_of. f_equal. apply Qc_is_canon. unfold Q2Qc. cbn [this]. rewrite Qred_correct. destruct q as [[n d] H]. reflexivity.
  - unfold show_dot. change M_Json.chars with chars. rewrite chars_app. apply Forall_app. split; [apply L_Json.int_chars|]. constructor; [reflexivity|apply L_Json.int_chars].
  - unfold show_dot. change M_Json.chars with chars. rewrite chars_app, existsb_app. apply orb_true_iff. right. reflexivity.
Qed.
Theorem c112_network show read ops : float_format show read ->
  exists ops', from_json read (to_json show (build ops)) = Ok (build ops') /\ same_network ops ops'.
Proof. intros FF. destruct (c20 ops true) as [ops' H]. exists ops'. rewrite (c112_file show read FF). exact H. Qed.
Theorem c112_posteriors show read ops : float_format show read -> well_shaped ops -> connected ops ->
  exists b', from_json read (to_json show (build ops)) = Ok b' /\
    forall o h, ord_ok o -> valid_history (net_of ops) h ->
      exists b2 j j' t, apply o b' = Ok (b2, j) /\ do_calls j h = (j', None) /\ get_posteriors j' = Ok t /\
        exact_table (net_of ops) (net_name ops) (shown (net_of ops) (calls h)) t.
Proof. intros FF HW HC. rewrite (c112_file show read FF). apply c20_posteriors; auto. Qed.
