(** hash_string is a polynomial in 31. *)
From Verif Require Import Py M_Util SpecUtil.
Local Open Scope Z_scope.

Lemma hash_fold s : forall h, fold_left (fun h c => Z.lor (Z.shiftl h 5 - h + c) 0) s h = h * 31 ^ Z.of_nat (List.length s) + poly31 s.
Proof.
  induction s as [|c s IH]; intros h; [cbn [fold_left poly31 List.length]; change (Z.of_nat 0) with 0; rewrite Z.pow_0_r; lia|].
  cbn [fold_left]. rewrite IH, Z.lor_0_r, Z.shiftl_mul_pow2 by lia. cbn [poly31 List.length]. rewrite Nat2Z.inj_succ, Z.pow_succ_r by lia.
  change (2 ^ 5) with 32. ring.
Qed.
Lemma c44 : forall s, hash_string s = poly31 s.
Proof. intros [|c s]; auto. unfold hash_string. rewrite hash_fold. lia. Qed.
Lemma poly31_app s t : poly31 (s ++ t) = poly31 s * 31 ^ Z.of_nat (List.length t) + poly31 t.
Proof.
  induction s as [|c s IH]; [cbn [app poly31]; lia|]. cbn [app poly31]. rewrite IH, app_length, Nat2Z.inj_add, Z.pow_add_r by lia. ring.
Qed.
Lemma c44_app : forall s t, hash_string (s ++ t) = hash_string s * 31 ^ Z.of_nat (List.length t) + hash_string t.
Proof. intros. rewrite !c44. apply poly31_app. Qed.
(** every string of two or more characters, the first but one below the greatest code point and the second at least 31, has a partner *)
Lemma c44_collide : forall a b t, hash_string (a :: b :: t) = hash_string ((a + 1) :: (b - 31) :: t).
Proof. intros. rewrite !c44. cbn [poly31 List.length]. rewrite Nat2Z.inj_succ, Z.pow_succ_r by lia. ring. Qed.
