(** Lemmas on sampling. *)
From Coq Require Import Sorted.
From Verif Require Import Py M_Graph M_Node M_Sampling Spec SpecNet SpecPot SpecSamp L_Base L_Sums L_Table L_Ids L_Build L_Apply L_Net L_P4.
Open Scope nat_scope.

(** ** Cumulative sums and bisection *)
Lemma cumsum_from_nth l : forall acc i, i < List.length l -> nth_error (cumsum_from acc l) i = Some (acc + below l (S i))%Qc.
Proof.
  induction l as [|q l IH]; intros acc i Hi; simpl in *; [lia|]. destruct i as [|i]; simpl.
  - unfold below. simpl. unfold qsum. simpl. f_equal. ring.
  - rewrite IH by lia. f_equal. unfold below. simpl firstn. rewrite !qsum_cons. ring.
Qed.
Lemma cumsum_nth l i : i < List.length l -> nth_error (cumsum l) i = Some (below l (S i)).
Proof. intros H. unfold cumsum. rewrite cumsum_from_nth; auto. f_equal. ring. Qed.
Lemma cumsum_from_length l : forall acc, List.length (cumsum_from acc l) = List.length l.
Proof. induction l; intros acc; simpl; auto. Qed.
Lemma cumsum_length l : List.length (cumsum l) = List.length l.
Proof. apply cumsum_from_length. Qed.

Lemma firstn_snoc {A} (l : list A) i x : nth_error l i = Some x -> firstn (S i) l = firstn i l ++ [x].
Proof. revert i. induction l as [|y l IH]; intros [|i] H; simpl in *; try discriminate. injection H as <-; auto. f_equal. apply IH; auto. Qed.
Lemma below_S l i x : nth_error l i = Some x -> below l (S i) = (below l i + x)%Qc.
Proof. intros H. unfold below. rewrite (firstn_snoc l i x H), qsum_app, qsum_cons, qsum_nil. ring. Qed.
Lemma below_0 l : below l 0 = 0%Qc. Proof. reflexivity. Qed.
Lemma below_all l i : List.length l <= i -> below l i = qsum l.
Proof. intros H. unfold below. rewrite firstn_all2; auto. Qed.
Definition nonneg (l : list Qc) : Prop := forall q, In q l -> (0 <= q)%Qc.
Lemma below_mono l i j : nonneg l -> i <= j -> (below l i <= below l j)%Qc.
Proof.
  intros Hn. induction 1 as [|j Hj IH]. apply Qcle_refl. eapply Qcle_trans; [exact IH|].
  destruct (nth_error l j) as [x|] eqn:E.
  - rewrite (below_S l j x E). rewrite <- (Qcplus_0_r (below l j)) at 1. apply Qcplus_le_compat. apply Qcle_refl. apply Hn. eapply nth_error_In; eauto.
  - apply nth_error_None in E. rewrite !below_all by lia. apply Qcle_refl.
Qed.

Lemma bisect_ok a x : (forall i j y z, i <= j -> nth_error a i = Some y -> nth_error a j = Some z -> (y <= z)%Qc) ->
  exists k, bisect a x = Ok k /\ k <= List.length a /\ (forall i y, i < k -> nth_error a i = Some y -> (y <= x)%Qc) /\
    (forall i y, k <= i -> nth_error a i = Some y -> (x < y)%Qc).
Proof.
  intros Hm. unfold bisect.
  assert (G : forall f lo hi, lo <= hi -> hi <= List.length a -> hi - lo <= f ->
    (forall i y, i < lo -> nth_error a i = Some y -> (y <= x)%Qc) -> (forall i y, hi <= i -> nth_error a i = Some y -> (x < y)%Qc) ->
    exists k, bisect_loop f a x lo hi = Ok k /\ k <= List.length a /\ (forall i y, i < k -> nth_error a i = Some y -> (y <= x)%Qc) /\
    (forall i y, k <= i -> nth_error a i = Some y -> (x < y)%Qc)).
  { induction f as [|f IH]; intros lo hi H1 H2 H3 Hl Hh; simpl.
    - destruct (Nat.ltb_spec lo hi); [lia|]. exists lo. repeat split; auto; [lia|]. intros i y Hi. apply Hh; lia.
    - destruct (Nat.ltb_spec lo hi) as [Hlt|Hge].
      2:{ exists lo. repeat split; auto; [lia|]. intros i y Hi. apply Hh; lia. }
      set (mid := Nat.div2 (lo + hi)) in *.
      assert (Hmid : lo <= mid < hi). { unfold mid. rewrite Nat.div2_div. split. apply Nat.div_le_lower_bound; lia. apply Nat.div_lt_upper_bound; lia. }
      destruct (nth_error a mid) as [z|] eqn:E; [|apply nth_error_None in E; lia].
      destruct (qltb x z) eqn:Eq.
      + apply qltb_lt in Eq. apply IH; try lia; auto. intros i y Hi Ey. eapply Qclt_le_trans; [exact Eq|]. apply (Hm mid i); auto.
      + apply qltb_false in Eq. apply IH; try lia; auto. intros i y Hi Ey. eapply Qcle_trans; [|exact Eq]. apply (Hm i mid); auto; lia. }
  apply G; try lia; intros i y Hi E; try lia. assert (nth_error a i = None) by (apply nth_error_None; lia). congruence.
Qed.

(** position drawn by [u] from the entries [l] *)
Lemma bisect_cumsum l u : nonneg l -> (0 <= u)%Qc -> exists k, bisect (cumsum l) u = Ok k /\
  (forall i, i <= List.length l -> (below l i <= u)%Qc -> i <= k) /\
  (forall i, i < List.length l -> (u < below l (S i))%Qc -> k <= i).
Proof.
  intros Hn Hu. destruct (bisect_ok (cumsum l) u) as (k & E & Hk & Hlo & Hhi).
  { intros i j y z Hij Ey Ez.
    assert (i < List.length l) by (rewrite <- cumsum_length; apply nth_error_Some; congruence).
    assert (j < List.length l) by (rewrite <- cumsum_length; apply nth_error_Some; congruence).
    rewrite cumsum_nth in Ey, Ez by auto. injection Ey as <-; injection Ez as <-. apply below_mono; auto. lia. }
  rewrite cumsum_length in Hk. exists k. split; auto. split.
  - intros i Hi Hb. destruct (le_lt_dec i k) as [|Hlt]; auto. exfalso. destruct i as [|i]; [lia|].
    apply (Qclt_not_le u (below l (S i))); auto. apply (Hhi i); [lia|]. apply cumsum_nth; lia.
  - intros i Hi Hb. destruct (le_lt_dec k i) as [|Hlt]; auto. exfalso. apply (Qclt_not_le _ _ Hb). apply (Hlo i); auto. apply cumsum_nth; lia.
Qed.

(** what is read from the values when the row is the front of the entries *)
Lemma draw_value l row rest (vals : list string) u : l = row ++ rest -> List.length row = List.length vals -> NoDup vals -> nonneg l -> (0 <= u)%Qc ->
  let r := i <- bisect (cumsum l) u ;; nthE vals i in
  (forall i x, nth_error vals i = Some x -> (r = Ok x <-> (below row i <= u)%Qc /\ (u < below row (S i))%Qc)) /\
  ((qsum row <= u)%Qc -> r = Err IndexError).
Proof.
  intros El Hlen HN Hn Hu r. destruct (bisect_cumsum l u Hn Hu) as (k & E & Hlo & Hhi). unfold r. rewrite E. simpl rbind.
  assert (Hb : forall i, i <= List.length row -> below l i = below row i).
  { intros i Hi. unfold below. rewrite El, firstn_app. replace (i - List.length row) with 0 by lia. simpl. rewrite app_nil_r; auto. }
  assert (Hll : List.length row <= List.length l) by (rewrite El, app_length; lia).
  split.
  - intros i x Ex. assert (Hi : i < List.length vals) by (apply nth_error_Some; congruence).
    rewrite <- !Hb by lia. unfold nthE. split.
    + intros H. destruct (nth_error vals k) as [y|] eqn:Ek; [|discriminate]. injection H as ->.
      assert (k = i). { apply (proj1 (NoDup_nth_error vals) HN); [apply nth_error_Some; congruence|congruence]. } subst k.
      split.
      * destruct (Qclt_le_dec u (below l i)) as [Hlt|]; auto. exfalso. destruct i as [|i]; [rewrite below_0 in Hlt; apply (Qclt_not_le _ _ Hlt); auto|].
        assert (S i <= i) by (apply Hhi; auto; lia). lia.
      * destruct (Qclt_le_dec u (below l (S i))) as [|Hge]; auto. exfalso. assert (S i <= i) by (apply Hlo; auto; lia). lia.
    + intros [H1 H2]. assert (i <= k) by (apply Hlo; auto; lia). assert (k <= i) by (apply Hhi; auto; lia).
      replace k with i by lia. rewrite Ex; auto.
  - intros H. assert (List.length row <= k). { apply Hlo; auto. rewrite Hb, below_all by lia. auto. }
    unfold nthE. destruct (nth_error vals k) eqn:Ek; auto. assert (k < List.length vals) by (apply nth_error_Some; congruence). lia.
Qed.

(** some value is drawn when the row sums to more than the draw *)
Lemma row_hit row u : nonneg row -> (0 <= u)%Qc -> (u < qsum row)%Qc -> exists i, i < List.length row /\ (below row i <= u)%Qc /\ (u < below row (S i))%Qc.
Proof.
  intros Hn Hu Hlt. assert (G : forall n, n <= List.length row -> (u < below row n)%Qc -> exists i, i < n /\ (below row i <= u)%Qc /\ (u < below row (S i))%Qc).
  { induction n as [|n IH]; intros Hn' H. rewrite below_0 in H. exfalso. apply (Qclt_not_le _ _ H); auto.
    destruct (Qclt_le_dec u (below row n)) as [H'|H'].
    - destruct IH as (i & ? & ?); auto; [lia|]. exists i. split; auto; lia.
    - exists n. auto. }
  destruct (G (List.length row)) as (i & ? & ?); auto. rewrite below_all; auto. exists i; auto.
Qed.

(** ** Slices and rows *)
Lemma slices_nth k : k <> 0 -> forall f l r, r * k < List.length l -> List.length l <= f -> nth_error (slices f k l) r = Some (firstn k (skipn (r * k) l)).
Proof.
  intros Hk. induction f as [|f IH]; intros l r Hr Hf; simpl; [lia|]. destruct l as [|x l]; simpl in Hr, Hf; [lia|].
  destruct r as [|r]; [simpl; auto|]. cbn [nth_error]. rewrite IH.
  - f_equal. f_equal. replace (S r * k) with (k + r * k) by lia. generalize (x :: l) as m. generalize (r * k) as q. clear. intros q m. revert m.
    induction k as [|k IHk]; intros m; cbn [skipn Nat.add]; auto. destruct m; auto. rewrite skipn_nil; auto.
  - rewrite skipn_length. simpl List.length. simpl in Hr. lia.
  - rewrite skipn_length. simpl List.length. lia.
Qed.
Lemma row_index_app dm vs ws a : row_index dm (vs ++ ws) a = row_index dm vs a * size dm ws + row_index dm ws a.
Proof.
  induction vs as [|v vs IH]; simpl; auto. rewrite IH.
  assert (E : size dm (vs ++ ws) = size dm vs * size dm ws). { clear. induction vs as [|v vs IH]; simpl; [lia|]. rewrite IH. lia. }
  rewrite E. lia.
Qed.
Lemma size_app dm vs ws : size dm (vs ++ ws) = size dm vs * size dm ws.
Proof. induction vs as [|v vs IH]; simpl; [lia|]. rewrite IH. lia. Qed.
Lemma pos_nth l : NoDup l -> forall j, j < List.length l -> pos (nth j l EmptyString) l = j.
Proof.
  induction 1 as [|x l Hx HN IH]; intros j Hj; simpl in Hj; [lia|]. destruct j as [|j]; simpl; [rewrite String.eqb_refl; auto|].
  destruct (String.eqb_spec (nth j l EmptyString) x) as [E|_]; [|rewrite IH by lia; auto].
  exfalso. apply Hx. rewrite <- E. apply nth_In. lia.
Qed.
Lemma nth_skipn {A} (l : list A) k j d : nth j (skipn k l) d = nth (k + j) l d.
Proof. revert l. induction k as [|k IH]; intros l; simpl; auto. destruct l; simpl; auto. destruct j; auto. Qed.
Lemma nth_firstn {A} (l : list A) k j d : j < k -> nth j (firstn k l) d = nth j l d.
Proof. revert k j. induction l as [|x l IH]; intros [|k] [|j] H; simpl; auto; try lia. apply IH; lia. Qed.

Lemma slice_row dm probs ps v a : ~ In v ps -> NoDup (dm v) -> okon dm ps a -> size dm (ps ++ [v]) <= List.length probs ->
  firstn (List.length (dm v)) (skipn (row_index dm ps a * List.length (dm v)) probs) = row_for dm probs ps v a.
Proof.
  intros Hv HN Ha Hs. pose proof (row_index_lt dm ps a Ha) as Hr. rewrite size_app in Hs. simpl in Hs.
  assert (HL : List.length (firstn (List.length (dm v)) (skipn (row_index dm ps a * List.length (dm v)) probs)) = List.length (dm v)).
  { apply firstn_length_le. rewrite skipn_length. nia. }
  apply (nth_ext _ _ 0%Qc 0%Qc).
  - rewrite HL. unfold row_for. rewrite map_length; auto.
  - intros j Hj. rewrite HL in Hj. unfold row_for.
    rewrite nth_firstn, nth_skipn by auto.
    set (h := fun x => nth (row_index dm (ps ++ [v]) (upd a v x)) probs 0%Qc).
    rewrite (nth_indep (map h (dm v)) 0%Qc (h EmptyString)) by (rewrite map_length; auto). rewrite map_nth. unfold h.
    f_equal. rewrite row_index_app. simpl. rewrite upd_eq, pos_nth by auto.
    rewrite (row_index_ext dm ps (upd a v (nth j (dm v) EmptyString)) a). lia.
    intros u Hu. apply upd_neq. congruence.
Qed.

(** ** Keys *)
Lemma no_comma_split v : forall w r s, no_comma v -> no_comma w -> (v ++ "," ++ r = w ++ "," ++ s)%string -> v = w /\ r = s.
Proof.
  induction v as [|c v IH]; intros [|d w] r s Hv Hw E; simpl in *.
  - injection E as ->; auto.
  - injection E as <- _. tauto.
  - injection E as -> _. tauto.
  - injection E as -> E. destruct (IH w r s) as [-> ->]; tauto.
Qed.
Lemma str_app_inj a : forall r s, (a ++ r = a ++ s)%string -> r = s.
Proof. induction a; simpl; intros r s E; auto. injection E; auto. Qed.
Lemma str_app_assoc a b c : ((a ++ b) ++ c = a ++ (b ++ c))%string.
Proof. induction a; simpl; auto. f_equal; auto. Qed.

Definition key_of (ids : list Z) (vs : list string) : string := join "," (map (fun p => get_kv (fst p) (snd p)) (combine ids vs)).
Lemma key_cons i i' ids v v' vs : key_of (i :: i' :: ids) (v :: v' :: vs) = (get_kv i v ++ "," ++ key_of (i' :: ids) (v' :: vs))%string.
Proof. reflexivity. Qed.
Lemma key_inj ids : forall vs ws, List.length vs = List.length ids -> List.length ws = List.length ids ->
  Forall no_comma vs -> Forall no_comma ws -> key_of ids vs = key_of ids ws -> vs = ws.
Proof.
  induction ids as [|i ids IH]; intros [|v vs] [|w ws] H1 H2 Hv Hw E; simpl in H1, H2; try lia; auto.
  destruct ids as [|i' ids].
  - destruct vs, ws; simpl in H1, H2; try lia. unfold key_of in E. simpl in E. unfold get_kv in E. apply str_app_inj in E. injection E as ->; auto.
  - destruct vs as [|v' vs], ws as [|w' ws]; simpl in H1, H2; try lia. rewrite !key_cons in E. unfold get_kv in E.
    rewrite !str_app_assoc in E. apply str_app_inj in E. injection E as E. inversion_clear Hv; inversion_clear Hw.
    apply no_comma_split in E as [-> E]; auto. f_equal. apply IH; auto; simpl; lia.
Qed.

Lemma dget_keyed {V} (keys : list string) (rows : list V) r k row : NoDup keys ->
  nth_error keys r = Some k -> nth_error rows r = Some row ->
  dget (fold_left (fun d p => dset d (fst p) (snd p)) (combine keys rows) []) k = Some row.
Proof.
  intros HN Ek Er.
  assert (HN' : NoDup (map fst (combine keys rows))).
  { clear - HN. revert rows. induction HN as [|x l Hx HN IH]; intros [|y m]; simpl; constructor; auto.
    rewrite in_map_iff. intros ([? ?] & <- & H). apply in_combine_l in H. auto. }
  replace (fold_left (fun d p => dset d (fst p) (snd p)) (combine keys rows) []) with (combine keys rows) by (symmetry; apply fold_dset_id; auto).
  apply In_dget; auto. clear HN HN'. revert keys rows Ek Er. induction r as [|r IH]; intros [|k0 keys] [|r0 rows] Ek Er; simpl in *; try discriminate.
  - injection Ek as ->; injection Er as ->; auto.
  - right; auto.
Qed.

(** ** Tables *)
Lemma ascending_cons x l : ascending (x :: l) <-> (forall y, In y l -> (x < y)%Z) /\ ascending l.
Proof.
  split.
  - intros H. split. intros y Hy. apply in_split in Hy as (b & c & ->). apply (H [] x b y c); auto.
    intros a y b z c E. apply (H (x :: a) y b z c). rewrite E; auto.
  - intros [H1 H2] a y b z c E. destruct a as [|a0 a]; injection E as -> E.
    + apply H1. rewrite E. apply in_or_app; right; simpl; auto.
    + apply (H2 a y b z c); auto.
Qed.
Lemma insert_min {A} (leb : A -> A -> bool) x l : (forall y, In y l -> leb x y = true) -> insert leb x l = x :: l.
Proof. destruct l as [|y l]; simpl; intros H; auto. rewrite H; auto. Qed.
Lemma sorted_nodes ps : ascending (map n_id ps) -> isort (fun a b => Z.leb (n_id a) (n_id b)) ps = ps.
Proof.
  induction ps as [|p ps IH]; simpl; auto. intros H. apply ascending_cons in H as [H1 H2]. rewrite IH by auto. apply insert_min.
  intros y Hy. apply Z.leb_le. apply in_map with (f := n_id) in Hy. apply H1 in Hy. lia.
Qed.
Lemma sorted_ids l : ascending l -> isort Z.leb l = l.
Proof.
  induction l as [|p ps IH]; simpl; auto. intros H. apply ascending_cons in H as [H1 H2]. rewrite IH by auto. apply insert_min.
  intros y Hy. apply Z.leb_le. apply H1 in Hy. lia.
Qed.

Lemma combine_map_l {A B C} (f : A -> B) (l : list A) (m : list C) : combine (map f l) m = map (fun p => (f (fst p), snd p)) (combine l m).
Proof. revert m. induction l as [|x l IH]; intros [|y m]; simpl; auto. f_equal; auto. Qed.

(** the table of a node is right: for every sample giving the parents values, the draw selects from the row *)
Definition table_right (t : table) (dm : Z -> list string) (ps : list Z) (v : Z) (row : asg -> list Qc) : Prop :=
  tb_pids t = ps /\
  forall a s u, okon dm ps a -> records s ps a -> (0 <= u)%Qc ->
    (forall i x, nth_error (dm v) i = Some x -> (get_value t u s = Ok x <-> (below (row a) i <= u)%Qc /\ (u < below (row a) (S i))%Qc)) /\
    ((qsum (row a) <= u)%Qc -> get_value t u s = Err IndexError).

Lemma mapM_kv s ps a : records s ps a -> mapM (fun i => v <- dgetE s i ;; Ok (get_kv i v)) ps = Ok (map (fun i => get_kv i (a i)) ps).
Proof. intros H. apply L_Base.mapM_all. intros i Hi. unfold dgetE. rewrite (H i Hi). auto. Qed.
Lemma Forall_comma_cart ls vs : (forall l x, In l ls -> In x l -> no_comma x) -> In vs (cartesian ls) -> Forall no_comma vs.
Proof.
  intros H Hv. apply cartesian_In in Hv. clear - H Hv. induction Hv as [|v l vs ls Hv _ IH]; constructor.
  - apply (H l); simpl; auto.
  - apply IH. intros l' x Hl. apply H; simpl; auto.
Qed.

Lemma mk_table_parents n ps : ps <> [] -> Nat.eqb (List.length (n_values n)) 0 = false -> let sorted := isort (fun a b => Z.leb (n_id a) (n_id b)) ps in
  mk_table n ps = Ok (mkTable n sorted (map n_id ps) (Keyed (fold_left (fun d p => dset d (fst p) (snd p))
    (combine (map (fun vs => join "," (map (fun p => get_kv (n_id (fst p)) (snd p)) (combine sorted vs))) (cartesian (map n_values sorted)))
             (map cumsum (slices (List.length (n_probs n)) (List.length (n_values n)) (n_probs n)))) []))).
Proof. intros H Hk. unfold mk_table. destruct ps; [congruence|]. rewrite Hk. auto. Qed.

Lemma table_ok dm n ps : proper_nodes dm (ps ++ [n]) -> ascending (map n_id ps) ->
  (2 <= List.length ps -> forall p x, In p ps -> In x (n_values p) -> no_comma x) -> n_values n <> [] ->
  size dm (map n_id ps ++ [n_id n]) <= List.length (n_probs n) -> nonneg (n_probs n) ->
  exists t, mk_table n ps = Ok t /\ tb_node t = n /\ table_right t dm (map n_id ps) (n_id n) (row_for dm (n_probs n) (map n_id ps) (n_id n)).
Proof.
  intros [HN Hd] Has Hc Hne Hs Hn.
  assert (Hdn : dm (n_id n) = n_values n /\ NoDup (n_values n)) by (apply Hd, in_or_app; simpl; auto).
  destruct Hdn as [Hdn HNn]. rewrite map_app in HN.
  assert (Hv : ~ In (n_id n) (map n_id ps)). { apply NoDup_app_iff in HN as (_ & _ & H). intros Hi. apply (H _ Hi). simpl; auto. }
  assert (Hrow : forall a, okon dm (map n_id ps) a -> let l := firstn (List.length (n_values n)) (skipn (row_index dm (map n_id ps) a * List.length (n_values n)) (n_probs n)) in
            l = row_for dm (n_probs n) (map n_id ps) (n_id n) a).
  { intros a Ha l. unfold l. rewrite <- Hdn. apply slice_row; auto. rewrite Hdn; auto. }
  destruct ps as [|p0 ps0].
  - eexists. split; [reflexivity|]. split; [reflexivity|]. split; [reflexivity|]. intros a s u Ha _ Hu. unfold get_value. cbn [tb_probs tb_node mk_table].
    rewrite Hdn. specialize (Hrow a Ha). cbv zeta in Hrow. rewrite <- Hrow.
    apply (draw_value (n_probs n) _ (skipn (List.length (n_values n)) (n_probs n))); auto. symmetry; apply firstn_skipn.
    apply firstn_length_le. cbn [map row_index]. simpl in Hs |- *. rewrite Hdn in Hs. lia.
  - remember (p0 :: ps0) as ps eqn:Eps.
    assert (Hk : Nat.eqb (List.length (n_values n)) 0 = false). { apply Nat.eqb_neq. destruct (n_values n); [congruence|simpl; lia]. }
    eexists. split. { apply mk_table_parents; auto. congruence. } split; [reflexivity|]. split; [reflexivity|].
    intros a s u Ha Hrec Hu. unfold get_value. cbn [tb_probs tb_node tb_pids]. rewrite (mapM_kv s (map n_id ps) a Hrec). cbn [rbind].
    rewrite sorted_nodes by auto.
    set (keys := map _ (cartesian _)). set (rows := map cumsum _).
    assert (Hdp : map n_values ps = map dm (map n_id ps)). { rewrite map_map. apply map_ext_in. intros p Hp. symmetry. apply Hd, in_or_app; auto. }
    assert (Ekeys : keys = map (key_of (map n_id ps)) (cartesian (map dm (map n_id ps)))).
    { unfold keys. rewrite <- Hdp. apply map_ext. intros vs. unfold key_of. rewrite combine_map_l, map_map. auto. }
    assert (HNd : forall l, In l (map dm (map n_id ps)) -> NoDup l).
    { intros l. rewrite <- Hdp, in_map_iff. intros (p & <- & Hp). apply Hd, in_or_app; auto. }
    assert (Hcart : forall vs, In vs (cartesian (map dm (map n_id ps))) -> List.length vs = List.length (map n_id ps)).
    { intros vs Hvs. apply cartesian_length in Hvs. rewrite Hvs, map_length. auto. }
    assert (HNk : NoDup keys).
    { rewrite Ekeys. apply NoDup_map_inj; [|apply cartesian_NoDup; auto].
      intros x y Hx Hy E. destruct (le_lt_dec 2 (List.length ps)) as [H2|H2].
      - apply key_inj in E; auto; apply (Forall_comma_cart (map dm (map n_id ps))); auto;
        intros l z; rewrite <- Hdp, in_map_iff; intros (p & <- & Hp) Hz; apply (Hc H2 p); auto.
      - assert (Hl1 : List.length (map n_id ps) = 1) by (rewrite map_length; rewrite Eps in H2 |- *; simpl in *; lia).
        apply Hcart in Hx. apply Hcart in Hy. rewrite Hl1 in Hx, Hy. destruct (map n_id ps) as [|i [|]]; simpl in Hl1; try lia.
        destruct x as [|x [|]], y as [|y [|]]; simpl in Hx, Hy; try lia. unfold key_of in E. simpl in E. apply str_app_inj in E. injection E as ->; auto. }
    assert (Hsc : proper_scope dm (map n_id ps)).
    { split. apply NoDup_app_iff in HN; tauto. intros v Hvv. apply HNd. apply in_map; auto. }
    assert (Er : nth_error keys (row_index dm (map n_id ps) a) = Some (key_of (map n_id ps) (map a (map n_id ps)))).
    { rewrite Ekeys. rewrite nth_error_map.
      pose proof (tab_entry dm (map n_id ps) (fun _ => 1%Qc) a Hsc Ha) as T. unfold tab in T. rewrite nth_error_map in T.
      destruct (nth_error (cartesian (map dm (map n_id ps))) (row_index dm (map n_id ps) a)) as [vs|] eqn:E; [|discriminate].
      simpl in T |- *. injection T as T. rewrite <- combine_map_asg in T. f_equal. f_equal.
      apply (f_equal (map snd)) in T. rewrite !map_snd_combine in T; auto. rewrite map_length; auto. apply nth_error_In in E. apply Hcart; auto. }
    pose proof (row_index_lt dm (map n_id ps) a Ha) as Hri.
    rewrite size_app in Hs. simpl size in Hs. rewrite Hdn in Hs.
    assert (Hlen0 : List.length (n_values n) <> 0) by (apply Nat.eqb_neq; auto).
    assert (Err : nth_error rows (row_index dm (map n_id ps) a) = Some (cumsum (row_for dm (n_probs n) (map n_id ps) (n_id n) a))).
    { unfold rows. rewrite nth_error_map, slices_nth; auto; [|nia]. simpl. do 2 f_equal. apply Hrow; auto. }
    replace (map (fun i => get_kv i (a i)) (map n_id ps)) with (map (fun p => get_kv (fst p) (snd p)) (combine (map n_id ps) (map a (map n_id ps)))).
    2:{ rewrite combine_map_asg, map_map. auto. }
    fold (key_of (map n_id ps) (map a (map n_id ps))).
    unfold dgetE. rewrite (dget_keyed keys rows _ _ _ HNk Er Err). cbn [rbind].
    rewrite Hdn. set (row := row_for _ _ _ _ a).
    apply (draw_value row row []); auto. rewrite app_nil_r; auto.
    + unfold row, row_for. rewrite map_length, Hdn; auto.
    + intros q Hq. unfold row, row_for in Hq. apply in_map_iff in Hq as (x & <- & Hx). apply Hn. apply nth_In.
      rewrite row_index_app. simpl. rewrite upd_eq. pose proof (pos_lt x (dm (n_id n)) Hx) as Hp. rewrite Hdn in *.
      rewrite (row_index_ext dm (map n_id ps) (upd a (n_id n) x) a). nia. intros w Hw. apply upd_neq. congruence.
Qed.
