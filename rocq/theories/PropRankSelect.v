(** C31, C32: rank and select answer by counting bits. *)
From Verif Require Import Base IntCodes IntVec IntVecProofs RankSelect RankSelectProofs SelectProofs PropIntVec.
Local Open Scope nat_scope.

(** ** Specification *)
(** [bv] is a bit vector object (backing store of the right length, 64-bit words) holding [bits] *)
Definition holds (bv : pvec) (bits : list bool) : Prop :=
  wf bv /\ pv_w bv = 1 /\ pv_n bv = length bits /\
  forall i, pv_get bv i = nth_error (map (fun b : bool => if b then 1%N else 0%N) bits) i.
Definition count (b : bool) (bits : list bool) : nat := count_occ bool_dec bits b.
(** position [p] carries the [x]-th [b] *)
Definition is_select (b : bool) (bits : list bool) (x p : nat) : Prop :=
  nth_error bits p = Some b /\ count b (firstn p bits) + 1 = x.
(** no [b] among the unused bits of the last backing word *)
Definition padding_free (b : bool) (bv : pvec) : Prop :=
  forall p, pv_n bv <= p < 64 * length (pv_ws bv) -> N.testbit (nth (p / 64) (pv_ws bv) 0%N) (N.of_nat (p mod 64)) = negb b.

(** ** Bridge *)
Lemma holds_bit bv bits i : holds bv bits -> i < length bits -> getb (pv_ws bv) i = nth i bits false.
Proof.
  intros (W & Ew & En & G) Hi. specialize (G i). rewrite get_ok in G by (auto; lia). rewrite contents_nth in G by lia.
  rewrite nth_error_map, (nth_error_nth' bits false) in G by auto. simpl in G. apply Some_inj in G.
  rewrite (getb_el (pv_ws bv) 1 (pv_n bv)) by (try apply W; try (rewrite <- Ew; apply wf_room; auto); lia).
  rewrite Nat.div_1_r, Nat.mod_1_r. rewrite Ew in G. rewrite G. destruct (nth i bits false); reflexivity.
Qed.
Lemma firstn_S_nth {A} (l : list A) k d : k < length l -> firstn (S k) l = firstn k l ++ [nth k l d].
Proof.
  revert k; induction l as [|a l IH]; intros [|k] H; simpl in H; try lia; auto.
  change (firstn (S (S k)) (a :: l)) with (a :: firstn (S k) l). rewrite IH by lia. auto.
Qed.
Lemma count_app b l m : count b (l ++ m) = count b l + count b m.
Proof. apply count_occ_app. Qed.
Lemma cnt_count bv bits b k : holds bv bits -> k <= length bits -> cntb (flag (pv_ws bv) b) k = count b (firstn k bits).
Proof.
  intros H. induction k as [|k IH]; intros Hk; auto. rewrite cntb_S, (firstn_S_nth _ _ false), count_app, IH by lia. f_equal.
  unfold flag. rewrite (holds_bit bv bits) by (auto; lia). unfold count. simpl.
  destruct (nth k bits false), b; simpl; auto.
Qed.
Lemma flag_true ws p : flag ws true p = getb ws p.
Proof. unfold flag. destruct (getb ws p); auto. Qed.
Lemma count_both l : count false l + count true l = length l.
Proof. induction l as [|[] l IH]; unfold count in *; simpl; lia. Qed.
Lemma firstn_sub {A} (l : list A) x y : x <= y -> firstn y l = firstn x l ++ firstn (y - x) (skipn x l).
Proof. intros H. replace y with (x + (y - x)) at 1 by lia. rewrite <- (firstn_skipn x l) at 1. rewrite firstn_app, firstn_firstn.
  rewrite firstn_length. destruct (Nat.le_gt_cases x (length l)).
  - f_equal; [f_equal; lia|f_equal; lia].
  - rewrite (skipn_all2 l) by lia. rewrite !firstn_nil. rewrite !app_nil_r. rewrite !firstn_all2 by lia. auto.
Qed.

(** rank on the whole vector: for every position, and every interval *)
Theorem rank_correct : forall bv bits, holds bv bits -> (N.of_nat (length bits) < 2 ^ 64)%N ->
  exists r, rank_new bv = Some r /\ forall x, x < length bits ->
    rank1 r x = Some (count true (firstn (x + 1) bits)) /\
    rank0 r x = Some (count false (firstn (x + 1) bits)) /\
    forall y, x <= y < length bits ->
      rank1_between r x y = Some (count true (firstn (y - x + 1) (skipn x bits))) /\
      rank0_between r x y = Some (count false (firstn (y - x + 1) (skipn x bits))).
Proof.
  intros bv bits H Hn. pose proof H as (W & Ew & En & _).
  destruct (rank_new_ok bv W Ew) as (r & E & R); [rewrite En; auto|].
  assert (R1 : forall x, x < length bits -> rank1 r x = Some (count true (firstn (x + 1) bits))).
  { intros x Hx. rewrite R by lia. f_equal. rewrite <- (cnt_count bv) by (auto; lia). apply cntb_ext. intros; symmetry; apply flag_true. }
  exists r. split; auto. intros x Hx.
  assert (RB : forall y, x <= y < length bits -> rank1_between r x y = Some (count true (firstn (y - x + 1) (skipn x bits)))).
  { intros y Hy. unfold rank1_between. rewrite R1 by lia. cbn [obind].
    rewrite (firstn_sub bits x (y + 1)), count_app by lia. replace (y + 1 - x) with (y - x + 1) by lia.
    destruct (0 <? x) eqn:Z.
    - rewrite R1 by lia. cbn [obind]. f_equal. replace (x - 1 + 1) with x by lia. lia.
    - replace x with 0 by lia. simpl firstn. unfold count at 1. simpl. auto. }
  split; auto. split.
  - unfold rank0. rewrite R1 by auto. cbn [obind]. f_equal. pose proof (count_both (firstn (x + 1) bits)). rewrite firstn_length in H0. lia.
  - intros y Hy. split; auto. unfold rank0_between. rewrite RB by auto. cbn [obind]. f_equal.
    pose proof (count_both (firstn (y - x + 1) (skipn x bits))). rewrite firstn_length, skipn_length in H0. lia.
Qed.
Print Assumptions rank_correct.

(** word-level rank and select, and the 8-bit table *)
Theorem word_rank_select : forall v, (v < 2 ^ 64)%N ->
  let bits := map (fun k => N.testbit v (N.of_nat k)) (seq 0 64) in
  rank1_w v = count true bits /\ rank0_w v = count false bits /\
  (forall m, m < 64 -> rank1_wm v m = count true (firstn (m + 1) bits)) /\
  (forall b k, 1 <= k <= 64 ->
     (exists p, basic_select b v k = p /\ is_select b bits k p) \/
     (basic_select b v k = SELECT_FAIL /\ count b bits < k)) /\
  (forall b l k, l < 64 -> 1 <= k <= 64 ->
     (exists p, basic_select_l b v l k = l + p /\ is_select b (skipn l bits) k p) \/
     (basic_select_l b v l k = SELECT_FAIL /\ count b (skipn l bits) < k)).
Proof.
  intros v Hv bits.
  assert (NB : forall k, k < 64 -> nth k bits false = tb v k).
  { intros k Hk. unfold bits. rewrite (nth_indep _ false (N.testbit v (N.of_nat 0))) by (rewrite map_length, seq_length; auto).
    rewrite (map_nth (fun k => N.testbit v (N.of_nat k))), seq_nth by auto. auto. }
  assert (LB : length bits = 64) by (unfold bits; rewrite map_length, seq_length; auto).
  assert (NS : forall l k d, nth k (skipn l bits) d = nth (l + k) bits d).
  { clear. intros l k d. generalize bits. clear. induction l; intros [|x l']; simpl; auto. destruct k; auto. }
  assert (CL : forall b l k, l + k <= 64 -> cntb (fun i => wflag b v (l + i)) k = count b (firstn k (skipn l bits))).
  { intros b l k. induction k as [|k IH]; intros Hk; auto.
    rewrite cntb_S, (firstn_S_nth _ _ false) by (rewrite skipn_length; lia). rewrite count_app, IH by lia. f_equal.
    rewrite NS, NB by lia. unfold wflag, count. simpl. destruct (tb v (l + k)), b; simpl; auto. }
  assert (C : forall b k, k <= 64 -> cntb (wflag b v) k = count b (firstn k bits)) by (intros b k Hk; apply (CL b 0 k); lia).
  assert (ALL : firstn 64 bits = bits) by (apply firstn_all2; lia).
  assert (R1 : rank1_w v = count true bits).
  { rewrite rank1_w_ok, <- ALL, <- C by lia. apply cntb_ext. intros; rewrite wflag1; auto. }
  split; auto. split. { unfold rank0_w. rewrite R1. pose proof (count_both bits). lia. }
  split; [|split].
  - intros m Hm. rewrite rank1_wm_ok, <- C by lia. apply cntb_ext. intros; rewrite wflag1; auto.
  - intros b k Hk. destruct (basic_select_ok b v k Hv Hk) as [A B]. rewrite C, ALL in A, B by lia.
    destruct (Nat.le_gt_cases k (count b bits)) as [D|D]; [left|right; auto].
    destruct (A D) as (p & Hp & [I1 I2] & ->). exists (0 + p). split; auto. cbn [Nat.add]. split.
    + rewrite (nth_error_nth' bits false) by lia. f_equal. rewrite NB by auto. unfold wflag in I1. apply eqb_prop in I1. auto.
    + rewrite <- C by lia. auto.
  - intros b l k Hl Hk. destruct (basic_select_l_ok b v l k Hv Hk Hl) as [A B].
    assert (AL : firstn (64 - l) (skipn l bits) = skipn l bits) by (apply firstn_all2; rewrite skipn_length; lia).
    rewrite CL, AL in A, B by lia.
    destruct (Nat.le_gt_cases k (count b (skipn l bits))) as [D|D]; [left|right; auto].
    destruct (A D) as (p & Hp & [I1 I2] & ->). exists p. split; auto. split.
    + rewrite (nth_error_nth' _ false) by (rewrite skipn_length; lia). f_equal. rewrite NS, NB by lia. unfold wflag in I1. apply eqb_prop in I1. auto.
    + rewrite <- CL by lia. auto.
Qed.
Print Assumptions word_rank_select.
Theorem byte_rank_table : forall v, byte_ok v ->
  rank1_u8 v = Some (count true (map (fun k => N.testbit v (N.of_nat k)) (seq 0 8))).
Proof.
  intros v H. pose proof (bytes_forall (fun v => match rank1_u8 v with Some r => r =? count true (map (fun k => N.testbit v (N.of_nat k)) (seq 0 8)) | None => false end) eq_refl v H) as E.
  cbv beta in E. destruct (rank1_u8 v); [|discriminate]. f_equal. lia.
Qed.
Print Assumptions byte_rank_table.

(** select: every existing occurrence is found, never reading or writing outside the arrays;
    orders beyond the last occurrence give the size, provided the unused bits of the last
    word hold no further occurrence *)
Theorem select_correct : forall b bv bits, holds bv bits -> (N.of_nat (length bits) < 2 ^ 64)%N ->
  exists s, select_new b bv = Some s /\
    (forall x, 1 <= x <= count b bits -> exists p, select s x = Some p /\ is_select b bits x p) /\
    (padding_free b bv -> forall x, count b bits < x -> select s x = Some (length bits)).
Proof.
  intros b bv bits H Hn. pose proof H as (W & Ew & En & _).
  assert (CA : cntb (flag (pv_ws bv) b) (pv_n bv) = count b bits).
  { rewrite En, (cnt_count bv bits) by auto. rewrite firstn_all. auto. }
  destruct (select_new_ok b bv W Ew) as (s & E & M & B & Q); [rewrite En; auto|].
  exists s. split; auto. split.
  - intros x Hx. destruct (Q x) as (p & Ep & Ip); [rewrite CA; auto|]. exists p. split; auto.
    assert (Hp : p < length bits) by (rewrite <- En; apply (isel_below _ _ _ _ Ip); rewrite CA; lia).
    destruct Ip as [I1 I2]. split.
    + rewrite (nth_error_nth' bits false) by auto. f_equal. rewrite <- (holds_bit bv bits) by auto. apply eqb_prop in I1. auto.
    + rewrite <- (cnt_count bv) by (auto; lia). auto.
  - intros P x Hx. unfold select. rewrite M, B, En.
    assert (LW : pv_n bv <= 64 * length (pv_ws bv)). { destruct W as (_ & _ & ->). rewrite Ew, Nat.mul_1_r. apply b2b_ge. }
    replace (cntb (flag (pv_ws bv) b) (64 * length (pv_ws bv))) with (count b bits).
    { replace (count b bits <? x) with true by lia. auto. }
    rewrite <- CA. replace (64 * length (pv_ws bv)) with (pv_n bv + (64 * length (pv_ws bv) - pv_n bv)) by lia. rewrite cntb_add.
    rewrite (cntb_zero (fun i => flag (pv_ws bv) b (pv_n bv + i))); [lia|]. intros i Hi. unfold flag, getb, tb.
    rewrite P by lia. destruct b; auto.
Qed.
Print Assumptions select_correct.
(** The proviso is needed: on the one-bit vector "1", the second 0-bit is said to be at
    position 0 (Select0 counts the unused zeros of the last word). *)
Theorem select0_padding_refuted : exists bv s, vrun (pv_empty 1 true) [OPush 1] = Some bv /\ holds bv [true] /\
  select_new false bv = Some s /\ count false [true] < 2 /\ select s 2 = Some 0.
Proof.
  eexists. eexists. split; [vm_compute; reflexivity|]. split.
  - split; [split; [simpl; lia|split; [repeat constructor|reflexivity]]|]. split; [reflexivity|]. split; [reflexivity|].
    intros [|[|i]]; vm_compute; auto.
  - split; [vm_compute; reflexivity|]. split; [vm_compute; auto|]. vm_compute. reflexivity.
Qed.
Print Assumptions select0_padding_refuted.
(** likewise Select1 after pop_back: the popped 1 is still counted *)
Theorem select1_stale_refuted : exists bv s, vrun (pv_empty 1 true) [OPush 1; OPush 0; OPush 1; OPop; OPop] = Some bv /\
  pv_n bv = 1 /\ select_new true bv = Some s /\ select s 2 <> Some 1.
Proof.
  eexists. eexists. split; [vm_compute; reflexivity|]. split; [reflexivity|].
  split; [vm_compute; reflexivity|]. vm_compute. discriminate.
Qed.
Print Assumptions select1_stale_refuted.

(** non-vacuity: a vector over three words *)
Definition ex_bits : list bool := map (fun i => i mod 3 =? 1) (seq 0 150).
Example rank_select_example : exists bv r s, vrun (pv_empty 1 true) (map (fun b : bool => OPush (if b then 1 else 0)%N) ex_bits) = Some bv /\
  rank_new bv = Some r /\ rank1 r 130 = Some 44 /\ select_new true bv = Some s /\ select s 44 = Some 130 /\ select s 51 = Some 150.
Proof.
  eexists. eexists. eexists. split; [vm_compute; reflexivity|]. split; [vm_compute; reflexivity|].
  split; [vm_compute; reflexivity|]. split; [vm_compute; reflexivity|]. split; vm_compute; reflexivity.
Qed.
(** every bit list is held by the vector it is pushed into, with no stray ones behind it *)
Theorem pushed_bits_hold : forall bits, exists bv,
  vrun (pv_empty 1 false) (map (fun b : bool => OPush (if b then 1 else 0)%N) bits) = Some bv /\ holds bv bits.
Proof.
  intros bits.
  assert (S : forall bs l, vspec_run (1, l) (map (fun b : bool => OPush (if b then 1 else 0)%N) bs) = Some (1, l ++ map (fun b : bool => if b then 1 else 0)%N bs)).
  { induction bs as [|b bs IH]; intros l; cbn [map vspec_run vspec]; [rewrite app_nil_r; auto|].
    rewrite IH, <- app_assoc. do 2 f_equal. f_equal. destruct b; reflexivity. }
  destruct (vrun_ok _ _ _ _ (empty_inv 1 ltac:(lia)) (S bits [])) as (bv & E & I). exists bv. split; auto.
  pose proof (inv_shows _ _ I) as (S1 & S2 & S3). cbn [fst snd app] in *. rewrite map_length in S2.
  split; [apply I|]. auto.
Qed.
Print Assumptions pushed_bits_hold.
