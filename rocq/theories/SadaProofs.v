(** Proofs about the unary-coded LCP structures of SAComp.v. *)
From Verif Require Import Base IntCodes IntVec IntVecProofs RankSelect SAComp SACompProofs SparseProofs PropRankSelect.
Local Open Scope nat_scope.

Lemma count_firstn_S b bits p x : nth_error bits p = Some x -> count b (firstn (S p) bits) = count b (firstn p bits) + (if Bool.eqb x b then 1 else 0).
Proof.
  intros H. assert (p < length bits) by (apply nth_error_Some; congruence).
  rewrite (firstn_S_nth _ _ false) by auto. rewrite count_app. rewrite (nth_error_nth _ _ false H). f_equal.
  unfold count. simpl. destruct x, b; auto.
Qed.
Lemma count_firstn_mono b bits p q : p <= q -> count b (firstn p bits) <= count b (firstn q bits).
Proof. intros H. rewrite (firstn_sub bits p q H), count_app. lia. Qed.
Lemma is_select_fun b bits x p q : is_select b bits x p -> is_select b bits x q -> p = q.
Proof.
  assert (G : forall p q, is_select b bits x p -> is_select b bits x q -> p < q -> False).
  { clear. intros p q [A1 A2] [B1 B2] H. pose proof (count_firstn_mono b bits (S p) q H) as M.
    rewrite (count_firstn_S b bits p b A1), Bool.eqb_reflx in M. lia. }
  intros A B. destruct (Nat.lt_total p q) as [L|[L|L]]; auto; exfalso; eauto.
Qed.
Lemma sel1_ok bits : forall x p pos, is_select true bits x p -> sel1 bits x pos = Some (pos + p).
Proof.
  induction bits as [|b bits IH]; intros x p pos [H1 H2]; [destruct p; discriminate|].
  destruct p as [|p]; cbn [sel1].
  - simpl in H1. injection H1 as ->. simpl in H2. unfold count in H2. simpl in H2. subst x. simpl. f_equal. lia.
  - simpl in H1. unfold count in H2. simpl in H2. destruct b; simpl in H2.
    + destruct (x =? 1) eqn:E; [lia|]. rewrite (IH (x - 1) p (pos + 1)); [f_equal; lia|]. split; auto. unfold count. lia.
    + rewrite (IH x p (pos + 1)); [f_equal; lia|]. split; auto.
Qed.
Lemma select_exists bits : forall x, 1 <= x <= count true bits -> exists p, is_select true bits x p.
Proof.
  induction bits as [|b bits IH]; intros x H; unfold count in H; simpl in H; [lia|]. destruct b; simpl in H.
  - destruct (Nat.eq_dec x 1) as [->|Hne]; [exists 0; split; reflexivity|].
    destruct (IH (x - 1)) as (p & A & B); [unfold count; lia|]. exists (S p). split; auto.
    unfold count in *. simpl. lia.
  - destruct (IH x) as (p & A & B); [unfold count; lia|]. exists (S p). split; auto.
Qed.

(** ** the bit string *)
Fixpoint chain (prev : nat) (l : list nat) : Prop :=
  match l with [] => True | p :: r => prev <= p + 1 /\ chain p r end.
Lemma chain_nth l : forall prev, (forall i, i < length l -> nth i (prev :: l) 0 <= nth i l 0 + 1) -> chain prev l.
Proof.
  induction l as [|p l IH]; intros prev H; simpl; auto. split; [apply (H 0); simpl; lia|].
  apply IH. intros i Hi. apply (H (S i)). simpl. lia.
Qed.
Lemma count_unary x : count true (encode_unary x) = 1.
Proof.
  unfold encode_unary. rewrite count_app. replace (count true (repeat false x)) with 0; [reflexivity|].
  induction x; auto.
Qed.
Lemma count_zeros x k : count true (firstn k (repeat false x)) = 0.
Proof. revert k; induction x; intros [|k]; auto. simpl. apply IHx. Qed.
Lemma unary_len x : length (encode_unary x) = x + 1.
Proof. unfold encode_unary. rewrite app_length, repeat_length. auto. Qed.
Lemma rest_select l : forall prev j x, chain prev l -> nth_error l j = Some x ->
  prev <= x + 2 * j + 1 /\ is_select true (clcp_rest prev l) (j + 1) (x + 2 * j + 1 - prev).
Proof.
  induction l as [|p l IH]; intros prev j x C E; [destruct j; discriminate|]. cbn [chain] in C. destruct C as [C1 C2].
  cbn [clcp_rest]. destruct j as [|j].
  - simpl in E. injection E as ->. split; [lia|]. replace (x + 2 * 0 + 1 - prev) with (x + 1 - prev) by lia. split.
    + rewrite nth_error_app1 by (rewrite unary_len; lia). unfold encode_unary. rewrite nth_error_app2 by (rewrite repeat_length; lia).
      rewrite repeat_length, Nat.sub_diag. auto.
    + rewrite firstn_app, unary_len. replace (_ - (_ + 1)) with 0 by lia. rewrite firstn_O, app_nil_r.
      unfold encode_unary. rewrite firstn_app, repeat_length, Nat.sub_diag, firstn_O, app_nil_r, count_zeros. auto.
  - simpl in E. destruct (IH p j x C2 E) as (A & B1 & B2). split; [lia|].
    replace (x + 2 * S j + 1 - prev) with (length (encode_unary (p + 1 - prev)) + (x + 2 * j + 1 - p)) by (rewrite unary_len; lia).
    split.
    + rewrite nth_error_app2 by lia. rewrite Nat.add_comm, Nat.add_sub. auto.
    + rewrite firstn_app_2, count_app, count_unary. lia.
Qed.
Lemma rest_length l : forall prev, chain prev l -> length (clcp_rest prev l) + prev = last l prev + 2 * length l.
Proof.
  induction l as [|p l IH]; intros prev C; simpl; [lia|]. destruct C as [C1 C2]. rewrite app_length, unary_len.
  specialize (IH p C2). assert (E : (match l with [] => p | _ :: _ => last l prev end) = last l p).
  { clear. destruct l; auto. revert n p prev. induction l; intros; auto. simpl in *. apply IHl. }
  rewrite E. lia.
Qed.
Lemma rest_count l : forall prev, count true (clcp_rest prev l) = length l.
Proof. induction l as [|p l IH]; intros prev; auto. cbn [clcp_rest length]. rewrite count_app, count_unary, IH. auto. Qed.
Lemma clcp_bits_rest l : clcp_bits l = clcp_rest 0 l.
Proof. destruct l; auto. simpl. rewrite Nat.sub_0_r. auto. Qed.

(** pushing bits *)
Lemma push_bits_ok bs : forall v old, wf v -> pv_w v = 1 -> contents v = map (fun b : bool => if b then 1 else 0)%N old ->
  exists v', push_bits v bs = Some v' /\ wf v' /\ pv_w v' = 1 /\ contents v' = map (fun b : bool => if b then 1 else 0)%N (old ++ bs).
Proof.
  induction bs as [|b bs IH]; intros v old W Ew C; cbn [push_bits].
  - rewrite app_nil_r. exists v. auto.
  - destruct (push_ok v (if b then 1 else 0)%N W) as (v' & E & W' & Ew' & _ & C'). rewrite E. cbn [obind].
    destruct (IH v' (old ++ [b]) W') as (v2 & E2 & W2 & Ew2 & C2); [lia| |exists v2; rewrite <- app_assoc in C2; auto].
    rewrite C', C, Ew, map_app. f_equal. destruct b; reflexivity.
Qed.
Lemma pushed_holds bs : exists bv, push_bits (pv_empty 1 true) bs = Some bv /\ holds bv bs.
Proof.
  destruct (push_bits_ok bs (pv_empty 1 true) []) as (v & E & W & Ew & C); auto.
  { split; [simpl; lia|]. split; [constructor|auto]. }
  exists v. split; auto. simpl in C. assert (Ln : pv_n v = length bs) by (rewrite <- (contents_len v), C, map_length; auto).
  split; auto. split; auto. split; auto. intros i. destruct (Nat.lt_ge_cases i (length bs)) as [L|L].
  - rewrite get_ok by (auto; lia). rewrite C. symmetry. apply nth_error_nth'. rewrite map_length. auto.
  - unfold pv_get. replace (i <? pv_n v) with false by lia. symmetry. apply nth_error_None. rewrite map_length. auto.
Qed.
Lemma clcp_ok plcp : chain 0 plcp -> (N.of_nat (last plcp 0 + 2 * length plcp)%nat < 2 ^ 64)%N ->
  exists d, clcp_new plcp = Some d /\ forall j x, nth_error plcp j = Some x -> select d (j + 1) = Some (x + 2 * j + 1).
Proof.
  intros C H. unfold clcp_new. rewrite clcp_bits_rest. destruct (pushed_holds (clcp_rest 0 plcp)) as (bv & E & Hb). rewrite E. cbn [obind].
  destruct (select_correct true bv _ Hb) as (s & Es & Q & _).
  { pose proof (rest_length plcp 0 C). rewrite Nat.add_0_r in H0. rewrite H0. auto. }
  exists s. split; auto. intros j x Ex. destruct (Q (j + 1)) as (p & Ep & Ip).
  { rewrite rest_count. assert (j < length plcp) by (apply nth_error_Some; congruence). lia. }
  rewrite Ep. f_equal. destruct (rest_select plcp 0 j x C Ex) as [_ I2]. rewrite Nat.sub_0_r in I2.
  apply (is_select_fun _ _ _ _ _ Ip I2).
Qed.

(** ** LCPSada *)
Lemma upd_app {A} (a b : list A) i x : upd (a ++ b) (length a + i) x = a ++ upd b i x.
Proof. induction a; simpl; auto. f_equal. auto. Qed.
Lemma upd_zeros a k x : a < k -> upd (repeat false k) a x = repeat false a ++ x :: repeat false (k - a - 1).
Proof.
  revert a; induction k as [|k IH]; intros [|a] H; simpl; try lia.
  - rewrite Nat.sub_0_r. auto.
  - rewrite IH by lia. auto.
Qed.
Lemma sada_len_ok r : forall prev len, chain prev r -> sada_len prev r len + length r = len + length (clcp_rest prev r).
Proof.
  induction r as [|p r IH]; intros prev len C; cbn [sada_len clcp_rest length]; auto. destruct C as [C1 C2].
  rewrite app_length, unary_len. specialize (IH p (len + (p + 1 - prev)) C2). lia.
Qed.
Lemma sada_fill_ok r : forall prev pre, chain prev r ->
  sada_fill prev r (length pre) (pre ++ true :: repeat false (length (clcp_rest prev r))) = Some (pre ++ true :: clcp_rest prev r).
Proof.
  induction r as [|p r IH]; intros prev pre C; cbn [sada_fill clcp_rest]; auto. destruct C as [C1 C2].
  rewrite (app_length (encode_unary (p + 1 - prev))), unary_len. set (z := p + 1 - prev). set (k := length (clcp_rest p r)).
  replace (length pre + (p + 2 - prev)) with (length pre + S z) by (unfold z; lia).
  replace (_ <? _) with true by (rewrite app_length; cbn [length]; rewrite repeat_length; lia).
  rewrite upd_app. cbn [upd]. rewrite upd_zeros by lia. replace (z + 1 + k - z - 1) with k by lia.
  specialize (IH p (pre ++ true :: repeat false z) C2). fold k in IH.
  rewrite app_length in IH. cbn [length] in IH. rewrite repeat_length in IH. rewrite <- app_assoc in IH. cbn [app] in IH.
  rewrite IH. f_equal. unfold encode_unary. rewrite <- !app_assoc. reflexivity.
Qed.
Lemma sada_bits_ok plcp : plcp <> [] -> chain 0 plcp -> exists bs, sada_bits plcp = Some bs /\ clcp_rest 0 plcp = false :: bs.
Proof.
  intros Hne C. destruct plcp as [|p r]; [congruence|]. destruct C as [_ C]. unfold sada_bits. cbn [length].
  assert (L : sada_len p r p + S (length r) = p + 1 + length (clcp_rest p r)) by (pose proof (sada_len_ok r p p C); lia).
  rewrite L. rewrite repeat_length. replace (p <? _) with true by lia. rewrite upd_zeros by lia.
  replace (p + 1 + length (clcp_rest p r) - p - 1) with (length (clcp_rest p r)) by lia.
  pose proof (sada_fill_ok r p (repeat false p) C) as F. rewrite repeat_length in F. rewrite F.
  eexists. split; auto. cbn [clcp_rest]. rewrite Nat.sub_0_r. unfold encode_unary. rewrite <- app_assoc.
  replace (p + 1) with (S p) by lia. reflexivity.
Qed.
Lemma sada_select plcp bs j x : chain 0 plcp -> clcp_rest 0 plcp = false :: bs -> nth_error plcp j = Some x ->
  is_select true bs (j + 1) (x + 2 * j).
Proof.
  intros C E Ex. destruct (rest_select plcp 0 j x C Ex) as (_ & A & B). rewrite Nat.sub_0_r in A, B. rewrite E in A, B.
  replace (x + 2 * j + 1) with (S (x + 2 * j)) in A, B by lia. split; auto.
Qed.
Lemma sada_count plcp bs : clcp_rest 0 plcp = false :: bs -> count true bs = length plcp.
Proof. intros E. rewrite <- (rest_count plcp 0), E. auto. Qed.

(** ** the forward iterator *)
Lemma ones_count bs : ones bs = count true bs.
Proof. unfold ones, count. induction bs as [|[] bs IH]; simpl; auto. Qed.
Lemma count_chunk bs b : count true (firstn (64 * (b + 1)) bs) = count true (firstn (64 * b) bs) + count true (chunk bs b).
Proof. unfold chunk. rewrite (firstn_sub bs (64 * b) (64 * (b + 1))) by lia. rewrite count_app. do 3 f_equal. lia. Qed.
Lemma chunk_all (bs : list bool) : 0 < length bs -> firstn (64 * (1 + (length bs - 1) / 64)) bs = bs.
Proof. intros. apply firstn_all2. lia. Qed.
Lemma seek_ok bs idx : 0 < length bs -> idx < count true bs -> forall fuel b r,
  1 + (length bs - 1) / 64 < fuel + b -> r = count true (firstn (64 * b) bs) -> r <= idx ->
  exists b' r', it_seek fuel bs idx b r = (b', r') /\ b' < 1 + (length bs - 1) / 64 /\ r' = count true (firstn (64 * b') bs) /\
    r' <= idx < r' + count true (chunk bs b').
Proof.
  intros Hl Hi. set (cs := 1 + (length bs - 1) / 64).
  assert (HC : count true (firstn (64 * cs) bs) = count true bs) by (unfold cs; rewrite chunk_all; auto).
  induction fuel as [|fuel IH]; intros b r Hf Er Hr; cbn [it_seek].
  - exfalso. pose proof (count_firstn_mono true bs (64 * cs) (64 * b) ltac:(lia)). lia.
  - fold cs. destruct (b <? cs) eqn:L.
    2:{ exfalso. pose proof (count_firstn_mono true bs (64 * cs) (64 * b) ltac:(lia)). lia. }
    rewrite ones_count. destruct (_ <=? _) eqn:G.
    + exists b, r. split; auto. split; [lia|]. split; auto. lia.
    + apply IH; try lia. rewrite count_chunk. lia.
Qed.
Lemma it_ok bs it x p : is_select true bs (it_idx it + 1) p -> p = x + 2 * it_idx it ->
  it_rank it = count true (firstn (64 * it_block it) bs) -> it_rank it <= it_idx it ->
  it_block it <= 1 + (length bs - 1) / 64 ->
  exists it', it_value bs it = Some (x, it') /\ it_idx it' = it_idx it /\
    it_rank it' = count true (firstn (64 * it_block it') bs) /\ it_rank it' <= it_idx it' /\
    it_block it' <= 1 + (length bs - 1) / 64.
Proof.
  intros [S1 S2] Ep Er Hr Hb. unfold it_value. set (cs := 1 + (length bs - 1) / 64) in *.
  assert (Hp : p < length bs) by (apply nth_error_Some; congruence).
  assert (Hc : it_idx it < count true bs).
  { rewrite <- (firstn_all bs). pose proof (count_firstn_mono true bs (S p) (length bs) Hp) as M.
    rewrite (count_firstn_S true bs p true S1) in M. simpl in M. lia. }
  destruct (seek_ok bs (it_idx it) ltac:(lia) Hc (cs + 1) (it_block it) (it_rank it)) as (b & r & E & Hb' & Er' & Hr'); auto; try (fold cs; lia).
  rewrite E. fold cs in Hb'. replace (b =? cs) with false by lia.
  destruct (select_exists (chunk bs b) (it_idx it + 1 - r) ltac:(lia)) as (s & I1 & I2).
  rewrite (sel1_ok _ _ s 0) by (split; auto). cbn [obind].
  assert (Hs : s < 64). { assert (s < length (chunk bs b)) by (apply nth_error_Some; congruence). unfold chunk in H. rewrite firstn_length in H. lia. }
  assert (J : is_select true bs (it_idx it + 1) (64 * b + s)).
  { split.
    - unfold chunk in I1. rewrite nth_error_firstn in I1 || (rewrite <- I1).
      all: try (rewrite <- nth_error_skipn); auto.
      { clear -Hs. generalize (skipn (64 * b) bs). intros l. revert Hs. generalize 64. revert s.
        induction l as [|y l IH]; intros s k Hs; destruct s, k; simpl; auto; try lia. apply IH. lia. }
    - rewrite (firstn_sub bs (64 * b) (64 * b + s)), count_app by lia. replace (64 * b + s - 64 * b) with s by lia.
      unfold chunk in I2. rewrite firstn_firstn in I2. replace (Nat.min s 64) with s in I2 by lia. lia. }
  assert (Q : 64 * b + s = p) by (apply (is_select_fun true bs (it_idx it + 1)); auto; split; auto).
  exists (mk_it (it_idx it) b r). cbn [it_idx it_rank it_block]. split; [rewrite Nat.add_0_l, Q; f_equal; f_equal; lia|].
  split; auto. split; auto. split; [lia|]. fold cs. lia.
Qed.
