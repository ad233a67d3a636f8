(** Splitting a key into home and quotient is a bijection. *)
From Verif Require Import Base CompactHash CompactTableProofs.
Local Open Scope N_scope.

Lemma mask_ones w : (w <= 64)%nat -> w64 (w64 (2 ^ N.of_nat w) + 2 ^ 64 - 1) = N.ones (N.of_nat w).
Proof.
  intros H. rewrite N.ones_equiv, N.pred_sub. unfold w64. destruct (Nat.eq_dec w 64) as [->|Hn]; [reflexivity|].
  assert (Hp : 2 ^ N.of_nat w < 2 ^ 64) by (apply N.pow_lt_mono_r; lia). assert (0 < 2 ^ N.of_nat w) by (apply N.neq_0_lt_0, N.pow_nonzero; lia).
  rewrite (N.mod_small (2 ^ N.of_nat w)) by auto. replace (2 ^ N.of_nat w + 2 ^ 64 - 1) with (2 ^ N.of_nat w - 1 + 1 * 2 ^ 64) by lia. rewrite N.mod_add by discriminate. apply N.mod_small. lia.
Qed.
Lemma w64_bits x i : N.testbit (w64 x) i = (i <? 64) && N.testbit x i.
Proof. unfold w64. destruct (N.ltb_spec i 64); [apply N.mod_pow2_bits_low; auto|apply N.mod_pow2_bits_high; auto]. Qed.
Lemma hash_bits x w i : (w <= 64)%nat ->
  N.testbit (compact_hashfn x w) i = (i <? N.of_nat w) && xorb (N.testbit x i) ((N.of_nat (w / 2 + 1) <=? i) && N.testbit x (i - N.of_nat (w / 2 + 1))).
Proof.
  intros H. unfold compact_hashfn. rewrite mask_ones by auto. rewrite N.land_spec, N.lxor_spec, N.land_spec, w64_bits.
  destruct (N.ltb_spec i (N.of_nat w)) as [Hi|Hi].
  - rewrite N.ones_spec_low by auto. rewrite !andb_true_r. cbn [andb]. replace (i <? 64) with true by (symmetry; apply N.ltb_lt; lia). cbn [andb].
    destruct (N.leb_spec (N.of_nat (w / 2 + 1)) i) as [Hj|Hj]; cbn [andb]; [rewrite N.shiftl_spec_high' by auto; reflexivity|rewrite N.shiftl_spec_low by auto; reflexivity].
  - rewrite N.ones_spec_high by auto. rewrite !andb_false_r. reflexivity.
Qed.
Lemma bits_lt x w : x < 2 ^ w <-> forall i, w <= i -> N.testbit x i = false.
Proof.
  split.
  - intros H i Hi. destruct (N.eq_dec x 0) as [->|Hz]; [apply N.bits_0|]. apply N.bits_above_log2. apply N.lt_le_trans with w; [|auto]. apply N.log2_lt_pow2; lia.
  - intros H. replace x with (x mod 2 ^ w); [apply N.mod_lt, N.pow_nonzero; lia|]. apply N.bits_inj. intros i. destruct (N.lt_ge_cases i w) as [Hc|Hc].
    + apply N.mod_pow2_bits_low; auto.
    + rewrite N.mod_pow2_bits_high by auto. symmetry. auto.
Qed.
Lemma hash_lt x w : (w <= 64)%nat -> compact_hashfn x w < 2 ^ N.of_nat w.
Proof. intros H. apply bits_lt. intros i Hi. rewrite hash_bits by auto. replace (i <? N.of_nat w) with false by (symmetry; apply N.ltb_ge; auto). reflexivity. Qed.
Lemma hash_inv x w : (w <= 64)%nat -> x < 2 ^ N.of_nat w -> compact_hashfn (compact_hashfn x w) w = x.
Proof.
  intros H Hx. apply N.bits_inj. intros i. rewrite !hash_bits by auto. set (j := N.of_nat (w / 2 + 1)). destruct (N.ltb_spec i (N.of_nat w)) as [Hi|Hi]; cbn [andb].
  - destruct (N.leb_spec j i) as [Hj|Hj]; cbn [andb].
    + replace (i - j <? N.of_nat w) with true by (symmetry; apply N.ltb_lt; lia). cbn [andb]. assert (Hd : i - j < j).
      { unfold j. pose proof (Nat.div_mod w 2). pose proof (Nat.mod_upper_bound w 2). lia. }
      replace (j <=? i - j) with false by (symmetry; apply N.leb_gt; auto). cbn [andb]. destruct (N.testbit x i), (N.testbit x (i - j)); reflexivity.
    + destruct (N.testbit x i); reflexivity.
  - symmetry. apply (proj1 (bits_lt x (N.of_nat w)) Hx). auto.
Qed.

Lemma pow_cap t : 2 ^ N.of_nat (t_log t) = N.of_nat (cap t).
Proof. unfold cap. rewrite Nat2N.inj_pow. reflexivity. Qed.
Lemma rw_log t : (t_log t + quot_width t = real_width t)%nat.
Proof. unfold quot_width, real_width. lia. Qed.
Lemma rw_pow t : 2 ^ N.of_nat (real_width t) = 2 ^ N.of_nat (quot_width t) * N.of_nat (cap t).
Proof. rewrite <- pow_cap, <- N.pow_add_r. f_equal. pose proof (rw_log t). lia. Qed.
Lemma cap_posN t : 0 < N.of_nat (cap t).
Proof. pose proof (cap_pos t). lia. Qed.

Lemma decompose_ok t key a q : (real_width t <= 64)%nat -> decompose t key = (a, q) -> (a < cap t)%nat /\ q < 2 ^ N.of_nat (quot_width t) /\ compact_hashfn key (real_width t) = q * N.of_nat (cap t) + N.of_nat a.
Proof.
  intros H E. unfold decompose in E. injection E as <- <-. pose proof (hash_lt key (real_width t) H) as Hl. set (h := compact_hashfn key (real_width t)) in *. rewrite rw_pow in Hl. pose proof (cap_posN t).
  rewrite N.shiftr_div_pow2, pow_cap. pose proof (N.mod_lt h (N.of_nat (cap t)) ltac:(lia)). split; [lia|]. split; [apply N.div_lt_upper_bound; lia|].
  rewrite N2Nat.id. rewrite (N.div_mod' h (N.of_nat (cap t))) at 1. lia.
Qed.
Lemma lor_add q a t : (a < cap t)%nat -> N.lor (N.shiftl q (N.of_nat (t_log t))) (N.of_nat a) = q * N.of_nat (cap t) + N.of_nat a.
Proof.
  intros Ha. rewrite <- pow_cap, <- N.shiftl_mul_pow2. rewrite <- N.lxor_lor, N.add_nocarry_lxor; auto.
  - apply N.bits_inj_0. intros i. rewrite N.land_spec. destruct (N.lt_ge_cases i (N.of_nat (t_log t))) as [Hc|Hc]; [rewrite N.shiftl_spec_low by auto; reflexivity|].
    replace (N.testbit (N.of_nat a) i) with false; [apply andb_false_r|]. symmetry. apply (proj1 (bits_lt (N.of_nat a) (N.of_nat (t_log t)))); [rewrite pow_cap; lia|auto].
  - apply N.bits_inj_0. intros i. rewrite N.land_spec. destruct (N.lt_ge_cases i (N.of_nat (t_log t))) as [Hc|Hc]; [rewrite N.shiftl_spec_low by auto; reflexivity|].
    replace (N.testbit (N.of_nat a) i) with false; [apply andb_false_r|]. symmetry. apply (proj1 (bits_lt (N.of_nat a) (N.of_nat (t_log t)))); [rewrite pow_cap; lia|auto].
Qed.
Lemma compose_eq t a q : (real_width t <= 64)%nat -> (a < cap t)%nat -> q < 2 ^ N.of_nat (quot_width t) -> compose t a q = compact_hashfn (q * N.of_nat (cap t) + N.of_nat a) (real_width t).
Proof.
  intros H Ha Hq. unfold compose. f_equal. rewrite <- lor_add by auto. f_equal. unfold w64. apply N.mod_small. rewrite N.shiftl_mul_pow2, pow_cap.
  apply N.lt_le_trans with (2 ^ N.of_nat (real_width t)); [rewrite rw_pow; pose proof (cap_posN t); nia|]. apply N.pow_le_mono_r; lia.
Qed.
Lemma compose_dec t key a q : (real_width t <= 64)%nat -> key < 2 ^ N.of_nat (real_width t) -> decompose t key = (a, q) -> compose t a q = key.
Proof.
  intros H Hk E. destruct (decompose_ok t key a q H E) as (H1 & H2 & H3). rewrite compose_eq by auto. rewrite <- H3. apply hash_inv; auto.
Qed.
Lemma dec_compose t a q : (real_width t <= 64)%nat -> (a < cap t)%nat -> q < 2 ^ N.of_nat (quot_width t) -> decompose t (compose t a q) = (a, q) /\ compose t a q < 2 ^ N.of_nat (real_width t).
Proof.
  intros H Ha Hq. rewrite compose_eq by auto. split; [|apply hash_lt; auto]. unfold decompose. assert (Hl : q * N.of_nat (cap t) + N.of_nat a < 2 ^ N.of_nat (real_width t)).
  { rewrite rw_pow. pose proof (cap_posN t). nia. }
  rewrite hash_inv by auto. rewrite N.shiftr_div_pow2, pow_cap. pose proof (cap_posN t). f_equal.
  - rewrite N.add_comm, N.mod_add, N.mod_small by lia. apply Nat2N.id.
  - rewrite N.div_add_l, N.div_small by lia. lia.
Qed.
