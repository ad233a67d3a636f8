(** Properties C37 (generators) and C39 (arithmetic helpers). *)
From Coq Require Import ZArith.
From Verif Require Import Base IntCodes IntCodesProofs UtilArith UtilSpec.
Local Open Scope N_scope.

(** C39. idiv_ceil is the least q with q*b >= a, for all 64-bit operands. *)
Theorem idiv_ceil_spec : forall a b, is64 a -> is64 b -> 1 <= b ->
  exists q, idiv_ceil a b = Some q /\ a <= q * b /\ (forall q', a <= q' * b -> q <= q').
Proof.
  intros a b Ha Hb Hb1. unfold is64 in *. unfold idiv_ceil. destruct (N.eqb_spec b 0); [lia|].
  pose proof (N.div_mod a b n) as D. pose proof (N.mod_lt a b n) as M. pose proof pow64.
  set (q := a / b) in *. set (r := a mod b) in *.
  assert (q <= a) by nia.
  destruct (N.ltb_spec 0 r); cbn [N.b2n]; unfold w64; eexists; (split; [reflexivity|]).
  - rewrite N.mod_small.
    + split; [nia|]. intros q' Hq'. nia.
    + enough (q < a) by lia. destruct (N.eq_dec b 1); nia.
  - rewrite N.add_0_r, N.mod_small by lia. split; [nia|]. intros q' Hq'. nia.
Qed.
Print Assumptions idiv_ceil_spec.

(** C39. bytes_for is the least number of bytes, at least one, that can hold n. *)
Theorem bytes_for_spec : forall n, is64 n ->
  exists k, bytes_for n = Some k /\ 1 <= k <= 8 /\ n < 256 ^ k /\ (forall k', 1 <= k' -> n < 256 ^ k' -> k <= k').
Proof.
  intros n Hn. unfold bytes_for. unfold is64 in Hn.
  pose proof (bits_for_le64 n Hn) as B1. pose proof (bits_for_pos n) as B2. pose proof (bits_for_bound n) as B3.
  assert (B4 : forall w, 1 <= w -> n < 2 ^ w -> bits_for n <= w) by (intros; apply bits_for_min; auto).
  set (b := bits_for n) in *.
  destruct (idiv_ceil_spec b 8) as (q & E & Q1 & Q2).
  { unfold is64. pose proof pow64. lia. } { unfold is64. pose proof pow64. lia. } { lia. }
  rewrite E. cbn [obind]. assert (Hq : q <= 8) by (apply Q2; lia).
  unfold w8. rewrite N.mod_small by lia. exists q. split; auto. split; [lia|]. change 256 with (2 ^ 8). split.
  - rewrite <- N.pow_mul_r. eapply N.lt_le_trans; [exact B3|]. apply N.pow_le_mono_r; lia.
  - intros k' Hk' H. rewrite <- N.pow_mul_r in H. apply Q2. rewrite N.mul_comm. apply B4; auto. lia.
Qed.
Print Assumptions bytes_for_spec.

(** C39. round_up_div is the ceiling as long as x + y - 1 fits the type ... *)
Theorem round_up_div_spec : forall w x y, x < 2 ^ w -> 1 <= y < 2 ^ w -> x + y - 1 < 2 ^ w ->
  exists q, round_up_div w x y = Some q /\ x <= q * y /\ (forall q', x <= q' * y -> q <= q').
Proof.
  intros w x y Hx Hy H. unfold round_up_div. destruct (N.eqb_spec y 0); [lia|].
  assert (E : ((x + y) mod 2 ^ w + (2 ^ w - 1)) mod 2 ^ w = x + y - 1).
  { destruct (N.eq_dec (x + y) (2 ^ w)) as [E|E].
    - rewrite E, N.mod_same by lia. rewrite N.mod_small by lia. lia.
    - rewrite (N.mod_small (x + y)) by lia.
      replace (x + y + (2 ^ w - 1)) with (x + y - 1 + 1 * 2 ^ w) by lia. rewrite N.mod_add by lia.
      apply N.mod_small. lia. }
  rewrite E. eexists; split; [reflexivity|].
  pose proof (N.div_mod (x + y - 1) y n) as D. pose proof (N.mod_lt (x + y - 1) y n) as M.
  set (q := (x + y - 1) / y) in *. set (r := (x + y - 1) mod y) in *. clearbody q r. clear E H Hx.
  assert (1 <= y) by lia. clear Hy. split; [nia|]. intros q' Hq'.
  destruct (N.le_gt_cases q q') as [|C]; auto. exfalso. assert (q' + 1 <= q) by lia. assert ((q' + 1) * y <= q * y) by (apply N.mul_le_mono_r; auto). lia.
Qed.
Print Assumptions round_up_div_spec.
(** ... and 0 whenever it does not although x > 0. *)
Theorem round_up_div_overflow_refuted : forall w x y, x < 2 ^ w -> 1 <= y < 2 ^ w -> 2 ^ w <= x + y - 1 ->
  round_up_div w x y = Some 0 /\ 1 <= x.
Proof.
  intros w x y Hx Hy H. split; [|lia]. unfold round_up_div. destruct (N.eqb_spec y 0); [lia|]. f_equal.
  assert (E : (x + y) mod 2 ^ w = x + y - 2 ^ w).
  { replace (x + y) with (x + y - 2 ^ w + 1 * 2 ^ w) at 1 by lia. rewrite N.mod_add by lia. apply N.mod_small. lia. }
  rewrite E. apply N.div_small.
  replace (x + y - 2 ^ w + (2 ^ w - 1)) with (x + y - 2 ^ w - 1 + 1 * 2 ^ w) by lia.
  rewrite N.mod_add by lia. rewrite N.mod_small by lia. lia.
Qed.
Print Assumptions round_up_div_overflow_refuted.
Example round_up_ex : round_up_div 32 7 2 = Some 4 /\ round_up_div 32 4294967295 2 = Some 0.
Proof. split; reflexivity. Qed.

(** ** isqrt *)
(** partial root [p], remaining bit pairs [j] *)
Definition isq_inv (K n : N) (j : nat) (p num res bit : N) : Prop :=
  res = p * 2 ^ N.of_nat j /\ num + p * p = n /\ p + 2 ^ N.of_nat j <= 2 ^ K /\
  (n < (p + 2 ^ N.of_nat j) * (p + 2 ^ N.of_nat j) \/ p + 2 ^ N.of_nat j = 2 ^ K) /\
  bit = match j with O => 0 | S m => 4 ^ N.of_nat m end.
Lemma pow4 m : 4 ^ N.of_nat m = 2 ^ N.of_nat m * 2 ^ N.of_nat m.
Proof. change 4 with (2 ^ 2). rewrite <- N.pow_mul_r, <- N.pow_add_r. f_equal. lia. Qed.
Lemma pow2S m : 2 ^ N.of_nat (S m) = 2 * 2 ^ N.of_nat m.
Proof. rewrite Nat2N.inj_succ, N.pow_succ_r'. reflexivity. Qed.
Lemma bit_div4 m : 4 ^ N.of_nat m / 4 = match m with O => 0 | S m => 4 ^ N.of_nat m end.
Proof.
  destruct m as [|m]; [reflexivity|]. rewrite Nat2N.inj_succ, N.pow_succ_r', N.mul_comm. apply N.div_mul. lia.
Qed.
Lemma isqrt_skip_ok K n j : forall fuel bit, (j < fuel)%nat -> isq_inv K n j 0 n 0 bit ->
  exists j', (j' <= j)%nat /\ exists bit', isqrt_skip fuel n bit = Some bit' /\ isq_inv K n j' 0 n 0 bit'.
Proof.
  induction j as [|j IH]; intros fuel bit Hf HI; (destruct fuel as [|fuel]; [lia|]); cbn [isqrt_skip].
  - destruct HI as (? & ? & ? & ? & ->). destruct (N.ltb_spec n 0); [lia|]. exists 0%nat. split; auto.
    exists 0. split; auto. split; auto.
  - destruct HI as (I1 & I2 & I3 & I4 & ->). destruct (N.ltb_spec n (4 ^ N.of_nat j)) as [H|H].
    + rewrite bit_div4. destruct (IH fuel (match j with O => 0 | S m => 4 ^ N.of_nat m end)) as (j' & J1 & b & B1 & B2); [lia| |].
      * split; [lia|]. split; [lia|]. rewrite pow2S in I3. rewrite pow4 in H. split; [lia|]. split; [left; lia|reflexivity].
      * exists j'. split; [lia|]. exists b. auto.
    + exists (S j). split; auto. exists (4 ^ N.of_nat j). split; auto. split; auto.
Qed.
Lemma isqrt_loop_ok K n j : forall fuel p num res bit, (j < fuel)%nat -> isq_inv K n j p num res bit ->
  exists r, isqrt_loop fuel num res bit = Some r /\ r * r <= n /\ r + 1 <= 2 ^ K /\
    (n < (r + 1) * (r + 1) \/ r + 1 = 2 ^ K).
Proof.
  induction j as [|m IH]; intros fuel p num res bit Hf (I1 & I2 & I3 & I4 & I5); (destruct fuel as [|fuel]; [lia|]); cbn [isqrt_loop].
  - subst bit. cbn. change (2 ^ N.of_nat 0) with 1 in *. exists res. rewrite N.mul_1_r in I1. subst res. split; auto. split; [lia|]. auto.
  - pose proof (pow4 m) as P4. pose proof (pow2S m) as P2. set (t := 2 ^ N.of_nat m) in *.
    assert (0 < t) by (unfold t; apply N.neq_0_lt_0, N.pow_nonzero; lia).
    destruct (N.eqb_spec bit 0); [nia|]. subst bit. rewrite bit_div4.
    assert (R : res / 2 = p * t). { subst res. rewrite P2. replace (p * (2 * t)) with (p * t * 2) by lia. apply N.div_mul. lia. }
    rewrite R. destruct (N.leb_spec (res + 4 ^ N.of_nat m) num) as [H1|H1].
    + apply (IH fuel (p + t)); [lia|]. rewrite P4 in *. rewrite P2 in *. split; [fold t; lia|]. fold t.
      split; [subst res; nia|]. split; [lia|]. split; [|reflexivity]. replace (p + t + t) with (p + 2 * t) by lia. auto.
    + apply (IH fuel p); [lia|]. rewrite P4 in *. rewrite P2 in *. split; [fold t; lia|]. fold t. split; [auto|].
      split; [lia|]. split; [|reflexivity]. left. subst res. nia.
Qed.

(** C39. isqrt computes the square root only up to a small cap: for a type of sz bytes (2, 4, 8
    - the loop starts at bit 2^(sz-2) instead of the second-to-top bit) it returns
    min(sqrt n, 2^(sz/2) - 1), i.e. 1, 3 or 15 for all larger numbers. *)
Theorem isqrt_spec : forall sz n, (sz = 2 \/ sz = 4 \/ sz = 8)%nat -> is64 n ->
  isqrt sz n = Some (N.min (N.sqrt n) (2 ^ (N.of_nat sz / 2) - 1)).
Proof.
  intros sz n Hsz _.
  assert (G : forall K : nat, (1 <= K <= 4)%nat -> forall s, 2 ^ N.of_nat s = 4 ^ N.of_nat (K - 1) ->
    isqrt (S (S s)) n = Some (N.min (N.sqrt n) (2 ^ N.of_nat K - 1))).
  { intros K HK s E. cbn [isqrt]. rewrite E.
    destruct (isqrt_skip_ok (N.of_nat K) n K 64%nat (4 ^ N.of_nat (K - 1))) as (j & J & b & -> & HI); [lia| |].
    - split; [lia|]. split; [lia|]. split; [lia|]. split; [right; lia|]. destruct K as [|K]; [lia|]. f_equal. f_equal. lia.
    - cbn [obind]. destruct (isqrt_loop_ok (N.of_nat K) n j 64%nat 0 n 0 b) as (r & -> & R1 & R2 & R3); [clear -J HK; lia|exact HI|].
      f_equal. pose proof (N.sqrt_le_square n r) as S1. apply S1 in R1. destruct R3 as [R3|R3].
      + apply N.sqrt_lt_square in R3. lia.
      + lia. }
  destruct Hsz as [E|[E|E]]; subst sz.
  - apply (G 1%nat); auto; lia.
  - apply (G 2%nat); auto; lia.
  - apply (G 4%nat); auto; lia.
Qed.
Print Assumptions isqrt_spec.
(** ... so it is wrong from 256 on for size_t (used by LZ78/LZW to reserve space) *)
Theorem isqrt_refuted : forall n, is64 n -> 256 <= n -> isqrt 8 n = Some 15 /\ 16 <= N.sqrt n.
Proof.
  intros n Hn H. assert (16 <= N.sqrt n) by (apply N.sqrt_le_square; lia).
  split; auto. rewrite isqrt_spec by auto. f_equal. change (2 ^ (N.of_nat 8 / 2) - 1) with 15. lia.
Qed.
Print Assumptions isqrt_refuted.

(** ** next power of two *)
Lemma smear_step x k y : (forall i, N.testbit y i = true <-> exists j, j < k /\ N.testbit x (i + j) = true) ->
  forall i, N.testbit (N.lor y (N.shiftr y k)) i = true <-> exists j, j < 2 * k /\ N.testbit x (i + j) = true.
Proof.
  intros H i. rewrite N.lor_spec, N.shiftr_spec', Bool.orb_true_iff, !H. split.
  - intros [(j & J & E)|(j & J & E)].
    + exists j. split; [lia|auto].
    + exists (k + j). split; [lia|]. rewrite <- E. f_equal. lia.
  - intros (j & J & E). destruct (N.lt_ge_cases j k).
    + left. exists j. auto.
    + right. exists (j - k). split; [lia|]. rewrite <- E. f_equal. lia.
Qed.
Lemma smear_full x y : x < 2 ^ 64 ->
  (forall i, N.testbit y i = true <-> exists j, j < 64 /\ N.testbit x (i + j) = true) ->
  y = match x with 0 => 0 | _ => 2 ^ (N.log2 x + 1) - 1 end.
Proof.
  intros Hx H. destruct (N.eq_dec x 0) as [->|Hn].
  - apply N.bits_inj. intros i. rewrite N.bits_0. destruct (N.testbit y i) eqn:E; auto.
    apply H in E. destruct E as (j & _ & E). rewrite N.bits_0 in E. discriminate.
  - replace (match x with 0 => 0 | _ => 2 ^ (N.log2 x + 1) - 1 end) with (N.ones (N.log2 x + 1)).
    2: { unfold N.ones. rewrite N.shiftl_mul_pow2. destruct x; [congruence|lia]. }
    apply N.bits_inj. intros i. destruct (N.lt_ge_cases i (N.log2 x + 1)).
    + rewrite N.ones_spec_low by auto. apply H. exists (N.log2 x - i). split.
      * assert (N.log2 x < 64) by (apply N.log2_lt_pow2; lia). lia.
      * replace (i + (N.log2 x - i)) with (N.log2 x) by lia. apply N.bit_log2; auto.
    + rewrite N.ones_spec_high by auto. destruct (N.testbit y i) eqn:E; auto. apply H in E.
      destruct E as (j & _ & E). rewrite N.bits_above_log2 in E by lia. discriminate.
Qed.
(** C39. zero_or_next_power_of_two: for 1 <= x <= 2^63 the least power of two >= x;
    0 for x = 0 and, by wrap-around, for x > 2^63. *)
Theorem next_power_of_two_spec : forall x, is64 x ->
  (1 <= x <= 2 ^ 63 -> exists k, zero_or_next_power_of_two x = 2 ^ k /\ x <= 2 ^ k /\
                                 forall k', x <= 2 ^ k' -> k <= k') /\
  (x = 0 \/ 2 ^ 63 < x -> zero_or_next_power_of_two x = 0).
Proof.
  intros x Hx. unfold is64 in Hx. unfold zero_or_next_power_of_two.
  set (y := w64 (x + (2 ^ 64 - 1))).
  assert (Hy : y = if x =? 0 then 2 ^ 64 - 1 else x - 1).
  { unfold y, w64. destruct (N.eqb_spec x 0) as [->|Hn].
    - apply N.mod_small. pose proof pow64. lia.
    - replace (x + (2 ^ 64 - 1)) with (x - 1 + 1 * 2 ^ 64) by (pose proof pow64; lia).
      rewrite N.mod_add by (pose proof pow64; lia). apply N.mod_small. lia. }
  assert (Hy64 : y < 2 ^ 64) by (rewrite Hy; pose proof pow64; destruct (x =? 0); lia).
  clearbody y.
  assert (S0 : forall i, N.testbit y i = true <-> exists j, j < 1 /\ N.testbit y (i + j) = true).
  { intros i. split.
    - intros E. exists 0. rewrite N.add_0_r. split; [lia|auto].
    - intros (j & J & E). replace (i + j) with i in E by lia. auto. }
  pose proof (smear_step y _ _ (smear_step y _ _ (smear_step y _ _ (smear_step y _ _ (smear_step y _ _ (smear_step y _ _ S0)))))) as S.
  change (2 * (2 * (2 * (2 * (2 * (2 * 1)))))) with 64 in S.
  change (2 * (2 * (2 * (2 * (2 * 1))))) with 32 in S. change (2 * (2 * (2 * (2 * 1)))) with 16 in S.
  change (2 * (2 * (2 * 1))) with 8 in S. change (2 * (2 * 1)) with 4 in S. change (2 * 1) with 2 in S.
  rewrite (smear_full y _ Hy64 S). clear S S0.
  assert (E : w64 (match y with 0 => 0 | _ => 2 ^ (N.log2 y + 1) - 1 end + 1) =
              match y with 0 => 1 | _ => w64 (2 ^ (N.log2 y + 1)) end).
  { destruct y; [reflexivity|]. f_equal. assert (2 ^ (N.log2 (N.pos p) + 1) <> 0) by (apply N.pow_nonzero; lia). lia. }
  rewrite E. clear E. split.
  - intros H. destruct (N.eqb_spec x 0) as [->|Hn]; [lia|]. destruct (N.eq_dec y 0) as [E0|E0].
    + rewrite E0. exists 0. split; [reflexivity|]. split; [change (2 ^ 0) with 1; lia|]. intros; lia.
    + assert (HL : 2 ^ N.log2 y <= y < 2 ^ N.succ (N.log2 y)) by (apply N.log2_spec; lia).
      assert (N.log2 y < 63).
      { apply N.log2_lt_pow2; [lia|]. subst y. lia. }
      exists (N.log2 y + 1). destruct y as [|p]; [congruence|]. set (y := N.pos p) in *. clearbody y.
      split; [unfold w64; apply N.mod_small; apply N.pow_lt_mono_r; lia|].
      rewrite <- N.add_1_r in HL. split; [lia|]. intros k' Hk'.
      assert (N.log2 y < k'); [|lia]. apply N.log2_lt_pow2; lia.
  - intros H. assert (E : 2 ^ 63 <= y).
    { rewrite Hy. destruct (N.eqb_spec x 0); [apply N.leb_le; reflexivity|]. destruct H as [H|H]; [congruence|lia]. }
    assert (N.log2 y = 63).
    { apply N.le_antisymm.
      - apply N.lt_succ_r. apply N.log2_lt_pow2; [|exact Hy64]. pose proof (N.pow_nonzero 2 63). lia.
      - rewrite <- (N.log2_pow2 63) by lia. apply N.log2_le_mono. auto. }
    rewrite H0. destruct y; [exfalso; pose proof (N.pow_nonzero 2 63); lia|reflexivity].
Qed.
Print Assumptions next_power_of_two_spec.
Example npot_ex : zero_or_next_power_of_two 5 = 8 /\ zero_or_next_power_of_two 8 = 8 /\
  zero_or_next_power_of_two (2 ^ 63 + 1) = 0.
Proof. repeat split. Qed.

(** C39. shift_by is multiplication by 2^amount, rounded down, in both implementations. *)
Theorem shift_by_spec : forall v a,
  (shift_by_portable v a = if a <? 0 then v / 2 ^ (- a) else v * 2 ^ a)%Z /\
  shift_by_portable v a = shift_by_arithmetic v a.
Proof.
  intros v a. assert (E : shift_by_arithmetic v a = (if a <? 0 then v / 2 ^ (- a) else v * 2 ^ a)%Z).
  { unfold shift_by_arithmetic. destruct (Z.ltb_spec a 0).
    - apply Z.shiftr_div_pow2. lia.
    - apply Z.shiftl_mul_pow2. lia. }
  rewrite <- E. enough (shift_by_portable v a = shift_by_arithmetic v a) by auto.
  unfold shift_by_portable, shift_by_arithmetic. destruct (v <? 0)%Z; auto. destruct (Z.ltb_spec a 0).
  - rewrite <- Z.lnot_shiftr by lia. rewrite Z.lnot_involutive. reflexivity.
  - rewrite !Z.shiftl_mul_pow2 by lia. lia.
Qed.
Print Assumptions shift_by_spec.

(** ** Generators *)
Local Open Scope nat_scope.
Lemma fib_loop_ok k : forall n vold old, fib_word n vold -> fib_word (S n) old -> fib_word (S n + k) (fib_loop k vold old).
Proof.
  induction k as [|k IH]; intros n vold old H1 H2; cbn [fib_loop].
  - rewrite Nat.add_0_r. auto.
  - replace (S n + S k) with (S (S n) + k) by lia. apply IH; auto. constructor; auto.
Qed.
(** C37. The Fibonacci generator returns the n-th Fibonacci word for n >= 1 (and "a" for 0). *)
Theorem fibonacci_spec : forall n, 1 <= n -> fib_word n (fib_generate n).
Proof.
  intros [|[|[|n]]] H; [lia|constructor|constructor|]. unfold fib_generate.
  replace (S (S (S n)) - 2) with (S n) by lia. change (S (S (S n))) with (2 + S n). apply fib_loop_ok; constructor.
Qed.
Print Assumptions fibonacci_spec.
Lemma fib_word_det n u : fib_word n u -> forall v, fib_word n v -> u = v.
Proof.
  induction 1 as [| |n u v H1 IH1 H2 IH2]; intros w Hw; inversion Hw as [| |? u' v' K1 K2]; subst; auto.
  - inversion K2.
  - inversion H2.
  - f_equal; auto.
Qed.
(** the specification determines the word, and its length is the Fibonacci number *)
Theorem fibonacci_unique : forall n, 1 <= n -> forall w, fib_word n w -> w = fib_generate n.
Proof. intros n Hn w Hw. eapply fib_word_det; eauto. apply fibonacci_spec; auto. Qed.
Print Assumptions fibonacci_unique.

Lemma odd_ones_2 i : odd_ones (2 * i) = odd_ones i.
Proof. unfold odd_ones. rewrite Nat2N.inj_mul. change (N.of_nat 2) with 2%N. destruct (N.of_nat i); reflexivity. Qed.
Lemma odd_ones_2p1 i : odd_ones (2 * i + 1) = negb (odd_ones i).
Proof.
  unfold odd_ones. rewrite Nat2N.inj_add, Nat2N.inj_mul. change (N.of_nat 2) with 2%N. change (N.of_nat 1) with 1%N.
  destruct (N.of_nat i); reflexivity.
Qed.
Lemma odd_ones_add j : forall i, i < 2 ^ j -> odd_ones (2 ^ j + i) = negb (odd_ones i).
Proof.
  induction j as [|j IH]; intros i Hi.
  - cbn in Hi. replace i with 0 by lia. reflexivity.
  - rewrite Nat.pow_succ_r' in *. pose proof (Nat.div_mod i 2 ltac:(lia)) as D. pose proof (Nat.mod_upper_bound i 2 ltac:(lia)).
    assert (Hq : i / 2 < 2 ^ j) by (apply Nat.div_lt_upper_bound; lia).
    set (q := i / 2) in *. clearbody q. destruct (Nat.eq_dec (i mod 2) 0) as [E|E].
    + assert (Ei : i = 2 * q) by lia. replace (2 * 2 ^ j + i) with (2 * (2 ^ j + q)) by lia. rewrite Ei.
      rewrite !odd_ones_2. apply IH; auto.
    + assert (Ei : i = 2 * q + 1) by lia. replace (2 * 2 ^ j + i) with (2 * (2 ^ j + q) + 1) by lia. rewrite Ei.
      rewrite !odd_ones_2p1. f_equal. apply IH; auto.
Qed.
Lemma seq_shift_map b n : seq b n = map (fun i => b + i) (seq 0 n).
Proof.
  induction n as [|n IH]; [reflexivity|]. rewrite !seq_S, map_app, IH. cbn [map]. rewrite Nat.add_0_l. reflexivity.
Qed.
Lemma tm_loop_ok k : forall j, tm_loop k (thue_morse (2 ^ j)) = thue_morse (2 ^ (j + k)).
Proof.
  induction k as [|k IH]; intros j; cbn [tm_loop].
  - rewrite Nat.add_0_r. reflexivity.
  - replace (j + S k) with (S j + k) by lia. rewrite <- IH. f_equal.
    unfold thue_morse. rewrite Nat.pow_succ_r'. replace (2 * 2 ^ j) with (2 ^ j + 2 ^ j) by lia. rewrite seq_app, map_app. f_equal.
    rewrite Nat.add_0_l, (seq_shift_map (2 ^ j)), !map_map. apply map_ext_in. intros i Hi. apply in_seq in Hi.
    rewrite odd_ones_add by lia. destruct (odd_ones i); reflexivity.
Qed.
(** C37. The Thue-Morse generator returns a prefix of the Thue-Morse sequence, but of length
    2^(n-1) for n >= 1, not 2^n as documented; n >= 64 is rejected. *)
Theorem thue_morse_spec : forall n, tm_generate n =
  if 64 <=? n then None else Some (thue_morse (2 ^ (n - 1))).
Proof.
  intros n. unfold tm_generate. destruct (64 <=? n); auto. destruct n as [|n]; [reflexivity|].
  f_equal. change [48%N] with (thue_morse (2 ^ 0)). rewrite tm_loop_ok. reflexivity.
Qed.
Print Assumptions thue_morse_spec.
Theorem thue_morse_length_refuted : forall n w, 1 <= n -> tm_generate n = Some w ->
  length w = 2 ^ (n - 1) /\ length w <> 2 ^ n.
Proof.
  intros n w Hn. rewrite thue_morse_spec. destruct (64 <=? n); [discriminate|]. intros E. apply Some_inj in E. subst w.
  unfold thue_morse. rewrite map_length, seq_length. split; auto.
  replace n with (S (n - 1)) at 2 by lia. cbn [Nat.pow]. pose proof (Nat.pow_nonzero 2 (n - 1)). lia.
Qed.
Print Assumptions thue_morse_length_refuted.

Lemma rr_loop_ok k : forall i t0 t1 t2 t3, 4 <= i ->
  run_rich rr0 rr1 rr2 (i - 4) t0 -> run_rich rr0 rr1 rr2 (i - 3) t1 ->
  run_rich rr0 rr1 rr2 (i - 2) t2 -> run_rich rr0 rr1 rr2 (i - 1) t3 ->
  run_rich rr0 rr1 rr2 (i - 1 + k) (rr_loop k i t0 t1 t2 t3).
Proof.
  induction k as [|k IH]; intros i t0 t1 t2 t3 Hi H0 H1 H2 H3; cbn [rr_loop].
  - rewrite Nat.add_0_r. auto.
  - replace (i - 1 + S k) with (i + 1 - 1 + k) by lia. apply IH; try lia.
    + replace (i + 1 - 4) with (i - 3) by lia. auto.
    + replace (i + 1 - 3) with (i - 2) by lia. auto.
    + replace (i + 1 - 2) with (i - 1) by lia. auto.
    + replace (i + 1 - 1) with i by lia. destruct (Nat.eqb_spec (i mod 3) 0); [apply rr_k0|apply rr_k1]; auto.
Qed.
(** C37. The run-rich generator returns t(n) for n <= 3 but t(n-1) for n >= 4. *)
Theorem run_rich_spec : forall n, run_rich rr0 rr1 rr2 (if 4 <=? n then n - 1 else n) (rr_generate n).
Proof.
  intros [|[|[|[|n]]]]; [constructor|constructor|constructor|apply rr_3|].
  change (4 <=? S (S (S (S n)))) with true. cbv iota. unfold rr_generate.
  replace (S (S (S (S n))) - 4) with n by lia. replace (S (S (S (S n))) - 1) with (4 - 1 + n) by lia.
  apply rr_loop_ok; [lia|constructor..].
Qed.
Print Assumptions run_rich_spec.
Theorem run_rich_repeats_refuted : rr_generate 3 = rr_generate 4.
Proof. reflexivity. Qed.
Print Assumptions run_rich_repeats_refuted.
Example gen_ex : fib_generate 5 = [97;98;97;97;98]%N /\ tm_generate 4 = Some [48;49;49;48;49;48;48;49]%N /\
  length (rr_generate 6) = 68.
Proof. repeat split. Qed.
