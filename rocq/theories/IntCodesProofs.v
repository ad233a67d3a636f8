From Verif Require Import Base BitIO BitIOProofs IntCodes.
Local Open Scope N_scope.

Lemma pow64 : 2 ^ 64 = 18446744073709551616. Proof. reflexivity. Qed.

Lemma w64_small x : x < 2 ^ 64 -> w64 x = x.
Proof. intros; unfold w64; apply N.mod_small; auto. Qed.
Lemma w64_lt x : w64 x < 2 ^ 64.
Proof. unfold w64; apply N.mod_lt; discriminate. Qed.
Lemma w64_add_l x y : w64 (w64 x + y) = w64 (x + y).
Proof. unfold w64. rewrite N.add_mod_idemp_l; auto; discriminate. Qed.
Lemma w64_add_r x y : w64 (x + w64 y) = w64 (x + y).
Proof. unfold w64. rewrite N.add_mod_idemp_r; auto; discriminate. Qed.
Lemma w64_mul_l x y : w64 (w64 x * y) = w64 (x * y).
Proof. unfold w64. rewrite N.mul_mod_idemp_l; auto; discriminate. Qed.
Lemma w64_mul_r x y : w64 (x * w64 y) = w64 (x * y).
Proof. unfold w64. rewrite N.mul_mod_idemp_r; auto; discriminate. Qed.

Lemma w64_sub a b : b <= a -> a < 2 ^ 64 -> w64 (a + 2 ^ 64 - b) = a - b.
Proof.
  intros H1 H2. unfold w64. replace (a + 2 ^ 64 - b) with ((a - b) + 1 * 2 ^ 64) by lia.
  rewrite N.mod_add by discriminate. apply N.mod_small. lia.
Qed.

Lemma lor_even_b2n y b : N.lor (2 * y) (N.b2n b) = 2 * y + N.b2n b.
Proof. destruct b, y; reflexivity. Qed.

Lemma step_value x b : N.lor (w64 (N.shiftl x 1)) (N.b2n b) = w64 (2 * x + N.b2n b).
Proof.
  rewrite N.shiftl_mul_pow2. change (2 ^ 1) with 2. unfold w64. rewrite pow64.
  replace (x * 2 mod 18446744073709551616) with (2 * (x mod 9223372036854775808)) by lia.
  rewrite lor_even_b2n. destruct b; cbn [N.b2n]; lia.
Qed.

Lemma mod_pow_succ v n :
  v mod 2 ^ N.of_nat (S n) = N.b2n (N.testbit v (N.of_nat n)) * 2 ^ N.of_nat n + v mod 2 ^ N.of_nat n.
Proof.
  rewrite Nat2N.inj_succ, N.pow_succ_r'. rewrite (N.mul_comm 2).
  assert (H : 2 ^ N.of_nat n <> 0) by (apply N.pow_nonzero; discriminate).
  rewrite N.mod_mul_r by (auto; discriminate).
  rewrite <- N.testbit_spec'. rewrite N.mul_comm. apply N.add_comm.
Qed.

Lemma rd_int_loop_ok v n : forall acc rest, acc < 2 ^ 64 ->
  rd_int_loop lrb n acc (write_int v n ++ rest)
  = (w64 (acc * 2 ^ N.of_nat n + v mod 2 ^ N.of_nat n), rest).
Proof.
  induction n as [|n IH]; intros acc rest H.
  - cbn [write_int app rd_int_loop]. rewrite N.mod_1_r, N.mul_1_r, N.add_0_r, w64_small; auto.
  - cbn [write_int app rd_int_loop lrb]. rewrite step_value.
    rewrite IH by apply w64_lt. f_equal.
    rewrite <- w64_add_l, w64_mul_l, w64_add_l, mod_pow_succ. f_equal.
    rewrite Nat2N.inj_succ, N.pow_succ_r'. lia.
Qed.

Lemma mod_pow_lt64 v n : (n <= 64)%nat -> v mod 2 ^ N.of_nat n < 2 ^ 64.
Proof.
  intros H. apply N.lt_le_trans with (2 ^ N.of_nat n).
  - apply N.mod_lt, N.pow_nonzero; discriminate.
  - apply N.pow_le_mono_r; [discriminate|lia].
Qed.

Lemma rd_int_ok v n rest : (n <= 64)%nat ->
  rd_int lrb n (write_int v n ++ rest) = (v mod 2 ^ N.of_nat n, rest).
Proof.
  intros H. unfold rd_int. rewrite rd_int_loop_ok by reflexivity.
  rewrite N.mul_0_l, N.add_0_l, w64_small; auto using mod_pow_lt64.
Qed.

(** ** bits_for *)
Lemma size_pos_gt p : N.pos p < 2 ^ N.pos (Pos.size p).
Proof. apply (N.size_gt (N.pos p)). Qed.

Lemma bits_for_bound n : n < 2 ^ bits_for n.
Proof.
  unfold bits_for, bits_hi. destruct (N.eqb_spec n 0) as [->|H]; [reflexivity|].
  apply N.size_gt.
Qed.

Lemma bits_for_le64 n : n < 2 ^ 64 -> bits_for n <= 64.
Proof.
  intros H. unfold bits_for, bits_hi. destruct (N.eqb_spec n 0) as [->|Hn]; [discriminate|].
  rewrite N.size_log2 by auto.
  assert (N.log2 n < 64) by (apply N.log2_lt_pow2; lia). lia.
Qed.

Lemma bits_for_min n w : 1 <= w -> n < 2 ^ w -> bits_for n <= w.
Proof.
  intros Hw H. unfold bits_for, bits_hi. destruct (N.eqb_spec n 0) as [->|Hn]; [lia|].
  rewrite N.size_log2 by auto.
  assert (N.log2 n < w) by (apply N.log2_lt_pow2; lia). lia.
Qed.

Lemma bits_for_pos n : 1 <= bits_for n.
Proof.
  unfold bits_for, bits_hi. destruct (N.eqb_spec n 0); [lia|].
  rewrite N.size_log2 by auto. lia.
Qed.

Lemma bits_for_mono a b : a <= b -> bits_for a <= bits_for b.
Proof.
  intros H. apply bits_for_min; [apply bits_for_pos|].
  pose proof (bits_for_bound b); lia.
Qed.

Lemma rd_int_bits_for v rest : v < 2 ^ 64 ->
  rd_int lrb (bits_forn v) (write_int v (bits_forn v) ++ rest) = (v, rest).
Proof.
  intros H. pose proof (bits_for_le64 v H). rewrite rd_int_ok by (unfold bits_forn; lia).
  f_equal. unfold bits_forn. rewrite N2Nat.id. apply N.mod_small, bits_for_bound.
Qed.

(** ** unary *)
Lemma rd_unary_loop_ok v : forall fuel acc rest, acc + N.of_nat v < 2 ^ 64 -> (v < fuel)%nat ->
  rd_unary_loop lrb fuel acc ((repeat false v ++ [true]) ++ rest) = Some (acc + N.of_nat v, rest).
Proof.
  induction v as [|v IH]; intros fuel acc rest Ha Hf; destruct fuel as [|fuel]; try lia.
  - cbn. rewrite N.add_0_r; reflexivity.
  - cbn [repeat app rd_unary_loop lrb]. rewrite w64_small by lia.
    rewrite IH by lia. do 2 f_equal. lia.
Qed.

Lemma rd_unary_ok v fuel rest : v < 2 ^ 64 -> (N.to_nat v < fuel)%nat ->
  rd_unary lrb fuel (write_unary v ++ rest) = Some (v, rest).
Proof.
  intros H Hf. unfold rd_unary, write_unary. rewrite rd_unary_loop_ok by lia.
  do 2 f_equal. lia.
Qed.

(** read_unary never returns on an exhausted stream *)
Lemma rd_unary_diverges fuel : forall v, rd_unary_loop lrb fuel v [] = None.
Proof. induction fuel; intros; cbn; auto. Qed.

(** ** gamma, delta *)
Lemma rd_gamma_ok v fuel rest : v < 2 ^ 64 -> (64 < fuel)%nat ->
  rd_gamma lrb fuel (write_gamma v ++ rest) = Some (v, rest).
Proof.
  intros H Hf. unfold rd_gamma, write_gamma. rewrite <- app_assoc.
  pose proof (bits_for_le64 v H).
  rewrite rd_unary_ok; [|rewrite pow64; lia|lia].
  f_equal. apply rd_int_bits_for; auto.
Qed.

Lemma rd_delta_ok v fuel rest : v < 2 ^ 64 -> (64 < fuel)%nat ->
  rd_delta lrb fuel (write_delta v ++ rest) = Some (v, rest).
Proof.
  intros H Hf. unfold rd_delta, write_delta. rewrite <- app_assoc.
  pose proof (bits_for_le64 v H).
  rewrite rd_gamma_ok; auto; [|rewrite pow64; lia].
  f_equal. apply rd_int_bits_for; auto.
Qed.

(** ** ternary *)
Lemma size_nat_gt v : v < 2 ^ N.of_nat (N.size_nat v).
Proof.
  destruct v as [|p]; [reflexivity|]. cbn [N.size_nat].
  pose proof (size_pos_gt p) as H.
  replace (N.of_nat (Pos.size_nat p)) with (N.pos (Pos.size p)); auto.
  clear. induction p; cbn [Pos.size Pos.size_nat]; try reflexivity;
    rewrite Nat2N.inj_succ, <- IHp; reflexivity.
Qed.

Lemma ternary_read_write fuel : forall x l v b rest fuel',
  write_ternary_loop fuel x = Some l -> (length l < fuel')%nat ->
  exists md l', l = write_int md 2 ++ l' /\ md < 3 /\
   rd_ternary_loop lrb fuel' v b md (l' ++ write_int 3 2 ++ rest) = Some (w64 (v + b * x), rest).
Proof.
  induction fuel as [|fuel IH]; intros x l v b rest fuel' Hw Hl; [discriminate|].
  cbn [write_ternary_loop] in Hw.
  assert (Hm : x mod 3 < 3) by (apply N.mod_lt; discriminate).
  destruct (N.eqb_spec (x / 3) 0) as [E|E].
  - apply Some_inj in Hw; subst l. exists (x mod 3), []. rewrite app_nil_r. repeat split; auto.
    destruct fuel' as [|fuel']; [cbn in Hl; lia|]. cbn [rd_ternary_loop app].
    rewrite (rd_int_ok 3 2) by lia. change (3 mod 2 ^ N.of_nat 2) with 3. rewrite N.eqb_refl.
    do 3 f_equal. replace x with (x mod 3) at 2 by lia. lia.
  - destruct (write_ternary_loop fuel (x / 3)) as [r|] eqn:Er; [|discriminate].
    apply Some_inj in Hw; subst l. exists (x mod 3), r. repeat split; auto.
    destruct fuel' as [|fuel']; [cbn in Hl; lia|]. cbn [rd_ternary_loop].
    rewrite app_length in Hl. cbn [length write_int] in Hl.
    destruct (IH (x / 3) r (w64 (v + x mod 3 * b)) (w64 (b * 3)) rest fuel' Er ltac:(lia))
      as (md & l' & -> & Hmd & IHr).
    rewrite <- app_assoc. rewrite rd_int_ok by lia.
    change (2 ^ N.of_nat 2) with 4. rewrite (N.mod_small md 4) by lia.
    destruct (N.eqb_spec md 3); [lia|]. rewrite IHr. do 2 f_equal.
    rewrite w64_add_l. rewrite <- w64_add_r, w64_mul_l, w64_add_r. f_equal.
    replace x with (3 * (x / 3) + x mod 3) at 3 by lia. lia.
Qed.

Lemma write_ternary_loop_some fuel : forall x, x < 2 ^ N.of_nat fuel ->
  exists l, write_ternary_loop (S fuel) x = Some l /\ (length l <= 2 * S fuel)%nat.
Proof.
  induction fuel as [|fuel IH]; intros x H.
  - change (2 ^ N.of_nat 0) with 1 in H. replace x with 0 by lia. vm_compute. eauto.
  - change (write_ternary_loop (S (S fuel)) x) with
     (if x / 3 =? 0 then Some (write_int (x mod 3) 2) else
      match write_ternary_loop (S fuel) (x / 3) with
      | Some r => Some (write_int (x mod 3) 2 ++ r) | None => None end).
    destruct (x / 3 =? 0).
    + eexists; split; [reflexivity|]. cbn [write_int length]. lia.
    + destruct (IH (x / 3)) as (l & -> & Hl).
      { rewrite Nat2N.inj_succ, N.pow_succ_r' in H.
        set (P := 2 ^ N.of_nat fuel) in *. clearbody P. lia. }
      eexists; split; [reflexivity|]. rewrite app_length; cbn [write_int length]. lia.
Qed.

Lemma size_nat_le v n : v < 2 ^ N.of_nat n -> (N.size_nat v <= n)%nat.
Proof.
  intros H. destruct v as [|p]; cbn [N.size_nat]; [lia|].
  destruct (le_lt_dec (Pos.size_nat p) n) as [|Hn]; auto. exfalso.
  assert (Hs : N.of_nat (Pos.size_nat p) = N.size (N.pos p)).
  { clear. cbn. induction p; cbn [Pos.size Pos.size_nat]; try reflexivity;
    rewrite Nat2N.inj_succ, IHp; reflexivity. }
  pose proof (N.size_le (N.pos p)) as Hle.
  assert (2 ^ N.size (N.pos p) <= 2 * N.pos p).
  { rewrite N.size_log2 by discriminate. rewrite N.pow_succ_r'.
    pose proof (N.log2_spec (N.pos p)). lia. }
  rewrite <- Hs in H0.
  assert (2 ^ N.succ (N.of_nat n) <= 2 ^ N.of_nat (Pos.size_nat p)).
  { apply N.pow_le_mono_r; [discriminate|lia]. }
  rewrite N.pow_succ_r' in H1. lia.
Qed.

Lemma rd_ternary_ok v rest : v < 2 ^ 64 ->
  exists l, write_ternary v = Some l /\
    forall fuel, (length l < fuel)%nat -> rd_ternary lrb fuel (l ++ rest) = Some (v, rest).
Proof.
  intros H. unfold write_ternary. destruct (N.eqb_spec v 0) as [->|Hv].
  - eexists; split; [reflexivity|]. intros fuel _. reflexivity.
  - destruct (write_ternary_loop_some (N.size_nat (v - 1)) (v - 1) (size_nat_gt _)) as (l & Hw & Hlen).
    rewrite Hw. eexists; split; [reflexivity|]. intros fuel Hf.
    rewrite app_length in Hf. cbn [length write_int] in Hf.
    destruct (ternary_read_write _ _ _ 0 1 rest fuel Hw ltac:(lia)) as (md & l' & -> & Hmd & Hr).
    unfold rd_ternary. rewrite <- !app_assoc. rewrite rd_int_ok by lia.
    change (2 ^ N.of_nat 2) with 4. rewrite (N.mod_small md 4) by lia.
    destruct (N.ltb_spec md 3); [|lia].
    change (@app bool (write_int 3 2) rest) with (write_int 3 2 ++ rest) in Hr.
    rewrite Hr. do 2 f_equal. rewrite w64_add_l, w64_small; lia.
Qed.

Lemma write_ternary_len v l : v < 2 ^ 64 -> write_ternary v = Some l -> (length l <= 132)%nat.
Proof.
  intros H. unfold write_ternary. destruct (N.eqb_spec v 0) as [->|Hv].
  - intros E; apply Some_inj in E; subst l. cbn; lia.
  - destruct (write_ternary_loop_some (N.size_nat (v - 1)) (v - 1) (size_nat_gt _)) as (l' & Hw & Hlen).
    rewrite Hw. intros E; apply Some_inj in E; subst l. rewrite app_length; cbn [write_int length].
    assert (N.size_nat (v - 1) <= 64)%nat by (apply size_nat_le; change (2 ^ N.of_nat 64) with (2 ^ 64); lia).
    lia.
Qed.

(** ** compressed_int *)
Lemma land_mask_low v m b : m mod 2 ^ b = 2 ^ b - 1 -> N.land v m mod 2 ^ b = v mod 2 ^ b.
Proof.
  intros H. rewrite <- !N.land_ones. rewrite <- N.land_assoc.
  rewrite (N.land_ones m), H. rewrite <- N.sub_1_r || idtac.
  replace (2 ^ b - 1) with (N.ones b); [reflexivity|].
  rewrite N.ones_equiv. lia.
Qed.

Lemma mask_low v b : (0 < b < 64)%nat ->
  w64 (w64 (N.shiftl v (N.of_nat b)) + (2 ^ 64 - 1)) mod 2 ^ N.of_nat b = 2 ^ N.of_nat b - 1.
Proof.
  intros Hb. rewrite N.shiftl_mul_pow2, w64_add_l. unfold w64.
  assert (HP : 2 ^ 64 = 2 ^ N.of_nat b * 2 ^ (64 - N.of_nat b)).
  { rewrite <- N.pow_add_r. f_equal. lia. }
  assert (Hnz : 2 ^ N.of_nat b <> 0) by (apply N.pow_nonzero; discriminate).
  assert (Hnz' : 2 ^ (64 - N.of_nat b) <> 0) by (apply N.pow_nonzero; discriminate).
  rewrite HP. rewrite N.mod_mul_r by auto.
  set (P := 2 ^ N.of_nat b) in *. set (Q := 2 ^ (64 - N.of_nat b)) in *.
  replace (v * P + (P * Q - 1)) with ((P - 1) + (v + (Q - 1)) * P) by nia.
  rewrite (N.mul_comm P). rewrite N.mod_add by auto.
  rewrite N.mod_add by auto. rewrite N.mod_mod by auto. apply N.mod_small. lia.
Qed.

Lemma write_int_mod v n : write_int v n = write_int (v mod 2 ^ N.of_nat n) n.
Proof.
  assert (G : forall k, (k <= n)%nat -> write_int v k = write_int (v mod 2 ^ N.of_nat n) k).
  { induction k as [|k IH]; intros Hk; [reflexivity|]. cbn [write_int].
    rewrite IH by lia. f_equal. rewrite N.mod_pow2_bits_low; auto; lia. }
  apply G; auto.
Qed.

Lemma write_int_length v n : length (write_int v n) = n.
Proof. induction n; cbn; auto. Qed.

Lemma lor_disjoint_add x y k : x < 2 ^ k -> N.lor x (y * 2 ^ k) = x + y * 2 ^ k.
Proof.
  intros H. rewrite <- N.lxor_lor.
  - symmetry. apply N.add_nocarry_lxor.
    apply N.bits_inj_0. intros n. rewrite N.land_spec, <- N.shiftl_mul_pow2.
    destruct (N.lt_ge_cases n k) as [Hn|Hn].
    + rewrite (N.shiftl_spec_low _ _ _ Hn). apply andb_false_r.
    + destruct (N.eq_dec x 0) as [->|Hx]; [rewrite N.bits_0; reflexivity|].
      rewrite (N.bits_above_log2 x n); [reflexivity|].
      assert (N.log2 x < k) by (apply N.log2_lt_pow2; lia). lia.
  - apply N.bits_inj_0. intros n. rewrite N.land_spec, <- N.shiftl_mul_pow2.
    destruct (N.lt_ge_cases n k) as [Hn|Hn].
    + rewrite (N.shiftl_spec_low _ _ _ Hn). apply andb_false_r.
    + destruct (N.eq_dec x 0) as [->|Hx]; [rewrite N.bits_0; reflexivity|].
      rewrite (N.bits_above_log2 x n); [reflexivity|].
      assert (N.log2 x < k) by (apply N.log2_lt_pow2; lia). lia.
Qed.

Lemma cint_read_write fuel : forall x mask b l i acc rest fuel',
  (0 < b < 64)%nat -> mask mod 2 ^ N.of_nat b = 2 ^ N.of_nat b - 1 ->
  write_cint_loop fuel mask x b = Some l ->
  acc < 2 ^ N.of_nat (b * i) -> acc + x * 2 ^ N.of_nat (b * i) < 2 ^ 64 ->
  (x <> 0 \/ i = 0%nat) ->
  (length l <= fuel')%nat ->
  rd_cint_loop lrb fuel' b i acc (l ++ rest) = Some (acc + x * 2 ^ N.of_nat (b * i), rest).
Proof.
  induction fuel as [|fuel IH]; intros x mask b l i acc rest fuel' Hb Hm Hw Ha Hx Hxi Hf; [discriminate|].
  cbn [write_cint_loop] in Hw.
  set (P := 2 ^ N.of_nat b) in *.
  assert (HP : P <> 0) by (apply N.pow_nonzero; discriminate).
  rewrite N.shiftr_div_pow2 in Hw. fold P in Hw.
  set (D := 2 ^ N.of_nat (b * i)) in *.
  assert (HD : D <> 0) by (apply N.pow_nonzero; discriminate).
  assert (Hbi : (b * i < 64)%nat).
  { destruct Hxi as [Hxn|Hi]; [|lia].
    destruct (le_lt_dec 64 (b * i)) as [Hge|]; auto. exfalso.
    assert (2 ^ 64 <= D) by (apply N.pow_le_mono_r; [discriminate|lia]). nia. }
  assert (Hcur : write_int (N.land x mask) b = write_int x b).
  { rewrite write_int_mod. rewrite land_mask_low by exact Hm. rewrite <- write_int_mod. reflexivity. }
  rewrite Hcur in Hw.
  assert (Hxm : x = P * (x / P) + x mod P) by (apply N.div_mod; auto).
  assert (Hmp : x mod P < P) by (apply N.mod_lt; auto).
  assert (Hval : N.lor acc (w64 (N.shiftl (x mod P) (N.of_nat (b * i)))) = acc + (x mod P) * D).
  { rewrite N.shiftl_mul_pow2. fold D. rewrite w64_small.
    - apply lor_disjoint_add; exact Ha.
    - apply N.le_lt_trans with (acc + x * D); [|exact Hx]. pose proof (N.mod_le x P HP). nia. }
  destruct (N.ltb_spec 0 (x / P)) as [Hq|Hq].
  - destruct (write_cint_loop fuel mask (x / P) b) as [r|] eqn:Er; [|discriminate].
    apply Some_inj in Hw; subst l. rewrite app_length in Hf; cbn [length] in Hf.
    destruct fuel' as [|fuel']; [lia|].
    cbn [rd_cint_loop app lrb]. rewrite <- app_assoc, rd_int_ok by lia. fold P.
    destruct (Nat.leb_spec 64 (b * i)); [lia|]. rewrite Hval.
    assert (HD' : 2 ^ N.of_nat (b * (i + 1)) = D * P).
    { unfold D, P. rewrite <- N.pow_add_r. f_equal. lia. }
    rewrite (IH (x / P) mask b r (i + 1)%nat (acc + x mod P * D) rest fuel'); auto; try lia;
      rewrite ?HD'.
    + do 2 f_equal. rewrite Hxm at 3. lia.
    + nia.
    + replace (acc + x mod P * D + x / P * (D * P)) with (acc + x * D); auto. rewrite Hxm at 1. lia.
  - apply Some_inj in Hw; subst l. cbn [length] in Hf. destruct fuel' as [|fuel']; [lia|].
    cbn [rd_cint_loop app lrb]. rewrite rd_int_ok by lia. fold P.
    destruct (Nat.leb_spec 64 (b * i)); [lia|]. rewrite Hval.
    do 2 f_equal. rewrite Hxm at 2. apply N.le_0_r in Hq. rewrite Hq. lia.
Qed.

Lemma write_cint_loop_some fuel : forall mask x b, (0 < b)%nat -> x < 2 ^ N.of_nat fuel ->
  exists l, write_cint_loop (S fuel) mask x b = Some l /\ (length l <= (S b) * S fuel)%nat.
Proof.
  induction fuel as [|fuel IH]; intros mask x b Hb H.
  - change (2 ^ N.of_nat 0) with 1 in H. replace x with 0 by lia.
    cbn [write_cint_loop]. rewrite N.shiftr_0_l. cbn [N.ltb N.compare].
    change (0 <? 0) with false. eexists; split; [reflexivity|]. cbn [length].
    rewrite write_int_length. lia.
  - change (write_cint_loop (S (S fuel)) mask x b) with
     (if 0 <? N.shiftr x (N.of_nat b) then
      match write_cint_loop (S fuel) mask (N.shiftr x (N.of_nat b)) b with
      | Some r => Some ((true :: write_int (N.land x mask) b) ++ r) | None => None end
      else Some (false :: write_int (N.land x mask) b)).
    destruct (0 <? N.shiftr x (N.of_nat b)).
    + destruct (IH mask (N.shiftr x (N.of_nat b)) b Hb) as (l & -> & Hl).
      { rewrite N.shiftr_div_pow2. rewrite Nat2N.inj_succ, N.pow_succ_r' in H.
        apply N.div_lt_upper_bound; [apply N.pow_nonzero; discriminate|].
        assert (2 ^ 1 <= 2 ^ N.of_nat b) by (apply N.pow_le_mono_r; [discriminate|lia]).
        change (2 ^ 1) with 2 in *. nia. }
      eexists; split; [reflexivity|]. rewrite app_length; cbn [length]. rewrite write_int_length. lia.
    + eexists; split; [reflexivity|]. cbn [length]. rewrite write_int_length. lia.
Qed.

Lemma rd_cint_ok v b rest : v < 2 ^ 64 -> (0 < b < 64)%nat ->
  exists l, write_cint v b = Some l /\
    forall fuel, (length l <= fuel)%nat -> rd_cint lrb fuel b (l ++ rest) = Some (v, rest).
Proof.
  intros H Hb. unfold write_cint. destruct (Nat.ltb_spec b 64); [|lia].
  set (mask := w64 _).
  destruct (write_cint_loop_some (N.size_nat v) mask v b ltac:(lia) (size_nat_gt v)) as (l & Hw & Hl).
  rewrite Hw. exists l; split; auto. intros fuel Hf. unfold rd_cint.
  rewrite (cint_read_write (S (N.size_nat v)) v mask b l 0%nat 0 rest fuel); auto.
  - rewrite Nat.mul_0_r. change (2 ^ N.of_nat 0) with 1. do 2 f_equal. lia.
  - apply mask_low; auto.
  - rewrite Nat.mul_0_r. reflexivity.
  - rewrite Nat.mul_0_r. change (2 ^ N.of_nat 0) with 1. lia.
Qed.

(** ** Simulation between two streams *)
Section Sim.
  Context {S1 S2 : Type} (rb1 : S1 -> bool * S1) (rb2 : S2 -> bool * S2) (R : S1 -> S2 -> Prop).
  Hypothesis rb_sim : forall s l, R s l -> fst (rb1 s) = fst (rb2 l) /\ R (snd (rb1 s)) (snd (rb2 l)).

  Definition psim {A} (x : A * S1) (y : A * S2) : Prop := fst x = fst y /\ R (snd x) (snd y).
  Definition osim {A} (x : option (A * S1)) (y : option (A * S2)) : Prop :=
    match x, y with
    | None, None => True
    | Some x, Some y => psim x y
    | _, _ => False
    end.

  Lemma rd_int_loop_sim n : forall v s l, R s l -> psim (rd_int_loop rb1 n v s) (rd_int_loop rb2 n v l).
  Proof.
    induction n as [|n IH]; intros v s l H; cbn [rd_int_loop]; [split; auto|].
    destruct (rb_sim s l H) as [H1 H2]. destruct (rb1 s), (rb2 l); cbn in *; subst. apply IH; auto.
  Qed.
  Lemma rd_int_sim n s l : R s l -> psim (rd_int rb1 n s) (rd_int rb2 n l).
  Proof. apply rd_int_loop_sim. Qed.
  Lemma rd_unary_sim fuel : forall v s l, R s l -> osim (rd_unary_loop rb1 fuel v s) (rd_unary_loop rb2 fuel v l).
  Proof.
    induction fuel as [|fuel IH]; intros v s l H; cbn [rd_unary_loop]; [exact I|].
    destruct (rb_sim s l H) as [H1 H2]. destruct (rb1 s) as [b1 ?], (rb2 l) as [b2 ?]; cbn in *; subst.
    destruct b2; [split; auto|apply IH; auto].
  Qed.
  Lemma rd_ternary_loop_sim fuel : forall v b md s l, R s l ->
    osim (rd_ternary_loop rb1 fuel v b md s) (rd_ternary_loop rb2 fuel v b md l).
  Proof.
    induction fuel as [|fuel IH]; intros v b md s l H; cbn [rd_ternary_loop]; [exact I|].
    destruct (rd_int_sim 2 s l H) as [H1 H2].
    destruct (rd_int rb1 2 s) as [x1 ?], (rd_int rb2 2 l) as [x2 ?]; cbn in *; subst.
    destruct (x2 =? 3); [split; auto|apply IH; auto].
  Qed.
  Lemma rd_ternary_sim fuel s l : R s l -> osim (rd_ternary rb1 fuel s) (rd_ternary rb2 fuel l).
  Proof.
    intros H. unfold rd_ternary. destruct (rd_int_sim 2 s l H) as [H1 H2].
    destruct (rd_int rb1 2 s) as [x1 s1], (rd_int rb2 2 l) as [x2 l1]; cbn in H1, H2; subst.
    destruct (x2 <? 3); [|split; auto].
    pose proof (rd_ternary_loop_sim fuel 0 1 x2 s1 l1 H2) as G.
    destruct (rd_ternary_loop rb1 fuel 0 1 x2 s1) as [[? ?]|],
             (rd_ternary_loop rb2 fuel 0 1 x2 l1) as [[? ?]|]; cbn in *; try contradiction; auto.
    destruct G as [G1 G2]; cbn in *; subst. split; auto.
  Qed.
  Lemma rd_gamma_sim fuel s l : R s l -> osim (rd_gamma rb1 fuel s) (rd_gamma rb2 fuel l).
  Proof.
    intros H. unfold rd_gamma, rd_unary. pose proof (rd_unary_sim fuel 0 s l H) as G.
    destruct (rd_unary_loop rb1 fuel 0 s) as [[? ?]|],
             (rd_unary_loop rb2 fuel 0 l) as [[? ?]|]; cbn in *; try contradiction; auto.
    destruct G as [G1 G2]; cbn in *; subst. apply rd_int_sim; auto.
  Qed.
  Lemma rd_delta_sim fuel s l : R s l -> osim (rd_delta rb1 fuel s) (rd_delta rb2 fuel l).
  Proof.
    intros H. unfold rd_delta. pose proof (rd_gamma_sim fuel s l H) as G.
    destruct (rd_gamma rb1 fuel s) as [[? ?]|],
             (rd_gamma rb2 fuel l) as [[? ?]|]; cbn [osim] in *; try contradiction; auto.
    destruct G as [G1 G2]; cbn in *; subst. apply rd_int_sim; auto.
  Qed.
  Lemma rd_cint_loop_sim fuel : forall b i v s l, R s l ->
    osim (rd_cint_loop rb1 fuel b i v s) (rd_cint_loop rb2 fuel b i v l).
  Proof.
    induction fuel as [|fuel IH]; intros b i v s l H; cbn [rd_cint_loop]; [exact I|].
    destruct (rb_sim s l H) as [H1 H2].
    destruct (rb1 s) as [b1 s1], (rb2 l) as [b2 l1]; cbn in H1, H2; subst.
    destruct (rd_int_sim b s1 l1 H2) as [H3 H4].
    destruct (rd_int rb1 b s1) as [x1 s2], (rd_int rb2 b l1) as [x2 l2]; cbn in H3, H4; subst.
    destruct (64 <=? b * i)%nat; [exact I|].
    destruct b2; [apply IH; auto|split; auto].
  Qed.

  (** reading [n] items in sequence *)
  Lemma rd_cint_sim fuel b s l : R s l -> osim (rd_cint rb1 fuel b s) (rd_cint rb2 fuel b l).
  Proof. apply rd_cint_loop_sim. Qed.
End Sim.

Definition bisR (s : bis) (l : list bool) : Prop := bis_inv s /\ bis_rem s = l.

Lemma bis_sim s l : bisR s l -> fst (bis_read_bit s) = fst (lrb l) /\ bisR (snd (bis_read_bit s)) (snd (lrb l)).
Proof.
  intros [Hi Hr]. pose proof (read_bit_ok s Hi) as H. rewrite Hr in H.
  destruct l as [|b r].
  - rewrite H. cbn. split; auto. split; auto.
  - destruct H as (s' & -> & H1 & H2). cbn. split; auto. split; auto.
Qed.

Lemma bisR_open f : bisR (bis_open f) (file_bits f).
Proof. destruct (open_ok f); split; auto. Qed.

Lemma bisR_file bs : bisR (bis_open (bits_file bs)) bs.
Proof. pose proof (bisR_open (bits_file bs)) as H. rewrite file_bits_bits_file in H. exact H. Qed.

Lemma bisR_eof s l : bisR s l -> bis_eof s = true <-> l = [].
Proof. intros [Hi <-]. apply eof_spec; auto. Qed.

Lemma bisR_eofb s l : bisR s l -> bis_eof s = match l with [] => true | _ => false end.
Proof.
  intros H. pose proof (bisR_eof s l H). destruct l; [apply H0; auto|].
  destruct (bis_eof s); auto. discriminate (proj1 H0 eq_refl).
Qed.

(** ** Sequences of codes through a closed file *)
Fixpoint rd_seq {S A} (rd : S -> option (A * S)) (n : nat) (s : S) : option (list A * S) :=
  match n with
  | O => Some ([], s)
  | S n => match rd s with
           | Some (a, s1) => match rd_seq rd n s1 with
                             | Some (l, s2) => Some (a :: l, s2)
                             | None => None
                             end
           | None => None
           end
  end.

Lemma rd_seq_file {A} (rd : bis -> option (A * bis)) (rdl : list bool -> option (A * list bool))
      (enc : A -> list bool) (P : A -> Prop) :
  (forall s l, bisR s l -> osim bisR (rd s) (rdl l)) ->
  (forall a rest, P a -> rdl (enc a ++ rest) = Some (a, rest)) ->
  forall vs, Forall P vs ->
  exists s', rd_seq rd (length vs) (bis_open (bits_file (flat_map enc vs))) = Some (vs, s')
             /\ bis_eof s' = true.
Proof.
  intros Hsim Hrd vs Hv.
  assert (G : forall s rest, bisR s (flat_map enc vs ++ rest) ->
     exists s', rd_seq rd (length vs) s = Some (vs, s') /\ bisR s' rest).
  { induction Hv as [|a vs Ha Hv IH]; intros s rest HR; cbn [flat_map length rd_seq] in *.
    - eauto.
    - rewrite <- app_assoc in HR. pose proof (Hsim _ _ HR) as G. rewrite Hrd in G by auto.
      destruct (rd s) as [[a' s1]|]; [|contradiction]. destruct G as [G1 G2]; cbn in G1, G2; subst.
      destruct (IH s1 rest G2) as (s' & -> & H2). eauto. }
  destruct (G (bis_open (bits_file (flat_map enc vs))) []) as (s' & H1 & H2).
  { rewrite app_nil_r. apply bisR_file. }
  exists s'; split; auto. apply (bisR_eof s' []); auto.
Qed.

(** ** vbyte *)
Lemma vbyte_read_write fuel : forall x l i acc rest,
  write_vbyte_loop fuel x = Some l ->
  acc < 2 ^ (7 * i) -> acc + x * 2 ^ (7 * i) < 2 ^ 64 -> (x <> 0 \/ i = 0) ->
  read_vbyte_loop (l ++ rest) i acc = Some (acc + x * 2 ^ (7 * i), rest).
Proof.
  induction fuel as [|fuel IH]; intros x l i acc rest Hw Ha Hx Hxi; [discriminate|].
  cbn [write_vbyte_loop] in Hw. rewrite N.shiftr_div_pow2 in Hw. change (2 ^ 7) with 128 in Hw.
  set (D := 2 ^ (7 * i)) in *.
  assert (HD : D <> 0) by (apply N.pow_nonzero; discriminate).
  assert (Hi : 7 * i < 64).
  { destruct Hxi as [Hxn|Hi]; [|lia].
    destruct (N.lt_ge_cases (7 * i) 64) as [|Hge]; auto. exfalso.
    assert (2 ^ 64 <= D) by (apply N.pow_le_mono_r; [discriminate|lia]). nia. }
  assert (Hl127 : N.land x 127 = x mod 128).
  { change 127 with (N.ones 7). rewrite N.land_ones. reflexivity. }
  assert (Hval : N.lor acc (w64 (N.shiftl (x mod 128) (7 * i))) = acc + (x mod 128) * D).
  { rewrite N.shiftl_mul_pow2. fold D. rewrite w64_small.
    - apply lor_disjoint_add; exact Ha.
    - apply N.le_lt_trans with (acc + x * D); [|exact Hx].
      pose proof (N.mod_le x 128 ltac:(discriminate)). nia. }
  rewrite Hl127 in Hw.
  assert (Hm : x mod 128 < 128) by (apply N.mod_lt; discriminate).
  assert (Hsweep : forall m, m < 128 ->
     (N.land (N.lor m 128) 127 =? m) && N.testbit (N.lor m 128) 7 && (N.land m 127 =? m)
      && negb (N.testbit m 7) = true).
  { clear. intros m H.
    assert (G := bytes_forall (fun m => (128 <=? m) || ((N.land (N.lor m 128) 127 =? m)
       && N.testbit (N.lor m 128) 7 && (N.land m 127 =? m)
      && negb (N.testbit m 7))) ltac:(vm_compute; reflexivity) m ltac:(unfold byte_ok; lia)).
    cbv beta in G. destruct (N.leb_spec 128 m); [lia|]. exact G. }
  specialize (Hsweep _ Hm). rewrite !andb_true_iff in Hsweep. destruct Hsweep as [[[S1 S2] S3] S4].
  apply N.eqb_eq in S1, S3. apply negb_true_iff in S4.
  destruct (N.ltb_spec 0 (x / 128)) as [Hq|Hq].
  - destruct (write_vbyte_loop fuel (x / 128)) as [r|] eqn:Er; [|discriminate].
    apply Some_inj in Hw; subst l. cbn [app read_vbyte_loop].
    destruct (N.leb_spec 64 (7 * i)); [lia|].
    rewrite S1, S2, Hval.
    assert (HD' : 2 ^ (7 * (i + 1)) = D * 128).
    { unfold D. rewrite N.mul_add_distr_l, N.pow_add_r. reflexivity. }
    rewrite (IH (x / 128) r (i + 1) (acc + x mod 128 * D) rest); auto; rewrite ?HD'; try lia.
    + do 2 f_equal. replace x with (128 * (x / 128) + x mod 128) at 3 by lia. lia.
    + nia.
    + replace (acc + x mod 128 * D + x / 128 * (D * 128)) with (acc + x * D); auto.
      replace x with (128 * (x / 128) + x mod 128) at 1 by lia. lia.
  - apply Some_inj in Hw; subst l. cbn [app read_vbyte_loop].
    destruct (N.leb_spec 64 (7 * i)); [lia|].
    rewrite S3, S4, Hval. do 2 f_equal. replace x with (x mod 128) at 2 by lia. lia.
Qed.

Lemma write_vbyte_loop_some fuel : forall x, x < 2 ^ N.of_nat fuel ->
  exists l, write_vbyte_loop (S fuel) x = Some l.
Proof.
  induction fuel as [|fuel IH]; intros x H.
  - change (2 ^ N.of_nat 0) with 1 in H. replace x with 0 by lia. eexists; reflexivity.
  - change (write_vbyte_loop (S (S fuel)) x) with
     (if 0 <? N.shiftr x 7 then
      match write_vbyte_loop (S fuel) (N.shiftr x 7) with
      | Some r => Some (N.lor (N.land x 127) 128 :: r) | None => None end
      else Some [N.land x 127]).
    destruct (0 <? N.shiftr x 7); [|eauto].
    destruct (IH (N.shiftr x 7)) as (l & ->); eauto.
    rewrite N.shiftr_div_pow2. change (2 ^ 7) with 128.
    rewrite Nat2N.inj_succ, N.pow_succ_r' in H. set (P := 2 ^ N.of_nat fuel) in *. lia.
Qed.

Lemma vbyte_ok v rest : v < 2 ^ 64 ->
  exists l, write_vbyte v = Some l /\ read_vbyte (l ++ rest) = Some (v, rest).
Proof.
  intros H. unfold write_vbyte.
  destruct (write_vbyte_loop_some (N.size_nat v) v (size_nat_gt v)) as (l & Hl).
  rewrite Hl. exists l; split; auto. unfold read_vbyte.
  rewrite (vbyte_read_write (S (N.size_nat v)) v l 0 0 rest); auto; rewrite N.mul_0_r; change (2^0) with 1; try lia.
  do 2 f_equal. lia.
Qed.

(** reading a sequence of fixed-width integers *)
Fixpoint bis_read_ints (ws : list nat) (s : bis) : list N * bis :=
  match ws with
  | [] => ([], s)
  | w :: ws => let (v, s1) := rd_int bis_read_bit w s in
               let (vs, s2) := bis_read_ints ws s1 in (v :: vs, s2)
  end.

Lemma ints_stream_pf : forall vw : list (N * nat), Forall (fun p => (snd p <= 64)%nat) vw ->
  forall rest s', bis_read_ints (map snd vw)
     (bis_open (bits_file (flat_map (fun p => write_int (fst p) (snd p)) vw ++ rest))) = s' ->
  fst s' = map (fun p => fst p mod 2 ^ N.of_nat (snd p)) vw /\
  (forall n, fst (bis_read_bits n (snd s')) = firstn n rest ++ repeat false (n - length rest)).
Proof.
  intros vw Hv rest s' <-.
  assert (G : forall s, bisR s (flat_map (fun p => write_int (fst p) (snd p)) vw ++ rest) ->
    fst (bis_read_ints (map snd vw) s) = map (fun p => fst p mod 2 ^ N.of_nat (snd p)) vw /\
    bisR (snd (bis_read_ints (map snd vw) s)) rest).
  { induction Hv as [|[v w] vw Hw Hv IH]; intros s HR; cbn [flat_map map bis_read_ints fst snd] in *.
    - auto.
    - rewrite <- app_assoc in HR.
      pose proof (rd_int_sim _ _ _ bis_sim w _ _ HR) as [H1 H2].
      rewrite rd_int_ok in H1, H2 by auto.
      destruct (rd_int bis_read_bit w s) as [x s1]; cbn in H1, H2.
      specialize (IH s1 H2). destruct (bis_read_ints (map snd vw) s1) as [xs s2]; cbn in *.
      destruct IH; subst; auto. }
  destruct (G _ (bisR_file _)) as [H1 H2]. split; auto.
  intros n. destruct H2 as [Hi Hr]. destruct (read_bits_ok n _ Hi) as (s2 & E & _).
  rewrite E, Hr. reflexivity.
Qed.

Lemma gamma_stream_pf : forall vs, Forall is64 vs ->
  exists s', rd_seq (rd_gamma bis_read_bit 65) (length vs)
               (bis_open (bits_file (flat_map write_gamma vs))) = Some (vs, s') /\ bis_eof s' = true.
Proof.
  apply (rd_seq_file _ (rd_gamma lrb 65)).
  - intros; apply rd_gamma_sim; auto using bis_sim.
  - intros; apply rd_gamma_ok; auto with arith.
Qed.

Lemma delta_stream_pf : forall vs, Forall is64 vs ->
  exists s', rd_seq (rd_delta bis_read_bit 65) (length vs)
               (bis_open (bits_file (flat_map write_delta vs))) = Some (vs, s') /\ bis_eof s' = true.
Proof.
  apply (rd_seq_file _ (rd_delta lrb 65)).
  - intros; apply rd_delta_sim; auto using bis_sim.
  - intros; apply rd_delta_ok; auto with arith.
Qed.

Definition ostr (o : option (list bool)) : list bool := match o with Some l => l | None => [] end.

Lemma ternary_stream_pf : forall vs, Forall is64 vs ->
  Forall (fun v => write_ternary v <> None) vs /\
  exists s', rd_seq (rd_ternary bis_read_bit 200) (length vs)
               (bis_open (bits_file (flat_map (fun v => ostr (write_ternary v)) vs))) = Some (vs, s')
             /\ bis_eof s' = true.
Proof.
  intros vs Hv. split.
  - revert Hv; apply Forall_impl. intros v H. destruct (rd_ternary_ok v [] H) as (l & -> & _). discriminate.
  - revert vs Hv. apply (rd_seq_file _ (rd_ternary lrb 200)).
    + intros; apply rd_ternary_sim; auto using bis_sim.
    + intros v rest H. destruct (rd_ternary_ok v rest H) as (l & E & G). rewrite E. apply G.
      pose proof (write_ternary_len v l H E). lia.
Qed.

Lemma write_cint_len v b l : v < 2 ^ 64 -> (0 < b)%nat -> write_cint v b = Some l -> (length l <= S b * 65)%nat.
Proof.
  intros H Hb. unfold write_cint. destruct (Nat.ltb_spec b 64); [|discriminate].
  set (mask := w64 _). intros E.
  destruct (write_cint_loop_some (N.size_nat v) mask v b Hb (size_nat_gt v)) as (l' & Hw & Hl).
  rewrite Hw in E. apply Some_inj in E; subst l'.
  assert (N.size_nat v <= 64)%nat by (apply size_nat_le; exact H). nia.
Qed.

Lemma cint_stream_pf : forall b, (0 < b < 64)%nat -> forall vs, Forall is64 vs ->
  Forall (fun v => write_cint v b <> None) vs /\
  exists s', rd_seq (rd_cint bis_read_bit (S b * 65) b) (length vs)
               (bis_open (bits_file (flat_map (fun v => ostr (write_cint v b)) vs))) = Some (vs, s')
             /\ bis_eof s' = true.
Proof.
  intros b Hb vs Hv. split.
  - revert Hv; apply Forall_impl. intros v H. destruct (rd_cint_ok v b [] H Hb) as (l & -> & _). discriminate.
  - revert vs Hv. apply (rd_seq_file _ (rd_cint lrb (S b * 65) b)).
    + intros; apply rd_cint_sim; auto using bis_sim.
    + intros v rest H. destruct (rd_cint_ok v b rest H Hb) as (l & E & G). rewrite E. apply G.
      apply (write_cint_len v b l H); [lia|exact E].
Qed.

Lemma unary_stream_pf : forall vs, Forall is64 vs -> forall fuel, Forall (fun v => (N.to_nat v < fuel)%nat) vs ->
  exists s', rd_seq (rd_unary bis_read_bit fuel) (length vs)
               (bis_open (bits_file (flat_map write_unary vs))) = Some (vs, s') /\ bis_eof s' = true.
Proof.
  intros vs Hv fuel Hf.
  apply (rd_seq_file _ (rd_unary lrb fuel) _ (fun v => is64 v /\ (N.to_nat v < fuel)%nat)).
  - intros; apply rd_unary_sim; auto using bis_sim.
  - intros a rest [H1 H2]; apply rd_unary_ok; auto.
  - rewrite Forall_forall in *. intros x Hx; auto.
Qed.

(** read_unary on a stream with no further 1-bit never returns *)
Lemma unary_hangs_pf : forall f n, (forall b, In b (skipn n (file_bits f)) -> b = false) ->
  forall fuel, rd_unary bis_read_bit fuel (bis_after f n) = None.
Proof.
  intros f n Hz fuel. destruct (bis_after_ok f n) as [Hi Hr].
  assert (G : forall fuel v l s, bisR s l -> (forall b, In b l -> b = false) ->
     rd_unary_loop bis_read_bit fuel v s = None).
  { clear. induction fuel as [|fuel IH]; intros v l s HR Hl; [reflexivity|].
    cbn [rd_unary_loop]. destruct (bis_sim s l HR) as [H1 H2].
    destruct (bis_read_bit s) as [b s1]; cbn in H1, H2.
    destruct l as [|b' l]; cbn in H1, H2.
    - subst. apply (IH _ [] s1); auto.
    - rewrite (Hl b') in H1 by (left; auto). subst. apply (IH _ l s1); auto. intros; apply Hl; right; auto. }
  apply (G fuel 0 (skipn n (file_bits f))); auto. split; auto.
Qed.

Lemma vbyte_seq_pf : forall vs, Forall is64 vs -> forall tail,
  Forall (fun v => write_vbyte v <> None) vs /\
  rd_seq read_vbyte (length vs)
    (flat_map (fun v => match write_vbyte v with Some l => l | None => [] end) vs ++ tail)
  = Some (vs, tail).
Proof.
  intros vs Hv tail. induction Hv as [|v vs H Hv [IH1 IH2]]; cbn [flat_map length rd_seq app]; auto.
  rewrite <- app_assoc.
  destruct (vbyte_ok v (flat_map (fun v => match write_vbyte v with Some l => l | None => [] end) vs ++ tail) H)
    as (l & E & G). split.
  - constructor; auto. rewrite E; discriminate.
  - rewrite E, G, IH2. reflexivity.
Qed.
