(** Proofs about RankSelect.v *)
From Verif Require Import Base IntCodes IntCodesProofs IntVec IntVecProofs RankSelect.
Local Open Scope nat_scope.
#[local] Arguments Nat.div : simpl never.
#[local] Arguments Nat.modulo : simpl never.

(** ** cntb *)
Lemma cntb_ext f g n : (forall i, i < n -> f i = g i) -> cntb f n = cntb g n.
Proof. induction n as [|n IH]; intros H; auto. cbn [cntb]. rewrite IH, H; auto. Qed.
Lemma cntb_add f a b : cntb f (a + b) = cntb f a + cntb (fun i => f (a + i)) b.
Proof.
  induction b as [|b IH]; [rewrite Nat.add_0_r; cbn [cntb]; lia|]. rewrite Nat.add_succ_r. cbn [cntb]. rewrite IH. lia.
Qed.
Lemma cntb_le f n : cntb f n <= n.
Proof. induction n as [|n IH]; cbn [cntb]; auto. destruct (f n); lia. Qed.
Lemma cntb_mono f a b : a <= b -> cntb f a <= cntb f b.
Proof. intros H. replace b with (a + (b - a)) by lia. rewrite cntb_add. lia. Qed.
Lemma cntb_zero f n : (forall i, i < n -> f i = false) -> cntb f n = 0.
Proof. induction n as [|n IH]; intros H; auto. cbn [cntb]. rewrite IH, H; auto. Qed.
Lemma cntb_neg f n : cntb (fun i => negb (f i)) n + cntb f n = n.
Proof. induction n as [|n IH]; auto. cbn [cntb]. destruct (f n); cbn [negb]; lia. Qed.
Lemma cntb_diff f a b : a <= b -> cntb f b <= cntb f a + (b - a).
Proof. intros H. replace b with (a + (b - a)) at 1 by lia. rewrite cntb_add. pose proof (cntb_le (fun i => f (a + i)) (b - a)). lia. Qed.
Lemma cntb_S f n : cntb f (S n) = cntb f n + (if f n then 1 else 0).
Proof. auto. Qed.

(** the t-th flagged position (t >= 1) *)
Definition isel (f : nat -> bool) (t p : nat) : Prop := f p = true /\ cntb f p + 1 = t.
Lemma isel_S f t p : isel f t p -> cntb f (S p) = t.
Proof. intros [H E]. rewrite cntb_S, H. auto. Qed.
Lemma isel_exists f n t : 1 <= t <= cntb f n -> exists p, p < n /\ isel f t p.
Proof.
  induction n as [|n IH]; cbn [cntb]; intros H; [lia|].
  destruct (Nat.le_gt_cases t (cntb f n)).
  - destruct IH as (p & Hp & I); [lia|]. exists p. split; auto.
  - destruct (f n) eqn:E; [|lia]. exists n. split; auto. split; auto. lia.
Qed.
Lemma isel_lt f t p t' p' : isel f t p -> isel f t' p' -> t < t' -> p < p'.
Proof.
  intros A B H. destruct (Nat.lt_ge_cases p p'); auto. pose proof (cntb_mono f p' p ltac:(lia)).
  pose proof (isel_S _ _ _ A). pose proof (isel_S _ _ _ B). destruct A, B.
  destruct (Nat.eq_dec p p'); [subst; lia|]. pose proof (cntb_mono f (S p') p ltac:(lia)). lia.
Qed.
Lemma isel_fun f t p p' : isel f t p -> isel f t p' -> p = p'.
Proof.
  intros A B. destruct (Nat.lt_trichotomy p p') as [H|[H|H]]; auto; exfalso.
  - pose proof (isel_S _ _ _ A). destruct B as [_ B]. pose proof (cntb_mono f (S p) p' ltac:(lia)). lia.
  - pose proof (isel_S _ _ _ B). destruct A as [_ A]. pose proof (cntb_mono f (S p') p ltac:(lia)). lia.
Qed.
Lemma isel_below f t p n : isel f t p -> t <= cntb f n -> p < n.
Proof.
  intros A H. destruct (Nat.lt_ge_cases p n); auto. pose proof (cntb_mono f n p ltac:(lia)). destruct A. lia.
Qed.

(** ** word operations *)
Lemma rank1_u8_ok v : byte_ok v -> rank1_u8 v = Some (cntb (fun k => N.testbit v (N.of_nat k)) 8).
Proof.
  intros H. pose proof (bytes_forall (fun v => match rank1_u8 v with Some r => r =? cntb (fun k => N.testbit v (N.of_nat k)) 8 | None => false end) eq_refl v H) as E.
  cbv beta in E. destruct (rank1_u8 v); [|discriminate]. f_equal. lia.
Qed.
Lemma rank1_w_ok v : rank1_w v = cntb (tb v) 64.
Proof. auto. Qed.
Lemma rank1_wm_ok v m : m < 64 -> rank1_wm v m = cntb (tb v) (m + 1).
Proof.
  intros H. unfold rank1_wm. rewrite rank1_w_ok. replace 64 with ((m + 1) + (63 - m)) by lia. rewrite cntb_add.
  match goal with |- ?a + ?b = _ => assert (Z : b = 0) end.
  - apply cntb_zero. intros i Hi. rewrite tb_land, tb_shr, tb_ones64. replace (_ <? 64) with false by lia. apply andb_false_r.
  - rewrite Z, Nat.add_0_r.
    apply cntb_ext. intros i Hi. rewrite tb_land, tb_shr, tb_ones64. replace (_ <? 64) with true by lia. apply andb_true_r.
Qed.
Lemma rank1_wlm_ok v l : l < 64 -> rank1_wlm v l 63 = cntb (fun i => tb v (l + i)) (64 - l).
Proof.
  intros H. unfold rank1_wlm. rewrite rank1_w_ok. replace 64 with (l + (64 - l)) at 1 by lia. rewrite cntb_add.
  rewrite (cntb_zero _ l), Nat.add_0_l.
  - apply cntb_ext. intros i Hi. rewrite !tb_land, tb_shr, tb_shl, !tb_ones64.
    replace (_ <? 64) with true by lia. replace (_ <? 64) with true by lia. replace (l <=? _) with true by lia.
    replace (_ <? 64) with true by lia. cbn [andb]. rewrite !andb_true_r. auto.
  - intros i Hi. rewrite !tb_land, tb_shl. replace (l <=? i) with false by lia. rewrite andb_false_r. apply andb_false_r.
Qed.
Lemma tb_div2 v k : tb (N.div2 v) k = tb v (S k).
Proof. unfold tb. rewrite N.div2_spec, N.shiftr_spec'. f_equal. lia. Qed.
Lemma tb_0 v : tb v 0 = N.odd v.
Proof. unfold tb. rewrite N.bit0_odd. auto. Qed.
Lemma tb_zero k : tb 0 k = false.
Proof. unfold tb. apply N.bits_0. Qed.
Lemma div2_lt v n : (v < 2 ^ N.of_nat (S n))%N -> (N.div2 v < 2 ^ N.of_nat n)%N.
Proof. intros H. rewrite Nat2N.inj_succ, N.pow_succ_r' in H. rewrite N.div2_div. apply N.div_lt_upper_bound; lia. Qed.
Lemma cntb_shift f n : cntb f (S n) = (if f 0 then 1 else 0) + cntb (fun i => f (S i)) n.
Proof. change (S n) with (1 + n). rewrite cntb_add. reflexivity. Qed.

(** the result of a word select: the position of the k-th flag below [m], or SELECT_FAIL *)
Definition selres (f : nat -> bool) (m k pos r : nat) : Prop :=
  (k <= cntb f m -> exists p, p < m /\ isel f k p /\ r = pos + p) /\ (cntb f m < k -> r = SELECT_FAIL).
Lemma selres_step f m k pos r : f 0 = false ->
  selres (fun i => f (S i)) m k (pos + 1) r -> selres f (S m) k pos r.
Proof.
  intros H [A B]. split; rewrite cntb_shift, H; intros C.
  - destruct A as (p & Hp & [I1 I2] & ->); [lia|]. exists (S p). split; [lia|]. split; [|lia].
    split; auto. rewrite cntb_shift, H. lia.
  - apply B. lia.
Qed.
Lemma selres_step1 f m k pos r : f 0 = true -> 2 <= k ->
  selres (fun i => f (S i)) m (k - 1) (pos + 1) r -> selres f (S m) k pos r.
Proof.
  intros H Hk [A B]. split; rewrite cntb_shift, H; intros C.
  - destruct A as (p & Hp & [I1 I2] & ->); [lia|]. exists (S p). split; [lia|]. split; [|lia].
    split; auto. rewrite cntb_shift, H. lia.
  - apply B. lia.
Qed.
Lemma selres_hit f m k pos : f 0 = true -> k = 1 -> selres f (S m) k pos pos.
Proof.
  intros H ->. split; rewrite cntb_shift, H; intros C; [|lia]. exists 0. split; [lia|]. split; [|lia]. split; auto.
Qed.
Lemma selres_ext f g m k pos r : (forall i, f i = g i) -> selres f m k pos r -> selres g m k pos r.
Proof.
  intros H [A B]. rewrite (cntb_ext f g m) in * by auto. split; auto. intros C. destruct (A C) as (p & Hp & [I1 I2] & E).
  exists p. split; auto. split; auto. split; [rewrite <- H; auto|]. rewrite <- (cntb_ext f g p); auto.
Qed.
Lemma select1_loop_ok m : forall fuel v k pos, m < fuel -> (v < 2 ^ N.of_nat m)%N -> 1 <= k ->
  selres (tb v) m k pos (select1_loop fuel v k pos).
Proof.
  induction m as [|m IH]; intros [|fuel] v k pos Hf Hv Hk; try lia; cbn [select1_loop].
  - assert (v = 0)%N by (change (2 ^ N.of_nat 0)%N with 1%N in Hv; lia). subst. simpl. split; auto. cbn [cntb]. lia.
  - destruct (N.eqb_spec v 0) as [->|Hn].
    { split; auto. rewrite cntb_zero by (intros; apply tb_zero). lia. }
    pose proof (div2_lt _ _ Hv). destruct (N.odd v) eqn:E.
    + destruct (k - 1 =? 0) eqn:E1.
      * apply selres_hit; [rewrite tb_0; auto|lia].
      * apply selres_step1; [rewrite tb_0; auto|lia|]. eapply selres_ext; [intros i; apply tb_div2|]. apply IH; auto; lia.
    + apply selres_step; [rewrite tb_0; auto|]. eapply selres_ext; [intros i; apply tb_div2|]. apply IH; auto; lia.
Qed.
Lemma select0_loop_ok m : forall fuel v k pos, m < fuel -> (v < 2 ^ N.of_nat m)%N -> 1 <= k <= 64 -> pos + m = 64 ->
  selres (fun i => negb (tb v i)) m k pos (select0_loop fuel v k pos).
Proof.
  induction m as [|m IH]; intros [|fuel] v k pos Hf Hv Hk Hm; try lia; cbn [select0_loop].
  - assert (v = 0)%N by (change (2 ^ N.of_nat 0)%N with 1%N in Hv; lia). subst. simpl N.eqb. cbv zeta.
    change (0 =? 0)%N with true. cbv iota.
    rewrite Nat.mod_small by lia. replace (_ <=? 63) with false by lia. split; auto. cbn [cntb]. lia.
  - destruct (N.eqb_spec v 0) as [->|Hn].
    { assert (Z : forall j, cntb (fun i => negb (tb 0 i)) j = j).
      { intros j. pose proof (cntb_neg (tb 0) j). rewrite (cntb_zero (tb 0)) in H by (intros; apply tb_zero). lia. }
      cbv zeta. rewrite Nat.mod_small by lia. unfold selres. rewrite Z. split; intros H.
      - replace (_ <=? 63) with true by lia. exists (k - 1). split; [lia|]. split; [|lia]. split; [rewrite tb_zero; auto|].
        rewrite Z. lia.
      - replace (_ <=? 63) with false by lia. auto. }
    pose proof (div2_lt _ _ Hv). destruct (N.odd v) eqn:E; cbn [negb].
    + apply selres_step; [rewrite tb_0, E; auto|].
      apply (selres_ext (fun i => negb (tb (N.div2 v) i))); [intros i; rewrite tb_div2; auto|]. apply IH; auto; lia.
    + destruct (k - 1 =? 0) eqn:E1.
      * apply selres_hit; [rewrite tb_0, E; auto|lia].
      * apply selres_step1; [rewrite tb_0, E; auto|lia|].
        apply (selres_ext (fun i => negb (tb (N.div2 v) i))); [intros i; rewrite tb_div2; auto|]. apply IH; auto; lia.
Qed.
(** the flag of bit [k] of a word *)
Definition wflag (b : bool) (v : N) (k : nat) : bool := Bool.eqb (tb v k) b.
Lemma wflag1 v k : wflag true v k = tb v k.
Proof. unfold wflag. destruct (tb v k); auto. Qed.
Lemma wflag0 v k : wflag false v k = negb (tb v k).
Proof. unfold wflag. destruct (tb v k); auto. Qed.
Lemma basic_rank_ok b v : basic_rank b v = cntb (wflag b v) 64.
Proof.
  destruct b; cbn [basic_rank].
  - rewrite rank1_w_ok. apply cntb_ext. intros; rewrite wflag1; auto.
  - unfold rank0_w. rewrite rank1_w_ok. pose proof (cntb_neg (tb v) 64). rewrite (cntb_ext (wflag false v) (fun i => negb (tb v i))); [lia|].
    intros; apply wflag0.
Qed.
Lemma basic_rank_lm_ok b v l : l < 64 -> basic_rank_lm b v l 63 = cntb (fun i => wflag b v (l + i)) (64 - l).
Proof.
  intros H. destruct b; cbn [basic_rank_lm].
  - rewrite rank1_wlm_ok by auto. apply cntb_ext. intros; rewrite wflag1; auto.
  - unfold rank0_wlm. rewrite rank1_wlm_ok by auto. pose proof (cntb_neg (fun i => tb v (l + i)) (64 - l)).
    rewrite (cntb_ext (fun i => wflag false v (l + i)) (fun i => negb (tb v (l + i)))); [lia|]. intros; apply wflag0.
Qed.
Lemma select0_w_ok v k : (v < 2 ^ 64)%N -> 1 <= k <= 64 -> selres (fun i => negb (tb v i)) 64 k 0 (select0_w v k).
Proof. intros Hv Hk. apply select0_loop_ok; auto; lia. Qed.
Lemma basic_select_ok b v k : (v < 2 ^ 64)%N -> 1 <= k <= 64 -> selres (wflag b v) 64 k 0 (basic_select b v k).
Proof.
  intros Hv Hk. destruct b; cbn [basic_select].
  - eapply selres_ext; [intros i; symmetry; apply wflag1|]. apply select1_loop_ok; auto; lia.
  - eapply selres_ext; [intros i; symmetry; apply wflag0|]. apply select0_w_ok; auto.
Qed.
Lemma shr_lt v l : (v < 2 ^ 64)%N -> (shr v l < 2 ^ 64)%N.
Proof.
  intros H. unfold shr. rewrite N.shiftr_div_pow2. pose proof (N.div_le_upper_bound v (2 ^ N.of_nat l) v ltac:(lia) ltac:(nia)). lia.
Qed.
Lemma basic_select_l_ok b v l k : (v < 2 ^ 64)%N -> 1 <= k <= 64 -> l < 64 ->
  selres (fun i => wflag b v (l + i)) (64 - l) k l (basic_select_l b v l k).
Proof.
  intros Hv Hk Hl. destruct b; cbn [basic_select_l].
  - apply (selres_ext (fun i => tb v (l + i))); [intros i; rewrite wflag1; auto|].
    unfold select1_lw. cbv zeta.
    assert (A : selres (tb (shr v l)) 64 k 0 (select1_w (shr v l) k)) by (apply select1_loop_ok; auto; [apply shr_lt; auto|lia]).
    assert (E : forall i, tb (shr v l) i = tb v (l + i)) by (intros; rewrite tb_shr; f_equal; lia).
    apply (selres_ext _ _ _ _ _ _ E) in A. destruct A as [A B].
    assert (C : cntb (fun i => tb v (l + i)) 64 = cntb (fun i => tb v (l + i)) (64 - l)).
    { replace 64 with ((64 - l) + l) at 1 by lia. rewrite cntb_add. rewrite (cntb_zero (fun i => tb v (l + (64 - l + i)))); [lia|].
      intros i Hi. apply (tb_high v 64); auto. lia. }
    rewrite C in A, B. split; intros H.
    + destruct (A H) as (p & Hp & I & ->). exists p. rewrite Nat.add_0_l. 
      pose proof (isel_below _ _ _ _ I H). replace (p =? SELECT_FAIL) with false by (unfold SELECT_FAIL; lia). auto.
    + rewrite (B H). reflexivity.
  - apply (selres_ext (fun i => negb (tb v (l + i)))); [intros i; rewrite wflag0; auto|].
    unfold select0_lw. cbv zeta.
    assert (A : selres (fun i => negb (tb (shr v l) i)) 64 k 0 (select0_w (shr v l) k)) by (apply select0_w_ok; auto; apply shr_lt; auto).
    assert (E : forall i, negb (tb (shr v l) i) = negb (tb v (l + i))) by (intros; rewrite tb_shr; do 2 f_equal; lia).
    apply (selres_ext _ _ _ _ _ _ E) in A. destruct A as [A B].
    set (f := fun i => negb (tb v (l + i))) in *. pose proof (cntb_mono f (64 - l) 64 ltac:(lia)).
    split; intros C.
    + destruct (A ltac:(lia)) as (p & Hp & I & ->). exists p. rewrite Nat.add_0_l.
      pose proof (isel_below _ _ _ _ I C). replace (p =? SELECT_FAIL) with false by (unfold SELECT_FAIL; lia). cbn [negb].
      rewrite Nat.mod_small by lia. replace (_ <=? 63) with true by lia. split; auto. split; auto. lia.
    + destruct (Nat.le_gt_cases k (cntb f 64)) as [D|D].
      * destruct (A D) as (p & Hp & I & ->). rewrite Nat.add_0_l.
        assert (64 - l <= p). { destruct (Nat.lt_ge_cases p (64 - l)); auto. pose proof (isel_S _ _ _ I). pose proof (cntb_mono f (S p) (64 - l) ltac:(lia)). lia. }
        replace (p =? SELECT_FAIL) with false by (unfold SELECT_FAIL; lia). cbn [negb].
        rewrite Nat.mod_small by lia. replace (_ <=? 63) with false by lia. auto.
      * rewrite (B D). reflexivity.
Qed.

(** ** Rank *)
Lemma filled_width_ok n x w own : 1 <= w <= 64 ->
  exists v, pv_filled_width n x w false own = Some v /\ wf v /\ pv_w v = w /\ pv_fixed v = false /\
    contents v = repeat (trunc w x) n.
Proof.
  intros H. unfold pv_filled_width. destruct (resize_ok (pv_empty w false) n x) as (v & E & W & Ew & F & C).
  { split; auto. split; [constructor|auto]. }
  exists v. split; auto. split; auto. split; auto. split; auto. rewrite C. cbn [pv_w pv_n pv_empty]. rewrite Nat.sub_0_r.
  destruct n; auto.
Qed.
Lemma word_flags data j : cntb (fun i => getb data (64 * j + i)) 64 = cntb (tb (nth j data 0%N)) 64.
Proof. apply cntb_ext. intros i Hi. apply getb_split. auto. Qed.
Lemma R_word data j : cntb (getb data) (64 * (j + 1)) = cntb (getb data) (64 * j) + rank1_w (nth j data 0%N).
Proof. replace (64 * (j + 1)) with (64 * j + 64) by lia. rewrite cntb_add, word_flags. auto. Qed.
Lemma trunc_id w x : (x < 2 ^ N.of_nat w)%N -> trunc w x = x.
Proof. intros H. apply N.mod_small. auto. Qed.
Lemma N_of_nat_lt a b : a < b -> (N.of_nat a < N.of_nat b)%N.
Proof. lia. Qed.
Lemma idiv_ceil_eq a b : 0 < b -> idiv_ceil a b = (a + b - 1) / b.
Proof.
  intros H. unfold idiv_ceil. pose proof (Nat.div_mod a b ltac:(lia)) as E. pose proof (Nat.mod_upper_bound a b ltac:(lia)) as B.
  destruct (0 <? a mod b) eqn:Z.
  - apply (Nat.div_unique _ _ _ (a mod b - 1)); lia.
  - rewrite Nat.add_0_r. apply (Nat.div_unique _ _ _ (b - 1)); lia.
Qed.
Lemma b2b_ceil n : bits2backing n = idiv_ceil n 64.
Proof. rewrite idiv_ceil_eq, b2b_eq by lia. f_equal. lia. Qed.

Section Rank.
  Variable data : list N.
  Variables nb ns ws : nat.
  Hypothesis Hnb : nb <= length data.
  Hypothesis Hns : forall i, (i + 1) * (64 * 64) < nb * 64 -> i < ns.
  Hypothesis Hws : forall i, (i + 1) * (64 * 64) < nb * 64 -> (N.of_nat ((i + 1) * (64 * 64)) < 2 ^ N.of_nat ws)%N.
  Let R := cntb (getb data).
  Definition rk_inv (j : nat) (sup blk : pvec) : Prop :=
    wf sup /\ wf blk /\ pv_w sup = ws /\ pv_w blk = 13 /\ pv_n sup = ns /\ pv_n blk = nb /\
    (forall i, i < (j - 1) / 64 -> nth i (contents sup) 0%N = N.of_nat (R ((64 * 64) * (i + 1)))) /\
    (forall i, i < j -> nth i (contents blk) 0%N = N.of_nat (R (64 * (i + 1)) - R ((64 * 64) * (i / 64)))).
  Lemma rank_loop_ok k : forall j sup blk, j + k = nb -> rk_inv j sup blk ->
    exists sup' blk', rank_loop data j k sup blk (R (64 * j)) (R (64 * j) - R ((64 * 64) * ((j - 1) / 64))) ((j - 1) / 64) = Some (sup', blk')
      /\ rk_inv nb sup' blk'.
  Proof.
    induction k as [|k IH]; intros j sup blk Hj I; cbn [rank_loop].
    { exists sup, blk. split; auto. replace nb with j by lia. auto. }
    destruct I as (W1 & W2 & Ew1 & Ew2 & N1 & N2 & A & B).
    change (rk_sup / rk_block) with 64.
    assert (St : exists sup1, (if (j - 1) / 64 <? j / 64 then do s <- pv_set sup ((j - 1) / 64) (N.of_nat (R (64 * j))); Some (s, 0, j / 64)
              else Some (sup, R (64 * j) - R ((64 * 64) * ((j - 1) / 64)), (j - 1) / 64)) =
              Some (sup1, R (64 * j) - R ((64 * 64) * (j / 64)), j / 64) /\ wf sup1 /\ pv_w sup1 = ws /\ pv_n sup1 = ns /\
              forall i, i < j / 64 -> nth i (contents sup1) 0%N = N.of_nat (R ((64 * 64) * (i + 1)))).
    { destruct ((j - 1) / 64 <? j / 64) eqn:E.
      - assert (Hd : j / 64 = (j - 1) / 64 + 1) by lia. assert (Hm : 64 * j = (64 * 64) * ((j - 1) / 64 + 1)) by lia.
        assert (Hlt : (((j - 1) / 64) + 1) * (64 * 64) < nb * 64) by lia.
        destruct (set_ok sup ((j - 1) / 64) (N.of_nat (R (64 * j))) W1) as (s1 & E1 & X1 & X2 & X3 & X4).
        { rewrite N1. apply Hns. auto. }
        rewrite E1. cbn [obind]. exists s1. assert (pv_n s1 = ns).
        { rewrite <- (contents_len s1), X4, upd_length, contents_len. auto. }
        split; [|split; [auto|split; [congruence|split; auto]]].
        + f_equal. f_equal. f_equal. rewrite Hd, Hm. lia.
        + intros i Hi. rewrite X4, nth_upd by (rewrite contents_len, N1; apply Hns; auto).
          destruct (i =? (j - 1) / 64) eqn:Ei; [|apply A; lia].
          assert (i = (j - 1) / 64) by lia. subst i. rewrite Ew1, trunc_id.
          * do 2 f_equal. lia.
          * pose proof (Hws _ Hlt). unfold R. pose proof (cntb_le (getb data) (64 * j)). lia.
      - exists sup. assert ((j - 1) / 64 = j / 64) by lia. rewrite H in *. auto 6. }
    destruct St as (sup1 & E & W1' & Ew1' & N1' & A'). rewrite E. cbn [obind]. clear E.
    rewrite (nth_error_nth' data 0%N) by lia. cbn [obind].
    pose proof (R_word data j) as RW. fold R in RW.
    pose proof (cntb_mono (getb data) ((64 * 64) * (j / 64)) (64 * j) ltac:(lia)) as M. fold R in M.
    pose proof (cntb_diff (getb data) ((64 * 64) * (j / 64)) (64 * (j + 1)) ltac:(lia)) as D. fold R in D.
    destruct (set_ok blk j (N.of_nat (R (64 * j) - R ((64 * 64) * (j / 64)) + rank1_w (nth j data 0%N))) W2) as (b1 & E1 & X1 & X2 & X3 & X4); [lia|].
    rewrite E1. cbn [obind].
    replace (R (64 * j) + rank1_w (nth j data 0%N)) with (R (64 * (j + 1))) by lia.
    replace (R (64 * j) - R ((64 * 64) * (j / 64)) + rank1_w (nth j data 0%N)) with (R (64 * (j + 1)) - R ((64 * 64) * (j / 64))) in * by lia.
    assert (pv_n b1 = nb). { rewrite <- (contents_len b1), X4, upd_length, contents_len. auto. }
    assert (J : (j + 1 - 1) / 64 = j / 64) by (f_equal; lia). rewrite <- J in *.
    apply IH; [lia|]. split; auto. split; auto. split; auto. split; [congruence|]. split; auto. split; auto. split; auto.
    intros i Hi. rewrite X4, nth_upd by (rewrite contents_len; lia). destruct (i =? j) eqn:Ei; [|apply B; lia].
    assert (i = j) by lia. subst i. rewrite Ew2, trunc_id; [rewrite J; auto|]. rewrite J in D.
    change (2 ^ N.of_nat 13)%N with 8192%N. rewrite J. lia.
  Qed.
End Rank.
Lemma rank_new_ok bv : wf bv -> pv_w bv = 1 -> (N.of_nat (pv_n bv) < 2 ^ 64)%N ->
  exists r, rank_new bv = Some r /\
    forall x, x < pv_n bv -> rank1 r x = Some (cntb (getb (pv_ws bv)) (x + 1)).
Proof.
  intros W Ew Hn. set (n := pv_n bv) in *. unfold rank_new. fold n.
  pose proof (bits_for_le64 _ Hn) as L. pose proof (bits_for_pos (N.of_nat n)) as P. pose proof (bits_for_bound (N.of_nat n)) as Bd.
  destruct (filled_width_ok (idiv_ceil n rk_sup) 0 (bits_forn (N.of_nat n)) 64) as (sup & E1 & W1 & Ew1 & _ & C1).
  { unfold bits_forn. lia. }
  rewrite E1. cbn [obind]. change (bits_forn (N.of_nat rk_sup)) with 13.
  destruct (filled_width_ok (idiv_ceil n rk_block) 0 13 64) as (blk & E2 & W2 & Ew2 & _ & C2); [lia|].
  rewrite E2. cbn [obind].
  assert (NB : idiv_ceil n rk_block = (n + 63) / 64). { rewrite idiv_ceil_eq by (unfold rk_block; lia). f_equal. unfold rk_block. lia. }
  assert (NS : idiv_ceil n rk_sup = (n + 64 * 64 - 1) / (64 * 64)). { rewrite idiv_ceil_eq by (unfold rk_sup, rk_block; lia). change rk_sup with (64 * 64). auto. }
  set (nb := idiv_ceil n rk_block) in *. set (ns := idiv_ceil n rk_sup) in *.
  assert (LD : length (pv_ws bv) = nb). { destruct W as (_ & _ & ->). rewrite Ew, Nat.mul_1_r, b2b_ceil. auto. }
  destruct (rank_loop_ok (pv_ws bv) nb ns (bits_forn (N.of_nat n)) ltac:(lia)) with (k := nb) (j := 0) (sup := sup) (blk := blk) as (sup' & blk' & E & I).
  - intros i Hi. lia.
  - intros i Hi. unfold bits_forn. rewrite N2Nat.id. lia.
  - lia.
  - split; auto. split; auto. split; auto. split; auto.
    split; [rewrite <- (contents_len sup), C1; apply repeat_length|].
    split; [rewrite <- (contents_len blk), C2; apply repeat_length|].
    split; intros i Hi; change ((0 - 1) / 64) with 0 in *; lia.
  - change ((0 - 1) / 64) with 0 in E. change (cntb (getb (pv_ws bv)) (64 * 0)) with 0 in E. change (0 - _) with 0 in E.
    rewrite E. cbn [obind fst snd]. eexists. split; [reflexivity|]. intros x Hx. unfold rank1. cbn [rk_bv rk_blocks rk_supblocks].
    destruct I as (X1 & X2 & X3 & X4 & X5 & X6 & A & B).
    change rk_sup with (64 * 64) in *. change rk_block with 64 in *. change (64 * 64 / 64) with 64.
    set (R := cntb (getb (pv_ws bv))) in *.
    assert (S1 : (if 0 <? x / (64 * 64) then do a <- pv_get sup' (x / (64 * 64) - 1); Some (N.to_nat a) else Some 0) = Some (R ((64 * 64) * (x / (64 * 64))))).
    { destruct (0 <? x / (64 * 64)) eqn:Z.
      - rewrite get_ok by (auto; lia). cbn [obind]. rewrite A by lia. rewrite Nat2N.id. do 2 f_equal. lia.
      - replace (x / (64 * 64)) with 0 by lia. auto. }
    rewrite S1. cbn [obind].
    assert (x / (64 * 64) * 64 <= x / 64 < x / (64 * 64) * 64 + 64) as Hk by lia.
    assert (M : R ((64 * 64) * (x / (64 * 64))) <= R (64 * (x / 64))) by (apply cntb_mono; lia).
    assert (S2 : (if 0 <? x / 64 - x / (64 * 64) * 64 then do a <- pv_get blk' (x / 64 - 1); Some (R ((64 * 64) * (x / (64 * 64))) + N.to_nat a) else Some (R ((64 * 64) * (x / (64 * 64))))) = Some (R (64 * (x / 64)))).
    { destruct (0 <? x / 64 - x / (64 * 64) * 64) eqn:Z.
      - rewrite get_ok by (auto; lia). cbn [obind]. rewrite B by lia. rewrite Nat2N.id. f_equal.
        replace (64 * (x / 64 - 1 + 1)) with (64 * (x / 64)) by lia. replace ((x / 64 - 1) / 64) with (x / (64 * 64)) by lia. lia.
      - do 2 f_equal. lia. }
    rewrite S2. cbn [obind]. rewrite (nth_error_nth' (pv_ws bv) 0%N) by lia. cbn [obind].
    rewrite rank1_wm_ok by lia. f_equal. unfold R.
    replace (x + 1) with (64 * (x / 64) + (x mod 64 + 1)) by lia. rewrite (cntb_add (getb (pv_ws bv))). f_equal.
    apply cntb_ext. intros i Hi. rewrite getb_split by lia. auto.
Qed.
