(** Proofs about IntVec.v. *)
From Verif Require Import Base IntVec.
Local Open Scope nat_scope.
#[local] Arguments Nat.div : simpl never.
#[local] Arguments Nat.modulo : simpl never.

(** ** bits of words *)
Definition tb (x : N) (k : nat) : bool := N.testbit x (N.of_nat k).
Lemma tb_ext x y : (forall k, tb x k = tb y k) -> x = y.
Proof.
  intros H. apply N.bits_inj. intros k. specialize (H (N.to_nat k)). unfold tb in H.
  rewrite N2Nat.id in H. auto.
Qed.
Lemma tb_land x y k : tb (N.land x y) k = tb x k && tb y k.
Proof. apply N.land_spec. Qed.
Lemma tb_lor x y k : tb (N.lor x y) k = tb x k || tb y k.
Proof. apply N.lor_spec. Qed.
Lemma tb_shr x o k : tb (shr x o) k = tb x (k + o).
Proof. unfold tb, shr. rewrite N.shiftr_spec by lia. f_equal. lia. Qed.
Lemma tb_w64 x k : tb (w64 x) k = (k <? 64) && tb x k.
Proof.
  unfold tb, w64. destruct (k <? 64) eqn:E.
  - apply N.mod_pow2_bits_low. lia.
  - apply N.mod_pow2_bits_high. lia.
Qed.
Lemma tb_shl x o k : tb (shl x o) k = (k <? 64) && (o <=? k) && tb x (k - o).
Proof.
  unfold shl. rewrite tb_w64. destruct (k <? 64); auto. simpl. unfold tb.
  destruct (o <=? k) eqn:E.
  - rewrite N.shiftl_spec_high by lia. simpl. f_equal. lia.
  - rewrite N.shiftl_spec_low by lia. auto.
Qed.
Lemma tb_lo n k : tb (lo_set n) k = (k <? n).
Proof.
  unfold tb, lo_set. destruct (k <? n) eqn:E.
  - apply N.ones_spec_low. lia.
  - apply N.ones_spec_high. lia.
Qed.
Lemma tb_ones64 k : tb (N.ones 64) k = (k <? 64).
Proof. apply (tb_lo 64). Qed.
Lemma tb_not64 x k : tb (not64 x) k = xorb (tb x k) (k <? 64).
Proof. unfold not64. rewrite <- tb_ones64. apply N.lxor_spec. Qed.
Lemma tb_high x n k : (x < 2 ^ N.of_nat n)%N -> n <= k -> tb x k = false.
Proof.
  intros H Hk. unfold tb. rewrite <- (N.mod_small x (2 ^ N.of_nat n)) by auto.
  apply N.mod_pow2_bits_high. lia.
Qed.
Lemma tb_bound x n : (forall k, n <= k -> tb x k = false) -> (x < 2 ^ N.of_nat n)%N.
Proof.
  intros H. assert (E : x = (x mod 2 ^ N.of_nat n)%N).
  { apply tb_ext. intros k. unfold tb at 2. destruct (Nat.lt_ge_cases k n).
    - rewrite N.mod_pow2_bits_low by lia. auto.
    - rewrite N.mod_pow2_bits_high by lia. auto. }
  rewrite E. apply N.mod_upper_bound. apply N.pow_nonzero. lia.
Qed.

(** ** the bit sequence of a store *)
Definition words_ok (ws : list N) : Prop := Forall (fun a => (a < 2 ^ 64)%N) ws.
Definition getb (ws : list N) (p : nat) : bool := tb (nth (p / 64) ws 0%N) (p mod 64).
Lemma words_ok_nth ws i : words_ok ws -> (nth i ws 0 < 2 ^ 64)%N.
Proof.
  intros H. destruct (Nat.lt_ge_cases i (length ws)) as [L|L].
  - unfold words_ok in H. rewrite Forall_forall in H. apply H, nth_In; auto.
  - rewrite nth_overflow by auto. reflexivity.
Qed.
Lemma words_ok_upd ws i x : words_ok ws -> (x < 2 ^ 64)%N -> words_ok (upd ws i x).
Proof.
  unfold words_ok. revert i; induction ws as [|a ws IH]; intros [|i] H Hx; simpl; auto; inversion H; subst; constructor; auto.
Qed.
Lemma getb_split ws p k : k < 64 -> getb ws (64 * p + k) = tb (nth p ws 0%N) k.
Proof. intros. unfold getb. f_equal; [f_equal|]; lia. Qed.

Ltac bb := repeat (rewrite ?andb_true_r, ?andb_false_r, ?orb_true_r, ?orb_false_r, ?andb_true_l, ?andb_false_l, ?orb_true_l, ?orb_false_l; cbn [xorb negb]).
Lemma read_int_ok ws p len : words_ok ws -> 1 <= len <= 64 -> p + len <= 64 * length ws ->
  exists x, read_int ws p len = Some x /\ (forall k, tb x k = (k <? len) && getb ws (p + k)).
Proof.
  intros Hw Hl Hp. unfold read_int.
  rewrite (nth_error_nth' ws 0%N) by lia. cbn [obind].
  set (a := nth (p / 64) ws 0%N). assert (Ha : (a < 2 ^ N.of_nat 64)%N) by (apply (words_ok_nth ws (p / 64)); auto).
  destruct (64 <? p mod 64 + len) eqn:E.
  - rewrite (nth_error_nth' ws 0%N) by lia. cbn [obind]. eexists. split; [reflexivity|]. intros k.
    rewrite tb_lor, tb_shr, tb_shl, tb_land, tb_lo. unfold getb.
    destruct (Nat.lt_ge_cases (k + p mod 64) 64) as [L|L].
    + replace ((p + k) / 64) with (p / 64) by lia. replace ((p + k) mod 64) with (k + p mod 64) by lia.
      replace (64 - p mod 64 <=? k) with false by lia. rewrite andb_false_r, orb_false_r.
      replace (k <? len) with true by lia. auto.
    + rewrite (tb_high a 64) by auto. cbn [orb andb].
      destruct (k <? len) eqn:F.
      * replace ((p + k) / 64) with (p / 64 + 1) by lia. replace ((p + k) mod 64) with (k - (64 - p mod 64)) by lia.
        replace (k <? 64) with true by lia. replace (64 - p mod 64 <=? k) with true by lia.
        replace (k - (64 - p mod 64) <? (p mod 64 + len) mod 64) with true by lia. bb; auto.
      * replace (k - (64 - p mod 64) <? (p mod 64 + len) mod 64) with false by lia. bb; auto.
  - eexists. split; [reflexivity|]. intros k. rewrite tb_land, tb_shr, tb_lo, andb_comm.
    destruct (k <? len) eqn:F; auto. unfold getb. cbn [orb andb negb xorb].
    replace ((p + k) / 64) with (p / 64) by lia. replace ((p + k) mod 64) with (k + p mod 64) by lia. auto.
Qed.
Lemma getb_upd ws i x q : i < length ws -> getb (upd ws i x) q = if q / 64 =? i then tb x (q mod 64) else getb ws q.
Proof.
  intros H. unfold getb. destruct (q / 64 =? i) eqn:E.
  - apply Nat.eqb_eq in E. rewrite E, nth_upd_eq by auto. auto.
  - rewrite nth_upd_ne by lia. auto.
Qed.
Ltac tbs := repeat (rewrite ?tb_lor, ?tb_land, ?tb_shl, ?tb_shr, ?tb_lo, ?tb_not64, ?tb_ones64).
Lemma write_int_ok ws p x len : words_ok ws -> 1 <= len <= 64 -> p + len <= 64 * length ws ->
  exists ws', write_int ws p x len = Some ws' /\ length ws' = length ws /\ words_ok ws' /\
    forall q, getb ws' q = if (p <=? q) && (q <? p + len) then tb x (q - p) else getb ws q.
Proof.
  intros Hw Hl Hp. unfold write_int.
  rewrite (nth_error_nth' ws 0%N) by lia. cbn [obind].
  set (a := nth (p / 64) ws 0%N). assert (Ha : (a < 2 ^ N.of_nat 64)%N) by (apply (words_ok_nth ws (p / 64)); auto).
  assert (HA : forall q, q / 64 = p / 64 -> getb ws q = tb a (q mod 64)).
  { intros q E. unfold getb, a. rewrite E. auto. }
  destruct (p mod 64 + len <? 64) eqn:E.
  - eexists. split; [reflexivity|]. split; [apply upd_length|]. split.
    + apply words_ok_upd; auto. apply (tb_bound _ 64). intros k Hk. tbs. rewrite (tb_high a 64) by auto.
      replace (k <? 64) with false by lia. auto.
    + intros q. rewrite getb_upd by lia. destruct (q / 64 =? p / 64) eqn:F.
      * apply Nat.eqb_eq in F. rewrite (HA q F). tbs. replace (q mod 64 <? 64) with true by lia.
        destruct ((p <=? q) && (q <? p + len)) eqn:G.
        { replace (p mod 64 + len <=? q mod 64) with false by lia. replace (q mod 64 <? p mod 64) with false by lia.
          replace (p mod 64 <=? q mod 64) with true by lia. bb; auto.
          replace (q mod 64 - p mod 64) with (q - p) by lia. replace (q - p <? len) with true by lia.
          bb; auto. }
        { bb; auto. destruct (p mod 64 <=? q mod 64) eqn:K.
          - replace (p mod 64 + len <=? q mod 64) with true by lia.
            replace (q mod 64 - (p mod 64 + len) <? 64) with true by lia. bb; auto.
            replace (q mod 64 - p mod 64 <? len) with false by lia. bb; auto.
          - bb; auto. replace (q mod 64 <? p mod 64) with true by lia. bb; auto. }
      * apply Nat.eqb_neq in F. replace ((p <=? q) && (q <? p + len)) with false by lia. auto.
  - set (wd := N.lor (N.land a (lo_set (p mod 64))) (shl (N.land x (lo_set len)) (p mod 64))).
    assert (Hwd : (wd < 2 ^ 64)%N).
    { apply (tb_bound _ 64). intros k Hk. unfold wd. tbs. rewrite (tb_high a 64) by auto.
      replace (k <? 64) with false by lia. auto. }
    assert (W1 : forall q, getb (upd ws (p / 64) wd) q = if (p <=? q) && (q / 64 =? p / 64) then tb x (q - p) else getb ws q).
    { intros q. rewrite getb_upd by lia. destruct (q / 64 =? p / 64) eqn:F; [|rewrite andb_false_r; auto].
      apply Nat.eqb_eq in F. rewrite (HA q F). unfold wd. tbs. replace (q mod 64 <? 64) with true by lia.
      bb; auto. destruct (p <=? q) eqn:G.
      - replace (q mod 64 <? p mod 64) with false by lia. replace (p mod 64 <=? q mod 64) with true by lia.
        bb; auto. replace (q mod 64 - p mod 64) with (q - p) by lia.
        replace (q - p <? len) with true by lia. bb; auto.
      - replace (q mod 64 <? p mod 64) with true by lia. replace (p mod 64 <=? q mod 64) with false by lia.
        bb; auto. }
    destruct ((p mod 64 + len) mod 64 =? 0) eqn:Z.
    + eexists. split; [reflexivity|]. split; [apply upd_length|]. split; [apply words_ok_upd; auto|].
      intros q. rewrite W1. replace (q / 64 =? p / 64) with ((64 * (p / 64) <=? q) && (q <? p + len)) by lia.
      destruct (p <=? q) eqn:G; auto. replace (64 * (p / 64) <=? q) with true by lia. auto.
    + rewrite nth_error_upd_ne by lia. rewrite (nth_error_nth' ws 0%N) by lia. cbn [obind].
      set (b := nth (p / 64 + 1) ws 0%N). assert (Hb : (b < 2 ^ N.of_nat 64)%N) by (apply (words_ok_nth ws (p / 64 + 1)); auto).
      eexists. split; [reflexivity|]. split; [rewrite !upd_length; auto|]. split.
      * apply words_ok_upd; [apply words_ok_upd; auto|]. apply (tb_bound _ 64). intros k Hk. tbs.
        rewrite (tb_high b 64) by auto.
        replace (k + (len - (p mod 64 + len) mod 64) <? len) with false by lia. bb; auto.
      * intros q. rewrite getb_upd by (rewrite upd_length; lia). rewrite W1.
        destruct (q / 64 =? p / 64 + 1) eqn:F.
        { apply Nat.eqb_eq in F. tbs. replace (q mod 64 <? 64) with true by lia.
          replace (p <=? q) with true by lia. replace (q / 64 =? p / 64) with false by lia. bb; auto.
          unfold getb. rewrite F. fold b.
          destruct (q <? p + len) eqn:G.
          - replace (q mod 64 <? (p mod 64 + len) mod 64) with true by lia. bb; auto.
            replace (q mod 64 + (len - (p mod 64 + len) mod 64)) with (q - p) by lia.
            replace (q - p <? len) with true by lia. bb; auto.
          - replace (q mod 64 <? (p mod 64 + len) mod 64) with false by lia. bb; auto.
            replace (q mod 64 + (len - (p mod 64 + len) mod 64) <? len) with false by lia.
            bb; auto. }
        { apply Nat.eqb_neq in F. destruct (p <=? q) eqn:G; auto. bb; auto.
          replace (q / 64 =? p / 64) with (q <? p + len) by lia. auto. }
Qed.

(** ** reading and writing fields *)
Definition rd (ws : list N) (p len : nat) : N := match read_int ws p len with Some x => x | None => 0%N end.
Definition inr (ws : list N) (p len : nat) : Prop := 1 <= len <= 64 /\ p + len <= 64 * length ws.
Lemma rd_ok ws p len : words_ok ws -> inr ws p len ->
  read_int ws p len = Some (rd ws p len) /\ (rd ws p len < 2 ^ N.of_nat len)%N /\
  forall k, tb (rd ws p len) k = (k <? len) && getb ws (p + k).
Proof.
  intros Hw [H1 H2]. destruct (read_int_ok ws p len Hw H1 H2) as (x & E & B). unfold rd. rewrite E.
  split; auto. split; auto. apply tb_bound. intros k Hk. rewrite B. replace (k <? len) with false by lia. auto.
Qed.
Lemma rd_ext ws ws' p p' len : words_ok ws -> words_ok ws' -> inr ws p len -> inr ws' p' len ->
  (forall k, k < len -> getb ws (p + k) = getb ws' (p' + k)) -> rd ws p len = rd ws' p' len.
Proof.
  intros A B C D H. apply tb_ext. intros k. rewrite (proj2 (proj2 (rd_ok ws p len A C))).
  rewrite (proj2 (proj2 (rd_ok ws' p' len B D))). destruct (k <? len) eqn:E; auto. simpl. apply H. lia.
Qed.
Lemma tb_mod x w k : tb (x mod 2 ^ N.of_nat w)%N k = (k <? w) && tb x k.
Proof.
  unfold tb. destruct (k <? w) eqn:E.
  - apply N.mod_pow2_bits_low. lia.
  - apply N.mod_pow2_bits_high. lia.
Qed.
Lemma wr_ok ws p x len : words_ok ws -> inr ws p len ->
  exists ws', write_int ws p x len = Some ws' /\ length ws' = length ws /\ words_ok ws' /\
    rd ws' p len = (x mod 2 ^ N.of_nat len)%N /\
    (forall q l, inr ws q l -> q + l <= p \/ p + len <= q -> rd ws' q l = rd ws q l).
Proof.
  intros Hw [H1 H2]. destruct (write_int_ok ws p x len Hw H1 H2) as (ws' & E & L & W & B).
  exists ws'. split; auto. split; auto. split; auto. split.
  - apply tb_ext. intros k. rewrite (proj2 (proj2 (rd_ok ws' p len W ltac:(split; lia)))), tb_mod, B.
    destruct (k <? len) eqn:F; auto. replace ((p <=? p + k) && (p + k <? p + len)) with true by lia.
    cbn [andb]. f_equal. lia.
  - intros q l [Hq1 Hq2] HD. apply rd_ext; auto; [split; lia|split; lia|]. intros k Hk. rewrite B.
    replace ((p <=? q + k) && (q + k <? p + len)) with false by lia. auto.
Qed.

Definition el (ws : list N) (w i : nat) : N := rd ws (i * w) w.
Definition room (ws : list N) (w n : nat) : Prop := 1 <= w <= 64 /\ n * w <= 64 * length ws.
Lemma room_inr ws w n i : room ws w n -> i < n -> inr ws (i * w) w.
Proof. intros [A B] H. split; auto. nia. Qed.
Lemma room_le ws w n m : room ws w n -> m <= n -> room ws w m.
Proof. intros [A B] H. split; auto. nia. Qed.
Lemma room_len ws ws' w n : room ws w n -> length ws' = length ws -> room ws' w n.
Proof. intros [A B] H. split; auto. lia. Qed.
Lemma get_w_ok ws w n i : words_ok ws -> room ws w n -> i < n ->
  get_w ws w i = Some (el ws w i) /\ (el ws w i < 2 ^ N.of_nat w)%N.
Proof.
  intros Hw R Hi. destruct (rd_ok ws (i * w) w Hw (room_inr _ _ _ _ R Hi)) as (A & B & _). auto.
Qed.
Lemma set_w_ok ws w n i x : words_ok ws -> room ws w n -> i < n ->
  exists ws', set_w ws w i x = Some ws' /\ length ws' = length ws /\ words_ok ws' /\
    forall j, j < n -> el ws' w j = if j =? i then (x mod 2 ^ N.of_nat w)%N else el ws w j.
Proof.
  intros Hw R Hi. destruct (wr_ok ws (i * w) x w Hw (room_inr _ _ _ _ R Hi)) as (ws' & E & L & W & B & C).
  exists ws'. split; auto. split; auto. split; auto. intros j Hj. destruct (j =? i) eqn:F.
  - apply Nat.eqb_eq in F. subst. auto.
  - apply Nat.eqb_neq in F. apply C; [apply (room_inr ws w n j R Hj)|]. destruct R. nia.
Qed.
Lemma fill_w_ok w n x k : forall ws i, words_ok ws -> room ws w n -> i + k <= n ->
  exists ws', fill_w ws w i k x = Some ws' /\ length ws' = length ws /\ words_ok ws' /\
    forall j, j < n -> el ws' w j = if (i <=? j) && (j <? i + k) then (x mod 2 ^ N.of_nat w)%N else el ws w j.
Proof.
  induction k as [|k IH]; intros ws i Hw R Hk; cbn [fill_w].
  - exists ws. split; auto. split; auto. split; auto. intros j Hj. replace ((i <=? j) && (j <? i + 0)) with false by lia. auto.
  - destruct (set_w_ok ws w n i x Hw R ltac:(lia)) as (w1 & E & L & W & B). rewrite E. cbn [obind].
    destruct (IH w1 (i + 1) W (room_len _ _ _ _ R L) ltac:(lia)) as (w2 & E2 & L2 & W2 & B2).
    exists w2. split; auto. split; [lia|]. split; auto. intros j Hj. rewrite B2, B by auto.
    destruct (j =? i) eqn:F.
    + replace ((i + 1 <=? j) && (j <? i + 1 + k)) with false by lia.
      replace ((i <=? j) && (j <? i + S k)) with true by lia. auto.
    + replace ((i <=? j) && (j <? i + S k)) with ((i + 1 <=? j) && (j <? i + 1 + k)) by lia. auto.
Qed.
Lemma el_mod ws w n i : words_ok ws -> room ws w n -> i < n -> (el ws w i mod 2 ^ N.of_nat w)%N = el ws w i.
Proof. intros A B C. apply N.mod_small. apply (get_w_ok ws w n i A B C). Qed.
Lemma move_up_ok w n d p k : forall ws, words_ok ws -> room ws w n -> p + k + d <= n ->
  exists ws', move_up ws w d p k = Some ws' /\ length ws' = length ws /\ words_ok ws' /\
    forall j, j < n -> el ws' w j = if (p + d <=? j) && (j <? p + d + k) then el ws w (j - d) else el ws w j.
Proof.
  induction k as [|k IH]; intros ws Hw R Hk; cbn [move_up].
  - exists ws. split; auto. split; auto. split; auto. intros j Hj. replace ((p + d <=? j) && (j <? p + d + 0)) with false by lia. auto.
  - rewrite (proj1 (get_w_ok ws w n (p + k) Hw R ltac:(lia))). cbn [obind].
    destruct (set_w_ok ws w n (p + k + d) (el ws w (p + k)) Hw R ltac:(lia)) as (w1 & E & L & W & B). rewrite E. cbn [obind].
    rewrite (el_mod ws w n) in B by (auto; lia).
    destruct (IH w1 W (room_len _ _ _ _ R L) ltac:(lia)) as (w2 & E2 & L2 & W2 & B2).
    exists w2. split; auto. split; [lia|]. split; auto. intros j Hj. rewrite B2 by auto.
    destruct ((p + d <=? j) && (j <? p + d + k)) eqn:F.
    + replace ((p + d <=? j) && (j <? p + d + S k)) with true by lia. rewrite B by lia.
      replace (j - d =? p + k + d) with false by lia. auto.
    + rewrite B by auto. destruct (j =? p + k + d) eqn:G.
      * replace ((p + d <=? j) && (j <? p + d + S k)) with true by lia. f_equal. lia.
      * replace ((p + d <=? j) && (j <? p + d + S k)) with false by lia. auto.
Qed.
Lemma move_down_ok w n k : forall ws src dst, words_ok ws -> room ws w n -> dst <= src -> src + k <= n ->
  exists ws', move_down ws w src dst k = Some ws' /\ length ws' = length ws /\ words_ok ws' /\
    forall j, j < n -> el ws' w j = if (dst <=? j) && (j <? dst + k) then el ws w (j - dst + src) else el ws w j.
Proof.
  induction k as [|k IH]; intros ws src dst Hw R Hd Hk; cbn [move_down].
  - exists ws. split; auto. split; auto. split; auto. intros j Hj. replace ((dst <=? j) && (j <? dst + 0)) with false by lia. auto.
  - rewrite (proj1 (get_w_ok ws w n src Hw R ltac:(lia))). cbn [obind].
    destruct (set_w_ok ws w n dst (el ws w src) Hw R ltac:(lia)) as (w1 & E & L & W & B). rewrite E. cbn [obind].
    rewrite (el_mod ws w n) in B by (auto; lia).
    destruct (IH w1 (src + 1) (dst + 1) W (room_len _ _ _ _ R L) ltac:(lia) ltac:(lia)) as (w2 & E2 & L2 & W2 & B2).
    exists w2. split; auto. split; [lia|]. split; auto. intros j Hj. rewrite B2 by auto.
    destruct ((dst + 1 <=? j) && (j <? dst + 1 + k)) eqn:F.
    + replace ((dst <=? j) && (j <? dst + S k)) with true by lia. rewrite B by lia.
      replace (j - (dst + 1) + (src + 1) =? dst) with false by lia. f_equal. lia.
    + rewrite B by auto. destruct (j =? dst) eqn:G.
      * replace ((dst <=? j) && (j <? dst + S k)) with true by lia. f_equal. lia.
      * replace ((dst <=? j) && (j <? dst + S k)) with false by lia. auto.
Qed.
Lemma widen_ok ow nw k : forall ws, words_ok ws -> 1 <= ow -> ow <= nw -> room ws nw k ->
  exists ws', widen ws ow nw k = Some ws' /\ length ws' = length ws /\ words_ok ws' /\
    (forall j, j < k -> el ws' nw j = el ws ow j) /\
    (forall q l, inr ws q l -> k * nw <= q -> rd ws' q l = rd ws q l).
Proof.
  induction k as [|k IH]; intros ws Hw Ho Hn R; cbn [widen].
  - exists ws. repeat (split; auto). intros; lia.
  - assert (I1 : inr ws (k * ow) ow) by (destruct R; split; nia).
    assert (I2 : inr ws (k * nw) nw) by (destruct R; split; nia).
    destruct (rd_ok ws _ _ Hw I1) as (E0 & B0 & _). rewrite E0. cbn [obind].
    destruct (wr_ok ws (k * nw) (rd ws (k * ow) ow) nw Hw I2) as (w1 & E & L & W & B & C). rewrite E. cbn [obind].
    destruct (IH w1 W Ho Hn (room_len _ _ _ _ (room_le _ _ _ k R ltac:(lia)) L)) as (w2 & E2 & L2 & W2 & B2 & C2).
    exists w2. split; auto. split; [lia|]. split; auto.
    assert (TR : forall q l, inr ws q l -> inr w1 q l) by (intros q l [X Y]; split; [auto|lia]).
    split.
    + intros j Hj. destruct (Nat.eq_dec j k) as [->|].
      * unfold el at 1. rewrite C2 by auto. rewrite B. apply N.mod_small. eapply N.lt_le_trans; [apply B0|].
        apply N.pow_le_mono_r; lia.
      * rewrite B2 by lia. apply C; [|left; nia]. destruct R; split; nia.
    + intros q l I Hq. rewrite C2 by (auto; nia). apply C; auto. right. nia.
Qed.
Lemma narrow_ok ow nw n k : forall ws i, words_ok ws -> 1 <= nw -> nw <= ow -> room ws ow n -> i + k <= n ->
  exists ws', narrow ws ow nw i k = Some ws' /\ length ws' = length ws /\ words_ok ws' /\
    (forall j, i <= j < i + k -> el ws' nw j = (el ws ow j mod 2 ^ N.of_nat nw)%N) /\
    (forall q l, inr ws q l -> q + l <= i * nw -> rd ws' q l = rd ws q l).
Proof.
  induction k as [|k IH]; intros ws i Hw Ho Hn R Hk; cbn [narrow].
  - exists ws. repeat (split; auto). intros; lia.
  - assert (I1 : inr ws (i * ow) ow) by (destruct R; split; nia).
    assert (I2 : inr ws (i * nw) nw) by (destruct R; split; nia).
    destruct (rd_ok ws _ _ Hw I1) as (E0 & B0 & _). rewrite E0. cbn [obind].
    destruct (wr_ok ws (i * nw) (rd ws (i * ow) ow) nw Hw I2) as (w1 & E & L & W & B & C). rewrite E. cbn [obind].
    destruct (IH w1 (i + 1) W Ho Hn (room_len _ _ _ _ R L) ltac:(lia)) as (w2 & E2 & L2 & W2 & B2 & C2).
    exists w2. split; auto. split; [lia|]. split; auto.
    assert (TR : forall q l, inr ws q l -> inr w1 q l) by (intros q l [X Y]; split; [auto|lia]).
    split.
    + intros j Hj. destruct (Nat.eq_dec j i) as [->|].
      * unfold el at 1. rewrite C2 by (auto; nia). rewrite B. auto.
      * rewrite B2 by lia. f_equal. apply C; [|right; nia]. destruct R; split; nia.
    + intros q l I Hq. rewrite C2 by (auto; nia). apply C; auto.
Qed.

(** ** store resizing *)
Lemma getb_app ws zs q : q < 64 * length ws -> getb (ws ++ zs) q = getb ws q.
Proof. intros H. unfold getb. rewrite app_nth1 by lia. auto. Qed.
Lemma nth_firstn_lt {A} (l : list A) m i d : i < m -> nth i (firstn m l) d = nth i l d.
Proof.
  revert l m; induction i; intros [|x l] [|m] H; simpl; auto; try lia. apply IHi. lia.
Qed.
Lemma getb_firstn ws m q : q < 64 * m -> getb (firstn m ws) q = getb ws q.
Proof. intros H. unfold getb. rewrite nth_firstn_lt by lia. auto. Qed.
Lemma words_ok_app a b : words_ok a -> words_ok b -> words_ok (a ++ b).
Proof. intros. apply Forall_app. auto. Qed.
Lemma words_ok_zeros n : words_ok (repeat 0%N n).
Proof. apply Forall_forall. intros x Hx. apply repeat_spec in Hx. subst. reflexivity. Qed.
Lemma words_ok_firstn n a : words_ok a -> words_ok (firstn n a).
Proof. unfold words_ok. rewrite !Forall_forall. intros H x Hx. apply H. rewrite <- (firstn_skipn n a). apply in_or_app. auto. Qed.
Lemma words_resize_len ws n : length (words_resize ws n) = n.
Proof. unfold words_resize. rewrite app_length, firstn_length, repeat_length. lia. Qed.
Lemma words_resize_ok ws n : words_ok ws -> words_ok (words_resize ws n).
Proof. intros. apply words_ok_app; [apply words_ok_firstn; auto|apply words_ok_zeros]. Qed.
Lemma rd_resize ws n q l : words_ok ws -> inr ws q l -> q + l <= 64 * n -> rd (words_resize ws n) q l = rd ws q l.
Proof.
  intros Hw I Hn. destruct I as [I1 I2]. apply rd_ext; auto.
  - apply words_resize_ok; auto.
  - split; auto. rewrite words_resize_len. auto.
  - split; auto.
  - intros k Hk. unfold words_resize. destruct (Nat.le_gt_cases n (length ws)).
    + rewrite getb_app by (rewrite firstn_length; lia). apply getb_firstn. lia.
    + rewrite getb_app by (rewrite firstn_length; lia). rewrite firstn_all2 by lia. auto.
Qed.
Lemma rd_app ws zs q l : words_ok ws -> words_ok zs -> inr ws q l -> rd (ws ++ zs) q l = rd ws q l.
Proof.
  intros Hw Hz I. destruct I as [I1 I2]. apply rd_ext; auto; [apply words_ok_app; auto|split; auto; rewrite app_length; lia|split; auto|].
  intros. apply getb_app. lia.
Qed.
Lemma rd_firstn ws m q l : words_ok ws -> inr ws q l -> q + l <= 64 * m -> rd (firstn m ws) q l = rd ws q l.
Proof.
  intros Hw I H. destruct I as [I1 I2]. apply rd_ext; auto; [apply words_ok_firstn; auto|split; auto; rewrite firstn_length; lia|split; auto|].
  intros. apply getb_firstn. lia.
Qed.

(** ** vectors *)
Lemma b2b_ge x : x <= 64 * bits2backing x.
Proof. unfold bits2backing. destruct (x =? 0) eqn:E; lia. Qed.
Lemma b2b_lt x : 64 * bits2backing x < x + 64.
Proof. unfold bits2backing. destruct (x =? 0) eqn:E; lia. Qed.
Lemma b2b_mono x y : x <= y -> bits2backing x <= bits2backing y.
Proof. unfold bits2backing. intros. destruct (x =? 0) eqn:E, (y =? 0) eqn:F; lia. Qed.
Lemma b2b_eq x : bits2backing x = (x + 63) / 64.
Proof. unfold bits2backing. destruct (x =? 0) eqn:E; lia. Qed.
Lemma b2b_insert a b : bits2backing b +
  bits2backing (if 64 * bits2backing b - b <? a then a - (64 * bits2backing b - b) else 0) = bits2backing (b + a).
Proof. destruct (_ <? a) eqn:E; rewrite !b2b_eq in *; lia. Qed.
Definition wf (v : pvec) : Prop :=
  1 <= pv_w v <= 64 /\ words_ok (pv_ws v) /\ length (pv_ws v) = bits2backing (pv_n v * pv_w v).
Definition contents (v : pvec) : list N := map (el (pv_ws v) (pv_w v)) (seq 0 (pv_n v)).
Lemma contents_len v : length (contents v) = pv_n v.
Proof. unfold contents. rewrite map_length, seq_length. auto. Qed.
Lemma contents_nth v i d : i < pv_n v -> nth i (contents v) d = el (pv_ws v) (pv_w v) i.
Proof.
  intros H. unfold contents. rewrite (nth_indep _ d (el (pv_ws v) (pv_w v) 0)) by (rewrite map_length, seq_length; auto).
  rewrite map_nth, seq_nth by auto. auto.
Qed.
Lemma wf_room v : wf v -> room (pv_ws v) (pv_w v) (pv_n v).
Proof. intros (A & B & C). split; auto. rewrite C. apply b2b_ge. Qed.
Lemma contents_is v l : length l = pv_n v -> (forall j, j < pv_n v -> el (pv_ws v) (pv_w v) j = nth j l 0%N) -> contents v = l.
Proof.
  intros H E. apply nth_ext with (d := 0%N) (d' := 0%N); rewrite contents_len; auto.
  intros i Hi. rewrite contents_nth by auto. auto.
Qed.
Lemma get_ok v i : wf v -> i < pv_n v -> pv_get v i = Some (nth i (contents v) 0%N).
Proof.
  intros H Hi. unfold pv_get. replace (i <? pv_n v) with true by lia. rewrite contents_nth by auto.
  apply (get_w_ok _ _ (pv_n v)); auto; [apply H|apply wf_room; auto].
Qed.
Lemma nth_upd {A} (l : list A) i j x d : i < length l -> nth j (upd l i x) d = if j =? i then x else nth j l d.
Proof.
  intros H. destruct (j =? i) eqn:E.
  - apply Nat.eqb_eq in E. subst. apply nth_upd_eq; auto.
  - apply nth_upd_ne. lia.
Qed.
Definition trunc (w : nat) (x : N) : N := (x mod 2 ^ N.of_nat w)%N.
Lemma set_ok v i x : wf v -> i < pv_n v ->
  exists v', pv_set v i x = Some v' /\ wf v' /\ pv_w v' = pv_w v /\ pv_fixed v' = pv_fixed v /\
    contents v' = upd (contents v) i (trunc (pv_w v) x).
Proof.
  intros H Hi. unfold pv_set. replace (i <? pv_n v) with true by lia.
  destruct (set_w_ok (pv_ws v) (pv_w v) (pv_n v) i x) as (ws & E & L & W & B); auto; [apply H|apply wf_room; auto|].
  rewrite E. cbn [obind]. exists (with_ws v ws). split; auto. split.
  - destruct H as (A & _ & C). split; auto. split; auto. simpl. lia.
  - split; auto. split; auto. apply contents_is; simpl; [rewrite upd_length, contents_len; auto|].
    intros j Hj. rewrite B, nth_upd by (auto; rewrite contents_len; auto). destruct (j =? i); auto.
    rewrite contents_nth; auto.
Qed.
Lemma sized_ok n w f : 1 <= w <= 64 -> wf (pv_sized n w f) /\ contents (pv_sized n w f) = repeat 0%N n.
Proof.
  intros H. assert (W : wf (pv_sized n w f)).
  { split; auto. split; [apply words_ok_zeros|]. simpl. apply repeat_length. }
  split; auto. apply contents_is; simpl; [apply repeat_length|]. intros j Hj. rewrite nth_repeat.
  apply tb_ext. intros k. rewrite (proj2 (proj2 (rd_ok _ (j * w) w (words_ok_zeros _) (room_inr _ _ _ _ (wf_room _ W) Hj)))).
  unfold getb. rewrite nth_repeat. unfold tb. rewrite !N.bits_0. apply andb_false_r.
Qed.
Lemma nth_repeat_lt {A} (x d : A) n i : i < n -> nth i (repeat x n) d = x.
Proof. revert i; induction n; intros [|i] H; simpl; auto; try lia. apply IHn. lia. Qed.
Lemma filled_ok n x w f : 1 <= w <= 64 ->
  exists v, pv_filled n x w f = Some v /\ wf v /\ pv_w v = w /\ contents v = repeat (trunc w x) n.
Proof.
  intros H. destruct (sized_ok n w f H) as [W C]. unfold pv_filled.
  destruct (fill_w_ok w n x n (pv_ws (pv_sized n w f)) 0) as (ws & E & L & W2 & B); auto; [apply W|apply (wf_room _ W)|].
  rewrite E. cbn [obind]. eexists. split; [reflexivity|]. split; [split; auto; split; auto; simpl; rewrite L; apply repeat_length|].
  split; auto. apply contents_is; simpl; [apply repeat_length|]. intros j Hj. rewrite B by auto.
  replace (_ && _) with true by lia. rewrite nth_repeat_lt; auto.
Qed.
Lemma resize0_shrink v n : wf v -> n <= pv_n v ->
  wf (pv_resize0 v n) /\ contents (pv_resize0 v n) = firstn n (contents v).
Proof.
  intros H Hn. pose proof (wf_room _ H) as R. destruct H as (A & B & C). split.
  - split; auto. split; [apply words_resize_ok; auto|]. apply words_resize_len.
  - apply contents_is; simpl; [rewrite firstn_length, contents_len; lia|]. intros j Hj.
    rewrite nth_firstn_lt, contents_nth by lia.
    apply rd_resize; auto; [apply (room_inr _ _ _ _ R); lia|]. pose proof (b2b_ge (n * pv_w v)). nia.
Qed.
Lemma resize_ok v n x : wf v ->
  exists v', pv_resize v n x = Some v' /\ wf v' /\ pv_w v' = pv_w v /\ pv_fixed v' = pv_fixed v /\
    contents v' = firstn n (contents v) ++ repeat (trunc (pv_w v) x) (n - pv_n v).
Proof.
  intros H. unfold pv_resize. destruct (pv_n v <? n) eqn:E.
  - pose proof (wf_room _ H) as R. destruct H as (A & B & C).
    assert (R2 : room (pv_ws (pv_resize0 v n)) (pv_w v) n).
    { split; auto. simpl. rewrite words_resize_len. apply b2b_ge. }
    destruct (fill_w_ok (pv_w v) n x (n - pv_n v) (pv_ws (pv_resize0 v n)) (pv_n v)) as (ws & F & L & W2 & B2);
      auto; [apply words_resize_ok; auto|lia|]. rewrite F. cbn [obind]. eexists. split; [reflexivity|].
    split; [split; auto; split; auto; simpl in L |- *; rewrite L; apply words_resize_len|]. split; auto. split; auto.
    apply contents_is; simpl; [rewrite app_length, firstn_length, contents_len, repeat_length; lia|]. intros j Hj.
    rewrite B2 by auto. rewrite (firstn_all2 (contents v)) by (rewrite contents_len; lia).
    destruct ((pv_n v <=? j) && (j <? pv_n v + (n - pv_n v))) eqn:G.
    + rewrite app_nth2 by (rewrite contents_len; lia). rewrite nth_repeat_lt; auto. rewrite contents_len. lia.
    + rewrite app_nth1 by (rewrite contents_len; lia). rewrite contents_nth by lia.
      apply rd_resize; auto; [apply (room_inr _ _ _ _ R); lia|]. pose proof (b2b_ge (n * pv_w v)). nia.
  - destruct (resize0_shrink v n H ltac:(lia)) as [W E2]. eexists. split; [reflexivity|]. split; auto. split; auto. split; auto.
    rewrite E2. replace (n - pv_n v) with 0 by lia. simpl. rewrite app_nil_r. auto.
Qed.
Lemma push_ok v x : wf v ->
  exists v', pv_push v x = Some v' /\ wf v' /\ pv_w v' = pv_w v /\ pv_fixed v' = pv_fixed v /\
    contents v' = contents v ++ [trunc (pv_w v) x].
Proof.
  intros H. pose proof (wf_room _ H) as R. destruct H as (A & B & C). unfold pv_push.
  set (ws := pv_ws v ++ _). assert (Lw : length ws = bits2backing ((pv_n v + 1) * pv_w v)).
  { unfold ws. rewrite app_length, repeat_length. pose proof (b2b_mono (pv_n v * pv_w v) ((pv_n v + 1) * pv_w v) ltac:(nia)). lia. }
  assert (Ww : words_ok ws) by (apply words_ok_app; auto; apply words_ok_zeros).
  assert (R2 : room ws (pv_w v) (pv_n v + 1)) by (split; auto; rewrite Lw; apply b2b_ge).
  destruct (set_w_ok ws (pv_w v) (pv_n v + 1) (pv_n v) x Ww R2 ltac:(lia)) as (w1 & E & L & W & B2). rewrite E. cbn [obind].
  eexists. split; [reflexivity|]. split; [split; auto; split; auto; simpl; lia|]. split; auto. split; auto.
  apply contents_is; simpl; [rewrite app_length, contents_len; auto|]. intros j Hj. rewrite B2 by auto.
  destruct (j =? pv_n v) eqn:F.
  - rewrite app_nth2 by (rewrite contents_len; lia). rewrite contents_len. replace (j - pv_n v) with 0 by lia. auto.
  - rewrite app_nth1 by (rewrite contents_len; lia). rewrite contents_nth by lia.
    apply rd_app; auto; [apply words_ok_zeros|]. apply (room_inr _ _ _ _ R). lia.
Qed.
Lemma pop_ok v : wf v -> 0 < pv_n v ->
  exists v', pv_pop v = Some v' /\ wf v' /\ pv_w v' = pv_w v /\ pv_fixed v' = pv_fixed v /\
    contents v' = firstn (pv_n v - 1) (contents v).
Proof.
  intros H Hn. pose proof (wf_room _ H) as R. destruct H as (A & B & C). unfold pv_pop.
  destruct (pv_n v) as [|n] eqn:En; [lia|]. eexists. split; [reflexivity|].
  pose proof (b2b_mono (n * pv_w v) (S n * pv_w v) ltac:(lia)).
  split; [split; auto; split; simpl; [apply words_ok_firstn; auto|rewrite firstn_length; lia]|]. split; auto. split; auto.
  apply contents_is; simpl; [rewrite firstn_length, contents_len; lia|]. intros j Hj. replace (n - 0) with n by lia.
  rewrite nth_firstn_lt, contents_nth by lia.
  apply rd_firstn; auto; [apply (room_inr _ _ _ _ R); lia|]. pose proof (b2b_ge (n * pv_w v)). nia.
Qed.
Lemma insert_ok v p n x : wf v -> p <= pv_n v ->
  exists v', pv_insert v p n x = Some v' /\ wf v' /\ pv_w v' = pv_w v /\ pv_fixed v' = pv_fixed v /\
    contents v' = firstn p (contents v) ++ repeat (trunc (pv_w v) x) n ++ skipn p (contents v).
Proof.
  intros H Hp. pose proof (wf_room _ H) as R. destruct H as (A & B & C). unfold pv_insert.
  set (w := pv_w v) in *. set (need := if _ <? _ then _ else _). set (ws := pv_ws v ++ _).
  assert (Lw : length ws = bits2backing ((pv_n v + n) * w)).
  { unfold ws. rewrite app_length, repeat_length, C. unfold need. rewrite C. clear.
    rewrite Nat.mul_add_distr_r. apply b2b_insert. }
  assert (Ww : words_ok ws) by (apply words_ok_app; auto; apply words_ok_zeros).
  assert (R2 : room ws w (pv_n v + n)) by (split; auto; rewrite Lw; apply b2b_ge).
  destruct (move_up_ok w (pv_n v + n) n p (pv_n v - p) ws Ww R2 ltac:(lia)) as (w1 & E1 & L1 & W1 & B1). rewrite E1. cbn [obind].
  destruct (fill_w_ok w (pv_n v + n) x n w1 p W1 (room_len _ _ _ _ R2 L1) ltac:(lia)) as (w2 & E2 & L2 & W2 & B2). rewrite E2. cbn [obind].
  eexists. split; [reflexivity|]. split; [split; auto; split; auto; simpl; fold w; lia|]. split; auto. split; auto.
  apply contents_is; simpl.
  { rewrite !app_length, firstn_length, repeat_length, skipn_length, contents_len. lia. }
  intros j Hj. fold w. rewrite B2 by auto.
  assert (O : forall i, i < pv_n v -> el ws w i = nth i (contents v) 0%N).
  { intros i Hi. rewrite contents_nth by auto. apply rd_app; auto; [apply words_ok_zeros|]. apply (room_inr _ _ _ _ R). auto. }
  assert (Lf : length (firstn p (contents v)) = p) by (rewrite firstn_length, contents_len; lia).
  destruct (Nat.lt_ge_cases j p) as [J|J].
  - rewrite app_nth1 by lia. rewrite nth_firstn_lt by auto. replace (p <=? j) with false by lia. cbn [andb].
    rewrite B1 by auto. replace (p + n <=? j) with false by lia. cbn [andb]. apply O. lia.
  - rewrite app_nth2, Lf by lia. destruct (Nat.lt_ge_cases j (p + n)) as [K|K].
    + rewrite app_nth1 by (rewrite repeat_length; lia). rewrite nth_repeat_lt by lia.
      replace ((p <=? j) && (j <? p + n)) with true by lia. auto.
    + rewrite app_nth2 by (rewrite repeat_length; lia). rewrite repeat_length.
      replace (j <? p + n) with false by lia. rewrite andb_false_r. rewrite B1 by auto.
      replace ((p + n <=? j) && (j <? p + n + (pv_n v - p))) with true by lia. rewrite O by lia.
      rewrite <- (firstn_skipn p (contents v)) at 1. rewrite app_nth2 by lia. f_equal. lia.
Qed.
Lemma insert_list_ok xs : forall v p, wf v -> p <= pv_n v ->
  exists v', pv_insert_list v p xs = Some v' /\ wf v' /\ pv_w v' = pv_w v /\ pv_fixed v' = pv_fixed v /\
    contents v' = firstn p (contents v) ++ map (trunc (pv_w v)) xs ++ skipn p (contents v).
Proof.
  induction xs as [|x xs IH]; intros v p H Hp; cbn [pv_insert_list].
  - exists v. repeat (split; auto). simpl. rewrite firstn_skipn. auto.
  - destruct (insert_ok v p 1 x H Hp) as (v1 & E & W & Ew & Ef & C). rewrite E. cbn [obind].
    assert (Ln : pv_n v1 = pv_n v + 1).
    { rewrite <- (contents_len v1), C, !app_length, firstn_length, skipn_length, contents_len. simpl. lia. }
    destruct (IH v1 (p + 1) W ltac:(lia)) as (v2 & E2 & W2 & Ew2 & Ef2 & C2).
    exists v2. split; auto. split; auto. split; [congruence|]. split; [congruence|]. rewrite C2, C, Ew. simpl.
    assert (Lf : length (firstn p (contents v)) = p) by (rewrite firstn_length, contents_len; lia).
    rewrite firstn_app, skipn_app, Lf. replace (p + 1 - p) with 1 by lia. simpl.
    rewrite (firstn_all2 (firstn p _)) by lia. rewrite (skipn_all2 (firstn p _)) by lia. simpl.
    rewrite <- app_assoc. auto.
Qed.
Lemma erase_ok v a b : wf v -> a <= b <= pv_n v ->
  exists v', pv_erase v a b = Some v' /\ wf v' /\ pv_w v' = pv_w v /\ pv_fixed v' = pv_fixed v /\
    contents v' = firstn a (contents v) ++ skipn b (contents v).
Proof.
  intros H Hab. pose proof (wf_room _ H) as R. destruct H as (A & B & C). unfold pv_erase.
  destruct (move_down_ok (pv_w v) (pv_n v) (pv_n v - b) (pv_ws v) b a B R ltac:(lia) ltac:(lia)) as (w1 & E & L & W & B1).
  rewrite E. cbn [obind]. set (n' := pv_n v - (b - a)).
  pose proof (b2b_mono (n' * pv_w v) (pv_n v * pv_w v) ltac:(unfold n'; nia)) as M.
  replace (length w1 - (length w1 - bits2backing (n' * pv_w v))) with (bits2backing (n' * pv_w v)) by lia.
  eexists. split; [reflexivity|]. split; [split; auto; split; simpl; [apply words_ok_firstn; auto|rewrite firstn_length; lia]|].
  split; auto. split; auto.
  apply contents_is; simpl; [rewrite app_length, firstn_length, skipn_length, contents_len; unfold n'; lia|]. intros j Hj.
  assert (Lf : length (firstn a (contents v)) = a) by (rewrite firstn_length, contents_len; lia).
  transitivity (el w1 (pv_w v) j).
  { apply rd_firstn; auto; [apply (room_inr _ _ (pv_n v)); [apply (room_len _ _ _ _ R); auto|unfold n' in Hj; lia]|].
    pose proof (b2b_ge (n' * pv_w v)). nia. }
  rewrite B1 by (unfold n' in Hj; lia). destruct (Nat.lt_ge_cases j a) as [J|J].
  - rewrite app_nth1 by lia. rewrite nth_firstn_lt by auto. replace (a <=? j) with false by lia. cbn [andb].
    rewrite contents_nth by lia. auto.
  - rewrite app_nth2, Lf by lia. unfold n' in Hj. replace ((a <=? j) && (j <? a + (pv_n v - b))) with true by lia.
    rewrite <- (contents_nth v _ 0%N) by lia. rewrite <- (firstn_skipn b (contents v)) at 1.
    assert (Lb : length (firstn b (contents v)) = b) by (rewrite firstn_length, contents_len; lia).
    rewrite app_nth2 by lia. f_equal. lia.
Qed.
Lemma clear_ok v : wf v -> wf (pv_clear v) /\ contents (pv_clear v) = [].
Proof. intros (A & _ & _). split; auto. split; auto. split; [constructor|]. auto. Qed.
Lemma map_ext_nth {A B} (f : A -> B) l j d d' : j < length l -> nth j (map f l) d = f (nth j l d').
Proof. intros H. rewrite (nth_indep _ d (f d')) by (rewrite map_length; auto). apply map_nth. Qed.
Lemma resize_width_ok v n x w : wf v -> pv_fixed v = false -> 1 <= w <= 64 -> w <> pv_w v ->
  exists v', pv_resize_width v n x w = Some v' /\ wf v' /\ pv_w v' = w /\ pv_fixed v' = false /\
    contents v' = map (trunc w) (firstn n (contents v)) ++ repeat (trunc w x) (n - pv_n v).
Proof.
  intros H Hf Hw Hne. pose proof (wf_room _ H) as R. destruct H as (A & B & C). unfold pv_resize_width. rewrite Hf.
  assert (G : forall v1, wf v1 -> pv_n v1 = n -> pv_w v1 = w -> pv_fixed v1 = false ->
    (forall j, j < Nat.min (pv_n v) n -> el (pv_ws v1) w j = trunc w (el (pv_ws v) (pv_w v) j)) ->
    exists v', (do ws <- fill_w (pv_ws v1) (pv_w v1) (pv_n v) (pv_n v1 - pv_n v) x; Some (with_ws v1 ws)) = Some v' /\
      wf v' /\ pv_w v' = w /\ pv_fixed v' = false /\
      contents v' = map (trunc w) (firstn n (contents v)) ++ repeat (trunc w x) (n - pv_n v)).
  { intros v1 W1 N1 Ew Ef X. pose proof (wf_room _ W1) as R1. rewrite N1, Ew in *. destruct W1 as (A1 & B1 & C1).
    destruct (Nat.le_gt_cases n (pv_n v)) as [Le|Gt].
    - replace (n - pv_n v) with 0 by lia. cbn [fill_w obind]. exists (with_ws v1 (pv_ws v1)). split; auto.
      split; [split; [auto|split; auto]|]. split; auto. split; auto. simpl repeat. rewrite app_nil_r.
      apply contents_is; simpl; [rewrite map_length, firstn_length, contents_len; lia|]. rewrite N1, Ew. intros j Hj.
      rewrite (map_ext_nth _ _ _ _ 0%N) by (rewrite firstn_length, contents_len; lia).
      rewrite nth_firstn_lt, contents_nth by lia. apply X. lia.
    - destruct (fill_w_ok w n x (n - pv_n v) (pv_ws v1) (pv_n v) B1 R1 ltac:(lia)) as (ws & E & L & W & B2).
      rewrite E. cbn [obind]. exists (with_ws v1 ws). split; auto.
      split; [split; [auto|split; simpl; [auto|lia]]|]. split; auto. split; auto.
      rewrite (firstn_all2 (contents v)) by (rewrite contents_len; lia).
      apply contents_is; simpl; [rewrite app_length, map_length, contents_len, repeat_length; lia|]. rewrite N1, Ew.
      intros j Hj. rewrite B2 by auto. destruct (Nat.lt_ge_cases j (pv_n v)) as [J|J].
      + rewrite app_nth1 by (rewrite map_length, contents_len; lia). rewrite (map_ext_nth _ _ _ _ 0%N) by (rewrite contents_len; lia).
        rewrite contents_nth by lia. replace (pv_n v <=? j) with false by lia. cbn [andb]. apply X. lia.
      + rewrite app_nth2 by (rewrite map_length, contents_len; lia). rewrite map_length, contents_len, nth_repeat_lt by lia.
        replace (_ && _) with true by lia. auto. }
  destruct (pv_w v <? w) eqn:E.
  - set (ws := words_resize _ _).
    assert (Lw : length ws = bits2backing (n * w)) by apply words_resize_len.
    assert (Ww : words_ok ws) by (apply words_resize_ok; auto).
    assert (R2 : room ws w (Nat.min (pv_n v) n)).
    { split; auto. rewrite Lw. pose proof (b2b_ge (n * w)). nia. }
    destruct (widen_ok (pv_w v) w (Nat.min (pv_n v) n) ws Ww ltac:(lia) ltac:(lia) R2) as (w1 & E1 & L1 & W1 & B1 & _).
    rewrite E1. cbn [obind]. apply G; simpl; auto; [split; auto; split; simpl; auto; lia|].
    intros j Hj. rewrite B1 by auto.
    assert (X : el ws (pv_w v) j = el (pv_ws v) (pv_w v) j).
    { apply rd_resize; auto; [apply (room_inr _ _ _ _ R); lia|]. pose proof (b2b_ge (n * w)). nia. }
    rewrite X. symmetry. apply N.mod_small. eapply N.lt_le_trans; [apply (get_w_ok _ _ (pv_n v)); auto; lia|].
    apply N.pow_le_mono_r; lia.
  - replace (w <? pv_w v) with true by lia.
    destruct (narrow_ok (pv_w v) w (pv_n v) (Nat.min (pv_n v) n) (pv_ws v) 0 B ltac:(lia) ltac:(lia) R ltac:(lia))
      as (w1 & E1 & L1 & W1 & B1 & _). rewrite E1. cbn [obind].
    apply G; simpl; auto; [split; auto; split; [apply words_resize_ok; auto|apply words_resize_len]|].
    intros j Hj. transitivity (el w1 w j); [|apply B1; lia]. destruct R as [R1 R3].
    apply rd_resize; auto; [split; auto; nia|]. pose proof (b2b_ge (n * w)). nia.
Qed.

(** ** equality *)
Lemma getb_el ws w n p : words_ok ws -> room ws w n -> p < n * w -> getb ws p = tb (el ws w (p / w)) (p mod w).
Proof.
  intros Hw R Hp. assert (w <> 0) by (destruct R; lia).
  assert (D : p = w * (p / w) + p mod w) by (apply Nat.div_mod; auto).
  assert (M : p mod w < w) by (apply Nat.mod_upper_bound; auto).
  assert (I : p / w < n) by (apply Nat.div_lt_upper_bound; lia).
  unfold el. rewrite (proj2 (proj2 (rd_ok ws _ w Hw (room_inr _ _ _ _ R I)))).
  replace (p mod w <? w) with true by lia. cbn [andb]. f_equal. lia.
Qed.
Lemma eq_words_spec a : forall b, eq_words a b = true <-> a = b.
Proof.
  induction a as [|x a IH]; intros [|y b]; simpl; split; intros; try discriminate; auto.
  - apply andb_prop in H. destruct H as [H1 H2]. apply N.eqb_eq in H1. apply IH in H2. subst; auto.
  - injection H as -> ->. rewrite N.eqb_refl. simpl. apply IH. auto.
Qed.
Lemma words_ext a b : words_ok a -> words_ok b -> length a = length b ->
  (forall p, p < 64 * length a -> getb a p = getb b p) -> a = b.
Proof.
  intros Ha Hb L H. apply nth_ext with (d := 0%N) (d' := 0%N); auto. intros i Hi. apply tb_ext. intros k.
  destruct (Nat.lt_ge_cases k 64) as [K|K].
  - rewrite <- !getb_split by auto. apply H. lia.
  - rewrite !(tb_high _ 64); auto; apply words_ok_nth; auto.
Qed.
Lemma eq_elems_spec a b w n k : forall i, words_ok a -> words_ok b -> room a w n -> room b w n -> i + k <= n ->
  exists r, eq_elems a b w w i k = Some r /\ (r = true <-> forall j, i <= j < i + k -> el a w j = el b w j).
Proof.
  induction k as [|k IH]; intros i Ha Hb Ra Rb H; cbn [eq_elems].
  - exists true. split; auto. split; auto. intros _ j Hj. lia.
  - rewrite (proj1 (get_w_ok a w n i Ha Ra ltac:(lia))), (proj1 (get_w_ok b w n i Hb Rb ltac:(lia))). cbn [obind].
    destruct (el a w i =? el b w i)%N eqn:E.
    + apply N.eqb_eq in E. destruct (IH (i + 1) Ha Hb Ra Rb ltac:(lia)) as (r & F & G). exists r. split; auto.
      rewrite G. split; intros X j Hj.
      * destruct (Nat.eq_dec j i) as [->|]; auto. apply X. lia.
      * apply X. lia.
    + apply N.eqb_neq in E. exists false. split; auto. split; [discriminate|]. intros X. exfalso. apply E, X. lia.
Qed.
Lemma contents_eq a b w n : words_ok a -> words_ok b -> room a w n -> room b w n ->
  map (el a w) (seq 0 n) = map (el b w) (seq 0 n) <-> forall j, j < n -> el a w j = el b w j.
Proof.
  intros. split.
  - intros E j Hj. assert (X : nth j (map (el a w) (seq 0 n)) 0%N = nth j (map (el b w) (seq 0 n)) 0%N) by (rewrite E; auto).
    rewrite !(map_ext_nth _ _ _ _ 0) in X by (rewrite seq_length; auto). rewrite !seq_nth in X by auto. auto.
  - intros E. apply map_ext_in. intros j Hj. apply in_seq in Hj. apply E. lia.
Qed.
Lemma pv_eq_ok a b : wf a -> wf b -> pv_w a = pv_w b ->
  exists r, pv_eq a b = Some r /\ (r = true <-> contents a = contents b).
Proof.
  intros Wa Wb Ew. pose proof (wf_room _ Wa) as Ra. pose proof (wf_room _ Wb) as Rb.
  destruct Wa as (A1 & A2 & A3), Wb as (B1 & B2 & B3). unfold pv_eq.
  destruct (pv_n a =? pv_n b) eqn:En.
  2:{ exists false. split; auto. split; [discriminate|]. intros X. apply (f_equal (@length N)) in X.
      rewrite !contents_len in X. lia. }
  apply Nat.eqb_eq in En. unfold contents. rewrite <- Ew, <- En in *. set (n := pv_n a) in *. set (w := pv_w a) in *.
  assert (L : length (pv_ws a) = length (pv_ws b)) by lia.
  pose proof (b2b_ge (n * w)) as G1. pose proof (b2b_lt (n * w)) as G2. rewrite <- A3 in G1, G2.
  pose proof (contents_eq (pv_ws a) (pv_ws b) w n A2 B2 Ra Rb) as CE.
  destruct (_ - _ =? 0) eqn:Ex.
  - eexists. split; [reflexivity|]. rewrite eq_words_spec. split; [intros ->; auto|]. rewrite CE. intros X.
    apply words_ext; auto. intros p Hp. rewrite !(getb_el _ w n) by (auto; lia). f_equal. apply X.
    apply Nat.div_lt_upper_bound; lia.
  - apply Nat.eqb_neq in Ex. set (occ := 64 - (64 * length (pv_ws a) - n * w)).
    assert (Hocc : 1 <= occ /\ occ + 64 * (length (pv_ws a) - 1) = n * w) by (unfold occ; lia).
    assert (Hel : (occ - 1) / w + 1 <= n).
    { assert ((occ - 1) / w < n); [|lia]. apply Nat.div_lt_upper_bound; lia. }
    assert (Hel2 : occ <= ((occ - 1) / w + 1) * w).
    { pose proof (Nat.div_mod (occ - 1) w ltac:(lia)). pose proof (Nat.mod_upper_bound (occ - 1) w ltac:(lia)). lia. }
    set (e := (occ - 1) / w + 1) in *.
    destruct (eq_words (firstn _ _) _) eqn:Q.
    + apply eq_words_spec in Q.
      destruct (eq_elems_spec (pv_ws a) (pv_ws b) w n e (n - e) A2 B2 Ra Rb ltac:(lia)) as (r & F & G).
      exists r. split; auto. rewrite G, CE. split; intros X j Hj; [|apply X; lia].
      destruct (Nat.lt_ge_cases j (n - e)) as [J|J]; [|apply X; lia].
      apply rd_ext; auto; try (apply (room_inr _ _ n); auto). intros k Hk.
      assert (j * w + k < 64 * (length (pv_ws a) - 1)) by nia.
      rewrite <- (getb_firstn (pv_ws a) (length (pv_ws a) - 1)) by auto. rewrite Q. apply getb_firstn. auto.
    + exists false. split; auto. split; [discriminate|]. rewrite CE. intros X. exfalso.
      apply not_true_iff_false in Q. apply Q. apply eq_words_spec.
      apply words_ext; [apply words_ok_firstn; auto|apply words_ok_firstn; auto|rewrite !firstn_length; lia|].
      rewrite firstn_length. intros p Hp. rewrite !getb_firstn by lia.
      rewrite !(getb_el _ w n) by (auto; lia). f_equal. apply X. apply Nat.div_lt_upper_bound; lia.
Qed.

(** ** slices *)
Definition swf (s : pslice) : Prop :=
  1 <= ps_w s <= 64 /\ words_ok (ps_ws s) /\ ps_off s + ps_n s * ps_w s <= 64 * length (ps_ws s).
Lemma ps_of_ok v : wf v -> swf (ps_of v) /\ forall i, ps_get (ps_of v) i = pv_get v i.
Proof.
  intros (A & B & C). unfold ps_of. rewrite <- C, firstn_all. split.
  - split; auto. split; auto. simpl. rewrite C. apply b2b_ge.
  - intros i. auto.
Qed.
Lemma getb_skipn ws m q : getb (skipn m ws) q = getb ws (64 * m + q).
Proof.
  unfold getb. replace ((64 * m + q) / 64) with (m + q / 64) by lia. replace ((64 * m + q) mod 64) with (q mod 64) by lia.
  f_equal. generalize (q / 64). intros i. revert ws. induction m; intros [|x ws]; simpl; auto. destruct i; auto.
Qed.
Lemma words_ok_skipn n a : words_ok a -> words_ok (skipn n a).
Proof. unfold words_ok. rewrite !Forall_forall. intros H x Hx. apply H. rewrite <- (firstn_skipn n a). apply in_or_app. auto. Qed.
Lemma slice_ok s a b : swf s -> a <= b <= ps_n s ->
  exists s', ps_slice s a b = Some s' /\ swf s' /\ ps_n s' = b - a /\
    forall i, ps_get s' i = if i <? b - a then ps_get s (a + i) else None.
Proof.
  intros (A & B & C) H. unfold ps_slice. set (w := ps_w s) in *. set (fb := ps_off s + a * w). set (te := ps_off s + b * w).
  assert (Hf : fb + (b - a) * w = te) by (unfold fb, te; nia).
  assert (Ht : te <= 64 * length (ps_ws s)) by (unfold te; nia).
  set (ti := if te mod 64 =? 0 then te / 64 else te / 64 + 1).
  assert (T1 : te <= 64 * ti) by (unfold ti; destruct (te mod 64 =? 0) eqn:E; lia).
  assert (T2 : ti <= length (ps_ws s)) by (unfold ti; destruct (te mod 64 =? 0) eqn:E; lia).
  assert (T3 : fb / 64 <= ti).
  { unfold ti. destruct (te mod 64 =? 0) eqn:E; [apply Nat.div_le_mono; lia|].
    pose proof (Nat.div_le_mono fb te 64 ltac:(lia) ltac:(lia)). lia. }
  replace ((fb / 64 <=? ti) && (ti <=? length (ps_ws s))) with true by lia.
  eexists. split; [reflexivity|].
  set (ws := firstn (ti - fb / 64) (skipn (fb / 64) (ps_ws s))).
  assert (Ww : words_ok ws) by (apply words_ok_firstn, words_ok_skipn; auto).
  assert (Lw : length ws = ti - fb / 64) by (unfold ws; rewrite firstn_length, skipn_length; lia).
  split; [split; auto; split; auto; cbn [ps_off ps_n ps_w ps_ws]; rewrite Lw; clear - Hf T1 T3; lia|].
  split; auto. intros i. unfold ps_get. cbn [ps_off ps_n ps_w ps_ws].
  destruct (i <? b - a) eqn:E; auto. replace (a + i <? ps_n s) with true by lia.
  assert (I1 : inr ws (fb mod 64 + i * w) w).
  { split; auto. rewrite Lw. assert ((i + 1) * w <= (b - a) * w) by nia. lia. }
  assert (I2 : inr (ps_ws s) (ps_off s + (a + i) * w) w).
  { split; auto. nia. }
  rewrite (proj1 (rd_ok _ _ _ Ww I1)). fold w. rewrite (proj1 (rd_ok _ _ _ B I2)). f_equal.
  apply rd_ext; auto. intros k Hk. destruct I1 as [I1 I1']. unfold ws.
  rewrite getb_firstn by lia. rewrite getb_skipn. f_equal. unfold fb in *. lia.
Qed.

(** ** the one-bit accessors do the same as the general ones *)
Lemma read_bit_ok ws p : words_ok ws -> p < 64 * length ws -> read_bit ws p = read_int ws p 1.
Proof.
  intros Hw Hp. assert (I : inr ws p 1) by (split; lia). rewrite (proj1 (rd_ok _ _ _ Hw I)). unfold read_bit.
  rewrite (nth_error_nth' ws 0%N) by lia. cbn [obind]. f_equal. apply tb_ext. intros k.
  rewrite (proj2 (proj2 (rd_ok _ _ _ Hw I))).
  assert (X : (N.land (nth (p / 64) ws 0) (shl 1 (p mod 64)) =? 0)%N = negb (getb ws p)).
  { unfold getb. destruct (tb (nth (p / 64) ws 0%N) (p mod 64)) eqn:E; simpl.
    - apply N.eqb_neq. intros Z. assert (Y : tb (N.land (nth (p / 64) ws 0%N) (shl 1 (p mod 64))) (p mod 64) = false).
      { rewrite Z. unfold tb. apply N.bits_0. }
      rewrite tb_land, E, tb_shl in Y. replace (p mod 64 <? 64) with true in Y by lia.
      replace (p mod 64 <=? p mod 64) with true in Y by lia. rewrite Nat.sub_diag in Y. discriminate.
    - apply N.eqb_eq. apply tb_ext. intros j. rewrite tb_land, tb_shl. unfold tb at 3. rewrite N.bits_0.
      destruct (Nat.lt_ge_cases j (p mod 64)); [replace (p mod 64 <=? j) with false by lia; bb; auto|].
      destruct (Nat.eq_dec j (p mod 64)) as [->|]; [rewrite E; auto|].
      assert (Z : tb 1 (j - p mod 64) = false) by (apply (tb_high 1 1); [reflexivity|lia]). rewrite Z. bb; auto. }
  rewrite X. destruct (Nat.eq_dec k 0) as [->|].
  - rewrite Nat.add_0_r. destruct (getb ws p); auto.
  - replace (k <? 1) with false by lia. cbn [andb]. destruct (getb ws p); cbn [negb]; [apply (tb_high 1 1); [reflexivity|lia]|unfold tb; apply N.bits_0].
Qed.
Lemma write_bit_ok ws p x : words_ok ws -> p < 64 * length ws -> write_bit ws p x = write_int ws p x 1.
Proof.
  intros Hw Hp. destruct (write_int_ok ws p x 1 Hw ltac:(lia) ltac:(lia)) as (ws' & E & L & W & B). rewrite E.
  unfold write_bit. rewrite (nth_error_nth' ws 0%N) by lia. cbn [obind]. f_equal.
  set (a := nth (p / 64) ws 0%N). assert (Ha : (a < 2 ^ N.of_nat 64)%N) by (apply (words_ok_nth ws (p / 64)); auto).
  assert (O1 : forall k, tb 1 k = (k =? 0)).
  { intros k. destruct (Nat.eq_dec k 0) as [->|]; auto. replace (k =? 0) with false by lia.
    apply (tb_high 1 1); [reflexivity|lia]. }
  apply words_ext; auto; [|rewrite upd_length; lia|].
  - apply words_ok_upd; auto. apply (tb_bound _ 64). intros k Hk. tbs. rewrite (tb_high a 64) by auto.
    replace (k <? 64) with false by lia. auto.
  - rewrite upd_length. intros q Hq. rewrite getb_upd, B by lia. destruct (q / 64 =? p / 64) eqn:F.
    + apply Nat.eqb_eq in F. tbs. rewrite !O1. replace (q mod 64 <? 64) with true by lia. unfold getb. rewrite F. fold a.
      destruct (Nat.lt_ge_cases q p); [|destruct (Nat.eq_dec q p) as [->|]].
      * replace (p <=? q) with false by lia. replace (p mod 64 <=? q mod 64) with false by lia. bb; auto.
      * replace (p <=? p) with true by lia. replace (p <? p + 1) with true by lia.
        replace (p mod 64 <=? p mod 64) with true by lia. rewrite !Nat.sub_diag. cbn. bb; auto.
      * replace (q <? p + 1) with false by lia. replace (q mod 64 - p mod 64 =? 0) with false by lia. bb; auto.
    + replace ((p <=? q) && (q <? p + 1)) with false by lia. auto.
Qed.
