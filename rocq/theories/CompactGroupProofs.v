(** Quotienting with linear probing, abstractly: functions on the unrolled positions
    (period [n]); [dd i] is the displacement of the element in slot [i]. *)
From Verif Require Import Base CompactHash.

Definition per (n : nat) {X} (f : nat -> X) : Prop := forall i, f (i + n) = f i.
Fixpoint cnt (f : nat -> bool) (i k : nat) : nat := match k with O => 0 | S k => Nat.b2n (f i) + cnt f (S i) k end.

Record ginv (n : nat) (sl : nat -> option (N * N)) (cc vv : nat -> bool) (dd : nat -> nat) : Prop := mk_ginv {
  g_n : 0 < n; g_ps : per n sl; g_pc : per n cc; g_pv : per n vv; g_pd : per n dd;
  g0 : forall i, dd i < n;
  g1 : forall i, sl (S i) <> None -> 0 < dd (S i) -> sl i <> None /\ dd (S i) <= S (dd i);
  g2 : forall i, cc (S i) = true <-> sl (S i) <> None /\ dd (S i) <> S (dd i);
  g3 : forall b, vv b = true <-> exists d, sl (b + d) <> None /\ dd (b + d) = d;
  g4 : forall b d d' q v v', sl (b + d) = Some (q, v) -> dd (b + d) = d -> sl (b + d') = Some (q, v') -> dd (b + d') = d' -> d = d' }.

Lemma cnt_app f : forall k i k', cnt f i (k + k') = cnt f i k + cnt f (i + k) k'.
Proof. induction k as [|k IH]; intros i k'; [rewrite Nat.add_0_r; reflexivity|]. cbn [cnt plus]. rewrite IH. replace (S i + k) with (i + S k) by lia. lia. Qed.
Lemma cnt_zero f : forall k i, (forall j, i <= j < i + k -> f j = false) -> cnt f i k = 0.
Proof. induction k as [|k IH]; intros i H; [reflexivity|]. cbn [cnt]. rewrite (H i) by lia. rewrite IH; [reflexivity|]. intros j Hj. apply H. lia. Qed.

Lemma per_mul {X} n (f : nat -> X) : per n f -> forall k i, f (i + k * n) = f i.
Proof. intros H. induction k as [|k IH]; intros i; [rewrite Nat.add_0_r; reflexivity|]. replace (i + S k * n) with ((i + k * n) + n) by lia. rewrite H. apply IH. Qed.
Lemma per_mod {X} n (f : nat -> X) : 0 < n -> per n f -> forall i, f (i mod n) = f i.
Proof. intros Hn H i. rewrite (Nat.div_mod i n) at 2 by lia. rewrite (Nat.add_comm (n * _)), (Nat.mul_comm n). symmetry. apply per_mul. auto. Qed.

Section Group.
Variables (n : nat) (sl : nat -> option (N * N)) (cc vv : nat -> bool) (dd : nat -> nat) (A term : nat).
Local Notation hh i := (i - dd i).

Hypothesis H0 : forall i, dd i < n.
Hypothesis H1 : forall i, sl (S i) <> None -> 0 < dd (S i) -> sl i <> None /\ dd (S i) <= S (dd i).
Lemma run_back : forall d i, n <= i -> sl i <> None -> d <= dd i -> sl (i - d) <> None /\ dd i <= dd (i - d) + d.
Proof.
  induction d as [|d IH]; intros i Hi Hs Hd; [rewrite Nat.sub_0_r; split; [auto|lia]|].
  destruct (IH i Hi Hs ltac:(lia)) as [A1 A2]. pose proof (H0 i). remember (i - S d) as j. replace (i - d) with (S j) in * by lia.
  destruct (H1 j A1 ltac:(lia)) as [B1 B2]. split; [auto|lia].
Qed.
Hypothesis H2 : forall i, cc (S i) = true <-> sl (S i) <> None /\ dd (S i) <> S (dd i).
(** the start of a group *)
Lemma group_start : forall d i, n <= i -> sl i <> None -> dd i = d ->
  exists k, k <= d /\ cc (i - k) = true /\ (forall j, j < k -> cc (i - j) = false) /\ hh (i - k) = hh i /\ (forall j, j <= k -> hh (i - j) = hh i).
Proof.
  assert (G : forall d i, 0 < i -> dd i < i -> sl i <> None -> dd i = d ->
    exists k, k <= d /\ cc (i - k) = true /\ (forall j, j < k -> cc (i - j) = false) /\ hh (i - k) = hh i /\ (forall j, j <= k -> hh (i - j) = hh i)).
  { induction d as [|d IH]; intros i Hi0 Hi Hs Hd.
    - exists 0. rewrite Nat.sub_0_r. destruct i as [|i]; [lia|]. split; [auto|]. split; [apply H2; split; [auto|lia]|]. split; [intros; lia|]. split; [auto|]. intros j Hj. replace j with 0 by lia. rewrite Nat.sub_0_r. auto.
    - destruct i as [|i]; [lia|]. destruct (cc (S i)) eqn:Ec.
      + exists 0. rewrite Nat.sub_0_r. split; [lia|]. split; [auto|]. split; [intros; lia|]. split; [auto|]. intros j Hj. replace j with 0 by lia. rewrite Nat.sub_0_r. auto.
      + assert (Hd' : dd (S i) = S (dd i)). { destruct (Nat.eq_dec (dd (S i)) (S (dd i))) as [|Hn]; [auto|]. assert (cc (S i) = true) by (apply H2; auto). congruence. }
        destruct (H1 i Hs ltac:(lia)) as [B1 _]. destruct (IH i ltac:(lia) ltac:(lia) B1 ltac:(lia)) as (k & K1 & K2 & K3 & K4 & K5).
        assert (Hhh : hh (S i) = hh i) by lia.
        exists (S k). replace (S i - S k) with (i - k) by lia. split; [lia|]. split; [auto|]. split; [|split; [lia|]].
        * intros j Hj. destruct j as [|j]; [replace (S i - 0) with (S i) by lia; auto|]. replace (S i - S j) with (i - j) by lia. apply K3. lia.
        * intros j Hj. destruct j as [|j]; [replace (S i - 0) with (S i) by lia; auto|]. replace (S i - S j) with (i - j) by lia. rewrite Hhh. apply K5. lia. }
  intros d i Hi Hs Hd. pose proof (H0 i). apply (G d i); auto; lia.
Qed.
Hypothesis Ho : forall i, A <= i < term -> sl i <> None.
Lemma hh_step i : A <= i -> S i < term -> hh i <= hh (S i).
Proof.
  intros Hi Hi'. pose proof (H0 i). pose proof (H0 (S i)). destruct (Nat.eq_dec (dd (S i)) 0) as [E|E]; [lia|].
  destruct (H1 i) as [_ B]; [apply Ho; lia|lia|lia].
Qed.
Lemma hh_mono : forall k i, A <= i -> i + k < term -> hh i <= hh (i + k).
Proof.
  induction k as [|k IH]; intros i Hi Hk; [rewrite Nat.add_0_r; auto|]. pose proof (IH i Hi ltac:(lia)). pose proof (hh_step (i + k) ltac:(lia) ltac:(lia)).
  replace (i + S k) with (S (i + k)) by lia. lia.
Qed.
Lemma hh_le i j : A <= i -> i <= j -> j < term -> hh i <= hh j.
Proof. intros. replace j with (i + (j - i)) by lia. apply hh_mono; lia. Qed.
Hypothesis H3 : forall b, A < b < A + n -> (vv b = true <-> exists d, sl (b + d) <> None /\ dd (b + d) = d).
Hypothesis HA : n <= A.
Hypothesis Ht : A < term < A + n.
Hypothesis He : sl term = None.
Lemma v_elem b : A < b < term -> (vv b = true <-> exists i, b <= i < term /\ hh i = b).
Proof.
  intros Hb. rewrite H3 by lia. split.
  - intros (d & S1 & S2). exists (b + d). split; [|rewrite S2; lia]. split; [lia|].
    destruct (Nat.lt_ge_cases (b + d) term) as [|Hc]; [auto|exfalso]. destruct (run_back (b + d - term) (b + d)) as [Hx _]; [lia|auto|lia|].
    replace (b + d - (b + d - term)) with term in Hx by lia. auto.
  - intros (i & Hi & Hh). exists (i - b). replace (b + (i - b)) with i by lia. split; [apply Ho; lia|]. pose proof (H0 i). lia.
Qed.

(** where the elements of later homes begin *)
Definition is_ge (ge : nat) : Prop := A < ge <= term /\ (forall i, A <= i < ge -> hh i <= A) /\ (ge < term -> A < hh ge).
Lemma ge_exists : exists ge, is_ge ge.
Proof.
  assert (G : forall k, (forall i, A <= i < A + k -> hh i <= A) \/ exists g, A <= g < A + k /\ (forall i, A <= i < g -> hh i <= A) /\ A < hh g).
  { induction k as [|k IH]; [left; intros; lia|]. destruct IH as [IH|(g & G1 & G2 & G3)]; [|right; exists g; split; [lia|auto]].
    destruct (Nat.le_gt_cases (hh (A + k)) A) as [Hc|Hc].
    - left. intros i Hi. destruct (Nat.eq_dec i (A + k)) as [->|]; [auto|apply IH; lia].
    - right. exists (A + k). split; [lia|]. split; [intros; apply IH; lia|lia]. }
  destruct (G (term - A)) as [Hg|(g & G1 & G2 & G3)].
  - exists term. split; [lia|]. split; [intros; apply Hg; lia|lia].
  - exists g. split; [|split; [auto|auto]]. destruct (Nat.eq_dec g A) as [->|]; [|lia]. lia.
Qed.
Variable ge : nat.
Hypothesis Hge : is_ge ge.

Lemma cc_iff i : A < i < term -> (cc i = true <-> hh i <> hh (i - 1)).
Proof.
  intros Hi. destruct i as [|i]; [lia|]. rewrite H2. replace (S i - 1) with i by lia. pose proof (H0 i). pose proof (H0 (S i)). split.
  - intros [_ B]. lia.
  - intros B. split; [apply Ho; lia|lia].
Qed.
Lemma count_groups : forall k, ge + k <= term ->
  cnt cc (term - k) k = cnt vv (S (Nat.max A (hh (term - k - 1)))) (term - S (Nat.max A (hh (term - k - 1)))).
Proof.
  destruct Hge as (G1 & G2 & G3). induction k as [|k IH]; intros Hk.
  - rewrite Nat.sub_0_r. cbn [cnt]. symmetry. apply cnt_zero. intros j Hj. destruct (vv j) eqn:Ev; [|auto]. exfalso. apply v_elem in Ev; [|lia].
    destruct Ev as (i & Hi & Hh). pose proof (hh_le i (term - 1) ltac:(lia) ltac:(lia) ltac:(lia)). lia.
  - specialize (IH ltac:(lia)). replace (term - k - 1) with (term - S k) in IH by lia. set (i := term - S k) in *. replace (term - k) with (S i) in IH by lia. cbn [cnt]. rewrite IH. clear IH.
    assert (Hi : A < hh i). { pose proof (hh_le ge i ltac:(lia) ltac:(lia) ltac:(lia)). specialize (G3 ltac:(lia)). lia. }
    rewrite (Nat.max_r A (hh i)) by lia. pose proof (hh_le (i - 1) i ltac:(lia) ltac:(lia) ltac:(lia)) as Hm.
    assert (Hhi : hh i <= i) by lia.
    destruct (cc i) eqn:Ec.
    + apply cc_iff in Ec; [|lia]. set (m := Nat.max A (hh (i - 1))).
      assert (Hmi : S m <= hh i) by lia. replace (term - S m) with ((hh i - S m) + S (term - S (hh i))) by lia. rewrite cnt_app. rewrite (cnt_zero vv (hh i - S m) (S m)).
      * replace (S m + (hh i - S m)) with (hh i) by lia. cbn [cnt plus]. replace (vv (hh i)) with true; [reflexivity|]. symmetry. apply v_elem; [lia|]. exists i. lia.
      * intros j Hj. destruct (vv j) eqn:Ev; [|auto]. exfalso. apply v_elem in Ev; [|lia]. destruct Ev as (i' & Hi' & Hh').
        destruct (Nat.le_gt_cases i i') as [Hc|Hc]; [pose proof (hh_le i i' ltac:(lia) Hc ltac:(lia)); lia|pose proof (hh_le i' (i - 1) ltac:(lia) ltac:(lia) ltac:(lia)); lia].
    + assert (hh i = hh (i - 1)) as E. { destruct (Nat.eq_dec (hh i) (hh (i - 1))) as [|Hn]; [auto|]. apply cc_iff in Hn; [congruence|lia]. }
      rewrite <- E, Nat.max_r by lia. reflexivity.
Qed.
Lemma count_ge : cnt cc ge (term - ge) = cnt vv (S A) (term - S A).
Proof.
  pose proof Hge as (G1 & G2 & G3). pose proof (count_groups (term - ge) ltac:(lia)) as C. replace (term - (term - ge)) with ge in C by lia.
  pose proof (G2 (ge - 1) ltac:(lia)). rewrite Nat.max_l in C by lia. exact C.
Qed.
Lemma cc_ge : ge < term -> cc ge = true.
Proof. pose proof Hge as (G1 & G2 & G3). intros H. apply cc_iff; [lia|]. pose proof (G2 (ge - 1) ltac:(lia)). specialize (G3 H). lia. Qed.
Lemma count_after i : ge < i <= term -> cnt cc i (term - i) < cnt cc ge (term - ge).
Proof.
  intros Hi. replace (term - ge) with ((i - ge) + (term - i)) by lia. rewrite cnt_app. replace (ge + (i - ge)) with i by lia.
  replace (i - ge) with (S (i - ge - 1)) by lia. cbn [cnt]. rewrite cc_ge by lia. cbn. lia.
Qed.
End Group.
