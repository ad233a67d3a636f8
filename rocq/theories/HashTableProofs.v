From Coq Require Import Permutation.
From Verif Require Import Base BitIO IntCodes Coders LZ Tries HashMap HashMapSpec HashMapProofs HashTermProofs.
Local Open Scope N_scope.

(** *** The size managers *)
Definition is_pow2 (s : N) : Prop := exists k, 2 <= k <= 31 /\ s = 2 ^ k.
Lemma pow2_growing : forall h, growing (mk_hconf h pr_linear sm_pow2) is_pow2.
Proof.
  intros h. constructor; cbn [hc_probe hc_sm sm_mod sm_pow2 sm_min].
  - reflexivity.
  - intros x s _ _ (k & Hk & ->).
    assert (2 ^ k < 2 ^ 32) by (apply N.pow_lt_mono_r; lia).
    assert (1 <= 2 ^ k) by (assert (2 ^ k <> 0) by (apply N.pow_nonzero; lia); lia).
    assert (E : w32 (2 ^ k + 2 ^ 32 - 1) = 2 ^ k - 1).
    { unfold w32. replace (2 ^ k + 2 ^ 32 - 1) with (2 ^ k - 1 + 1 * 2 ^ 32) by lia.
      rewrite N.mod_add by discriminate. apply N.mod_small. lia. }
    rewrite E. replace (2 ^ k - 1) with (N.ones k) by (rewrite N.ones_equiv; lia). apply N.land_ones.
  - intros s (k & Hk & ->). split.
    + change 4 with (2 ^ 2). apply N.pow_le_mono_r; lia.
    + apply N.pow_lt_mono_r; lia.
  - intros s hint (k & Hk & ->) H1 H2.
    assert (P1 : 4 <= 2 ^ k) by (change 4 with (2 ^ 2); apply N.pow_le_mono_r; lia).
    assert (H3 : 2 ^ k <= hint).
    { assert (2 ^ k <= 11 * 2 ^ k / 10); [| lia]. apply N.div_le_lower_bound; lia. }
    rewrite N.max_l by lia.
    assert (SG := N.size_gt hint).
    assert (S1 : k + 1 <= N.size hint).
    { rewrite N.size_log2 by lia. assert (N.log2 (2 ^ k) <= N.log2 hint) by (apply N.log2_le_mono; exact H3).
      rewrite N.log2_pow2 in H by lia. lia. }
    assert (S2 : N.size hint <= 31).
    { rewrite N.size_log2 by lia. assert (N.log2 hint < 31); [| lia]. apply N.log2_lt_pow2; lia. }
    assert (S3 : 2 ^ N.size hint < 2 ^ 32) by (apply N.pow_lt_mono_r; lia).
    assert (S4 : 2 ^ (k + 1) <= 2 ^ N.size hint) by (apply N.pow_le_mono_r; lia).
    rewrite N.pow_add_r in S4. change (2 ^ 1) with 2 in S4.
    unfold w32. rewrite N.mod_small by exact S3. split; [exists (N.size hint); split; [lia | reflexivity] |]. lia.
Qed.

Definition ge10 (s : N) : Prop := 10 <= s < 2 ^ 32.
Lemma noob_growing : forall h, growing (mk_hconf h pr_linear sm_noob) ge10.
Proof.
  intros h. constructor; cbn [hc_probe hc_sm sm_mod sm_noob sm_min].
  - reflexivity.
  - reflexivity.
  - unfold ge10. lia.
  - unfold ge10. intros s hint Hs H1 H2. change (2 ^ 31) with 2147483648 in H2. change (2 ^ 32) with 4294967296 in *.
    assert (s + 1 <= 11 * s / 10) by (apply N.div_le_lower_bound; lia). lia.
Qed.

Lemma next_prime_ok : forall h, h < 2 ^ 31 -> h <= next_prime h < 2 ^ 32.
Proof.
  intros h H. unfold next_prime.
  assert (E : exists p, find (fun p => h <=? p) primes = Some p /\ h <= p < 2 ^ 32).
  { set (l1 := firstn 31 primes). assert (EP : primes = l1 ++ skipn 31 primes) by reflexivity.
    assert (A : forall l l' : list N, forall x, find (fun p => h <=? p) l = Some x -> find (fun p => h <=? p) (l ++ l') = Some x).
    { induction l as [| y l IH]; intros l' x; [discriminate |]. cbn [find app]. destruct (h <=? y); auto. }
    destruct (find (fun p => h <=? p) l1) as [p |] eqn:EF.
    - exists p. rewrite EP. split; [apply A; exact EF |]. apply find_some in EF. destruct EF as [E1 E2].
      apply N.leb_le in E2. split; [exact E2 |].
      assert (F : Forall (fun p => p < 2 ^ 32) l1) by (unfold l1; cbn [primes firstn]; repeat constructor).
      rewrite Forall_forall in F. auto.
    - exfalso. assert (Q := find_none _ _ EF 3221225473). cbv beta in Q. rewrite N.leb_gt in Q.
      change (2 ^ 31) with 2147483648 in H.
      assert (3221225473 < h) by (apply Q; apply (nth_error_In _ 30); reflexivity). lia. }
  destruct E as (p & -> & E). exact E.
Qed.

Lemma prime_growing : forall h, growing (mk_hconf h pr_linear sm_prime) ge10.
Proof.
  intros h. constructor; cbn [hc_probe hc_sm sm_mod sm_prime sm_min].
  - reflexivity.
  - reflexivity.
  - unfold ge10. lia.
  - unfold ge10. intros s hint Hs H1 H2. destruct (next_prime_ok hint H2) as [N1 N2].
    unfold w32. rewrite N.mod_small by exact N2.
    assert (s + 1 <= 11 * s / 10) by (apply N.div_le_lower_bound; lia). lia.
Qed.

(** *** More fuel does not change a result *)
Lemma probe_mono : forall f c m k h init pos i r, probe_loop f c m k h init pos i = Some r ->
  probe_loop (S f) c m k h init pos i = Some r.
Proof.
  induction f as [| f IH]; intros c m k h init pos i r H; [discriminate |].
  cbn [probe_loop] in H. cbn [probe_loop].
  destruct (nth_error (h_vals m) (N.to_nat pos)); [| discriminate]. cbn [obind] in *.
  destruct (n =? undef_id); [exact H |].
  destruct (nth_error (h_keys m) (N.to_nat pos)); [| discriminate]. cbn [obind] in *.
  destruct (n0 =? k); [exact H |]. apply IH in H. exact H.
Qed.
Lemma rehash_mono : forall (i1 i2 : hmap -> N -> N -> option (hmap * (N * bool))),
  (forall m k v r, i1 m k v = Some r -> i2 m k v = Some r) ->
  forall l m m', rehash i1 l m = Some m' -> rehash i2 l m = Some m'.
Proof.
  intros i1 i2 H. induction l as [| [k v] l IH]; intros m m' HR; [exact HR |]. cbn [rehash] in *.
  destruct (v =? undef_id); [apply IH; exact HR |].
  destruct (i1 m k v) as [[m1 x] |] eqn:E; [| discriminate]. rewrite (H _ _ _ _ E). cbn [obind] in *. apply IH. exact HR.
Qed.
Lemma reserve_with_mono : forall c (i1 i2 : hmap -> N -> N -> option (hmap * (N * bool))),
  (forall m k v r, i1 m k v = Some r -> i2 m k v = Some r) ->
  forall m hint m', ht_reserve_with i1 c m hint = Some m' -> ht_reserve_with i2 c m hint = Some m'.
Proof.
  intros c i1 i2 H m hint m' HR. unfold ht_reserve_with in *. destruct (0 <? h_entries m); [| exact HR].
  eapply rehash_mono; eauto.
Qed.
Lemma insert_mono : forall f c n rem m k v r, ht_insert f c n rem m k v = Some r -> ht_insert (S f) c n rem m k v = Some r.
Proof.
  induction f as [| f IH]; intros c n rem m k v r H; [discriminate |].
  change (ht_insert (S f) c n rem m k v) with
    (let h := hc_hash c k in
      let init := sm_mod (hc_sm c) h (h_size m) h 0 in
      do (pos, found) <- probe_loop f c m k h init init 0;
      if found then do x <- nth_error (h_vals m) (N.to_nat pos); Some (m, (x, false))
      else
        let m := mk_hmap (h_size m) (upd (h_keys m) (N.to_nat pos) k) (upd (h_vals m) (N.to_nat pos) v)
                         (w32 (h_entries m + 1)) (h_lf m) in
        if over (h_size m) (h_lf m) (h_entries m) then
          let '(lf, hint) := grow (sm_direct (hc_sm c)) (h_size m) (h_lf m) (h_entries m) n rem in
          do m <- ht_reserve_with (ht_insert f c n rem) c
                    (mk_hmap (h_size m) (h_keys m) (h_vals m) (h_entries m) lf) hint;
          do (m, (x, _)) <- ht_insert f c n rem m k v;
          Some (m, (x, true))
        else Some (m, (v, true))) in H.
  remember (S f) as f1. cbn [ht_insert]. cbv zeta in H |- *.
  match type of H with obind ?p _ = _ => destruct p as [[pos found] |] eqn:E end; [| discriminate].
  rewrite Heqf1 in IH |- *. rewrite (probe_mono _ _ _ _ _ _ _ _ _ E). cbn [obind] in *. destruct found; [exact H |].
  cbn [h_size h_lf h_entries h_keys h_vals] in *.
  destruct (over (h_size m) (h_lf m) (w32 (h_entries m + 1))); [| exact H].
  destruct (grow (sm_direct (hc_sm c)) (h_size m) (h_lf m) (w32 (h_entries m + 1)) n rem) as [lf hint].
  match type of H with obind ?p _ = _ => destruct p as [m3 |] eqn:E3 end; [| discriminate].
  rewrite (reserve_with_mono c _ (ht_insert (S f) c n rem) (fun m k v r => IH c n rem m k v r) _ _ _ E3).
  cbn [obind] in *.
  destruct (ht_insert f c n rem m3 k v) as [[m4 [x b]] |] eqn:E4; [| discriminate].
  rewrite (IH _ _ _ _ _ _ _ E4). exact H.
Qed.
Lemma run_mono1 : forall ops f c n m l, ht_run f c n m ops = Some l -> ht_run (S f) c n m ops = Some l.
Proof.
  induction ops as [| o ops IH]; intros f c n m l H; [exact H |]. cbn [ht_run] in *.
  destruct (ht_do f c n m o) as [[m1 a] |] eqn:E; [| discriminate].
  assert (E' : ht_do (S f) c n m o = Some (m1, a)).
  { destruct o; cbn [ht_do] in *.
    - destruct (ht_insert f c n rem m k v) as [[m2 [x b]] |] eqn:E1; [| discriminate]. now rewrite (insert_mono _ _ _ _ _ _ _ _ E1).
    - destruct (ht_reserve f c n rem m hint) as [m2 |] eqn:E1; [| discriminate]. unfold ht_reserve in *.
      now rewrite (reserve_with_mono c _ (ht_insert (S f) c n rem) (fun m k v r => insert_mono f c n rem m k v r) _ _ _ E1).
    - exact E. }
  rewrite E'. cbn [obind] in *. destruct (ht_run f c n m1 ops) eqn:E2; [| discriminate].
  now rewrite (IH _ _ _ _ _ E2).
Qed.
Lemma run_mono : forall d f c n m ops l, ht_run f c n m ops = Some l -> ht_run (d + f) c n m ops = Some l.
Proof. induction d; intros; [exact H |]. cbn [plus]. apply run_mono1. apply IHd. exact H. Qed.

(** *** Total histories *)
Lemma run_total : forall c P n fuel, growing c P -> (N.to_nat (2 ^ 32) < fuel)%nat ->
  forall ops m, ready c P m -> existsb is_reserve ops = false ->
  (forall k v rem, In (HInsert k v rem) ops -> v <> undef_id) ->
  h_entries m + inserts ops <= 2 ^ 28 ->
  exists l, ht_run (S fuel) c n m ops = Some l.
Proof.
  intros c P n fuel G HF. induction ops as [| o ops IH]; intros m R NR HV HB.
  - exists []. reflexivity.
  - cbn [ht_run]. cbn [existsb] in NR. apply Bool.orb_false_iff in NR. destruct NR as [NR1 NR2].
    assert (HV' : forall k v rem, In (HInsert k v rem) ops -> v <> undef_id) by (intros; eapply HV; right; eauto).
    destruct o as [k v rem | hint rem |]; [| discriminate |]; cbn [inserts] in HB; cbn [ht_do].
    + destruct (insert_total c P n rem fuel m k v G R (HV k v rem (or_introl eq_refl)) ltac:(lia) HF) as (m1 & x & b & E & R1).
      rewrite E. cbn [obind].
      assert (HE : h_entries m1 <= h_entries m + 1).
      { destruct R as [I CN _ _ _]. assert (J := insert_ok (S fuel) c n rem m k v _ I (HV k v rem (or_introl eq_refl)) E).
        cbn [ins_ok] in J. destruct J as [I1 J]. destruct b.
        - destruct J as (_ & _ & P1 & C1). rewrite C1; [| exact CN | change (2 ^ 28) with 268435456 in HB; change (2 ^ 32) with 4294967296; lia].
          apply Permutation_length in P1. rewrite P1. cbn [length]. unfold counted in CN. lia.
        - destruct J as [-> _]. lia. }
      destruct (IH m1 R1 NR2 HV' ltac:(lia)) as [l El]. rewrite El. cbn [obind]. eauto.
    + cbn [obind]. destruct (IH m R NR2 HV' HB) as [l El]. rewrite El. cbn [obind]. eauto.
Qed.

Lemma over_zero : forall s lf, over s lf 0 = false.
Proof. intros. apply over_false. lia. Qed.
Lemma fresh_ready : forall c (P : N -> Prop) s lf, P s -> lf_ok lf -> ready c P (ht_fresh s lf).
Proof.
  intros c P s lf PS LF. destruct (fresh_inv c s lf) as [A B]. constructor; auto.
  - unfold counted. rewrite B. reflexivity.
  - cbn [ht_fresh h_size h_lf h_entries]. apply over_zero.
Qed.
Lemma fresh_rel : forall (c : hconf) s lf, rel (ht_fresh s lf) f_empty.
Proof.
  intros c s lf. destruct (fresh_inv c s lf) as [A B]. split; [| split].
  - intros k v. rewrite B. cbn. split; [discriminate | tauto].
  - rewrite B. reflexivity.
  - rewrite B. reflexivity.
Qed.
