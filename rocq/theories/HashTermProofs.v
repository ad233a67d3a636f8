From Coq Require Import Permutation.
From Verif Require Import Base Tries HashMap HashMapSpec HashMapProofs.
Local Open Scope N_scope.

(** rounding to 24 bits *)
Lemma rnd24_bounds : forall x, (2 ^ 24 - 1) * x <= 2 ^ 24 * rnd24 x <= (2 ^ 24 + 1) * x.
Proof.
  intros x. unfold rnd24. set (b := N.size x - 24).
  assert (SX : x < 2 ^ N.size x) by apply N.size_gt.
  rewrite N.shiftr_div_pow2, !N.shiftl_mul_pow2, N.mul_1_l.
  assert (Hb : 0 < 2 ^ b) by (apply N.neq_0_lt_0, N.pow_nonzero; lia).
  assert (DM := N.div_mod x (2 ^ b) ltac:(lia)).
  assert (ML := N.mod_lt x (2 ^ b) ltac:(lia)).
  set (q := x / 2 ^ b) in *. set (r := x mod 2 ^ b) in *.
  clearbody q r. assert (ER : x - q * 2 ^ b = r) by (rewrite DM at 1; rewrite (N.mul_comm q); apply N.add_sub_eq_l; reflexivity). rewrite ER.
  destruct (N.eq_dec b 0) as [B0 | B0].
  - rewrite B0 in *. change (2 ^ 0) with 1 in *. assert (R0 : r = 0) by lia. rewrite R0. clear SX.
    change (1 <? 2 * 0) with false. change (1 =? 2 * 0) with false. cbn [orb andb].
    change (2 ^ 24) with 16777216. lia.
  - assert (LX : 2 ^ (b + 23) <= x).
    { assert (E : N.size x = b + 24) by (clear - B0; subst b; lia).
      clearbody b. clear - E. assert (x <> 0) by (intros X; rewrite X in E; change (N.size 0) with 0 in E; lia).
      rewrite N.size_log2 in E by assumption.
      replace (b + 23) with (N.log2 x) by lia. apply N.log2_spec. lia. }
    assert (E1 : 2 ^ (b + 23) = 2 ^ 23 * 2 ^ b) by (rewrite N.pow_add_r; lia).
    rewrite E1 in LX. clear SX ER E1. set (B := 2 ^ b) in *. clearbody B.
    change (2 ^ 24) with 16777216. change (2 ^ 23) with 8388608 in LX.
    destruct ((B <? 2 * r) || ((B =? 2 * r) && N.odd q)) eqn:EC.
    + assert (B <= 2 * r).
      { apply Bool.orb_true_iff in EC. destruct EC as [EC | EC].
        - apply N.ltb_lt in EC. lia.
        - apply Bool.andb_true_iff in EC. destruct EC as [EC _]. apply N.eqb_eq in EC. lia. }
      lia.
    + apply Bool.orb_false_iff in EC. destruct EC as [EC _]. apply N.ltb_ge in EC. lia.
Qed.

Lemma over_false : forall s lf e, 16777215 * 16777215 * (s * lf) >= 16777216 * 16777217 * (e * 2 ^ 30) -> over s lf e = false.
Proof.
  intros s lf e H. unfold over. apply N.ltb_ge.
  assert (A := rnd24_bounds s). assert (B := rnd24_bounds (rnd24 s * lf)). assert (C := rnd24_bounds e).
  set (rs := rnd24 s) in *. set (re := rnd24 e) in *. set (rr := rnd24 (rs * lf)) in *. clearbody rs re rr.
  change (2 ^ 24) with 16777216 in *. set (Z := 2 ^ 30) in *. clearbody Z.
  assert (A' : 16777215 * (s * lf) <= 16777216 * (rs * lf)) by nia.
  assert (C' : 16777216 * (re * Z) <= 16777217 * (e * Z)) by nia.
  set (X := s * lf) in *. set (Y := rs * lf) in *. set (W := re * Z) in *. set (V := e * Z) in *.
  clearbody X Y W V. lia.
Qed.
Lemma over_true_bound : forall s lf e, over s lf e = true -> 16777215 * 16777215 * (s * lf) < 16777216 * 16777217 * (e * 2 ^ 30).
Proof.
  intros s lf e H. destruct (N.le_gt_cases (16777216 * 16777217 * (e * 2 ^ 30)) (16777215 * 16777215 * (s * lf))); [| assumption].
  rewrite over_false in H; [discriminate | lia].
Qed.
Lemma over_false_bound : forall s lf e, over s lf e = false -> 16777216 * 16777215 * (e * 2 ^ 30) <= 16777217 * 16777217 * (s * lf).
Proof.
  intros s lf e H. unfold over in H. apply N.ltb_ge in H.
  assert (A := rnd24_bounds s). assert (B := rnd24_bounds (rnd24 s * lf)). assert (C := rnd24_bounds e).
  set (rs := rnd24 s) in *. set (re := rnd24 e) in *. set (rr := rnd24 (rs * lf)) in *. clearbody rs re rr.
  change (2 ^ 24) with 16777216 in *. set (Z := 2 ^ 30) in *. clearbody Z.
  assert (A' : 16777216 * (rs * lf) <= 16777217 * (s * lf)) by nia.
  assert (C' : 16777215 * (e * Z) <= 16777216 * (re * Z)) by nia.
  set (X := s * lf) in *. set (Y := rs * lf) in *. set (W := re * Z) in *. set (V := e * Z) in *.
  clearbody X Y W V. lia.
Qed.

Definition lf_ok (lf : N) : Prop := lf_30 <= lf <= lf_95.
Lemma not_full : forall s lf e, lf_ok lf -> 0 < s -> over s lf e = false -> e < s.
Proof.
  intros s lf e [_ L] P H. apply over_false_bound in H. change (2 ^ 30) with 1073741824 in H.
  unfold lf_95 in L. change (15938355 * 2 ^ 6) with 1020054720 in L.
  assert (s * lf <= s * 1020054720) by nia. lia.
Qed.

(** the managers that reduce positions with mod, and grow *)
Record growing (c : hconf) (P : N -> Prop) : Prop := {
  g_probe : forall i pos init ts, hc_probe c i pos init ts = pr_linear i pos init ts;
  g_mod : forall x s h i, P s -> sm_mod (hc_sm c) x s h i = x mod s;
  g_range : forall s, P s -> 4 <= s < 2 ^ 32;
  g_grow : forall s hint, P s -> 11 * s / 10 <= hint -> hint < 2 ^ 31 ->
    P (sm_min (hc_sm c) hint) /\ hint <= sm_min (hc_sm c) hint /\ s + 1 <= sm_min (hc_sm c) hint /\
    (s < 10 -> 2 * s <= sm_min (hc_sm c) hint)
}.

Lemma grow_ok : forall c P d s lf e n rem lf' hint, growing c P -> P s -> lf_ok lf -> 0 < e -> e <= 2 ^ 28 ->
  over s lf (e - 1) = false -> over s lf e = true -> grow d s lf e n rem = (lf', hint) ->
  P (sm_min (hc_sm c) hint) /\ lf_ok lf' /\ (forall e', e' <= e -> over (sm_min (hc_sm c) hint) lf' e' = false).
Proof.
  intros c P d s lf e n rem lf' hint G PS LF E0 EB O1 O2 HG.
  destruct (g_range c P G s PS) as [S4 _].
  assert (ES : e <= s) by (assert (Q := not_full s lf (e - 1) LF ltac:(lia) O1); lia).
  apply over_false_bound in O1. apply over_true_bound in O2.
  change (2 ^ 30) with 1073741824 in *. change (2 ^ 28) with 268435456 in EB.
  destruct LF as [LF1 LF2]. unfold lf_ok.
  assert (SB : s < 2 ^ 30).
  { change (2 ^ 30) with 1073741824. unfold lf_30 in LF1. change (10066330 * 2 ^ 5) with 322122560 in LF1.
    assert (s * 322122560 <= s * lf) by nia. lia. }
  change (2 ^ 30) with 1073741824 in SB.
  unfold grow in HG. cbv zeta in HG.
  set (es0 := if d then (2 * e + 3 * expected_remaining e n rem) * 10 / 19
              else (e + expected_remaining e n rem) * 20 / 19) in HG. clearbody es0.
  assert (DV := N.mul_div_le (11 * s) 10 ltac:(lia)).
  assert (DV2 := N.mul_succ_div_gt (11 * s) 10 ltac:(lia)).
  set (f := 11 * s / 10) in *.
  destruct (10 * N.max es0 f <? 19 * s) eqn:EX.
  - apply N.ltb_lt in EX. injection HG as <- <-.
    assert (WE : w32 (N.max es0 f) = N.max es0 f) by (unfold w32; apply N.mod_small; change (2^32) with 4294967296; lia).
    rewrite WE. set (es := N.max es0 f) in *. assert (Fes : f <= es) by (unfold es; lia). clearbody es.
    assert (GG := g_grow c P G s es PS). fold f in GG.
    destruct GG as (P' & G1 & G2 & G3); [exact Fes | change (2^31) with 2147483648; lia |].
    clearbody f. set (s' := sm_min (hc_sm c) es) in *. clearbody s'.
    split; [exact P' |]. split; [unfold lf_95, lf_30; cbn; lia |].
    intros e' Le.
    assert (O1' : 16777216 * 16777215 * ((e - 1) * 1073741824) <= 16777217 * 16777217 * (s * 1020054720)).
    { unfold lf_95 in LF2. change (15938355 * 2 ^ 6) with 1020054720 in LF2. assert (s * lf <= s * 1020054720) by nia. lia. }
    clear O1 O2.
    destruct (N.lt_ge_cases s 10) as [C1 | C1].
    { apply over_false. unfold lf_95. change (15938355 * 2 ^ 6) with 1020054720. change (2 ^ 30) with 1073741824. lia. }
    destruct (N.lt_ge_cases s 20) as [C2 | C2].
    + destruct (N.lt_ge_cases s' 21) as [C3 | C3].
      * assert (e' < s') by lia.
        assert (CHK : forallb (fun s' => forallb (fun e' => negb (over (N.of_nat s') lf_95 (N.of_nat e'))) (seq 0 s')) (seq 1 20) = true)
          by (vm_compute; reflexivity).
        rewrite forallb_forall in CHK. specialize (CHK (N.to_nat s')).
        rewrite forallb_forall in CHK. specialize (CHK ltac:(apply in_seq; lia) (N.to_nat e') ltac:(apply in_seq; lia)).
        rewrite !N2Nat.id in CHK. now apply Bool.negb_true_iff in CHK.
      * apply over_false. unfold lf_95. change (15938355 * 2 ^ 6) with 1020054720. change (2 ^ 30) with 1073741824. lia.
    + apply over_false. unfold lf_95. change (15938355 * 2 ^ 6) with 1020054720. change (2 ^ 30) with 1073741824. lia.
  - apply N.ltb_ge in EX. injection HG as <- <-.
    assert (WE : w32 (2 * (s - 1)) = 2 * (s - 1)) by (unfold w32; apply N.mod_small; change (2^32) with 4294967296; lia).
    rewrite WE.
    assert (GG := g_grow c P G s (2 * (s - 1)) PS). fold f in GG.
    destruct GG as (P' & G1 & G2 & G3); [lia | change (2^31) with 2147483648; lia |].
    set (s' := sm_min (hc_sm c) (2 * (s - 1))) in *. clearbody s'.
    split; [exact P' |]. split; [split; assumption |].
    intros e' Le. apply over_false. change (2 ^ 30) with 1073741824.
    unfold lf_30 in LF1. change (10066330 * 2 ^ 5) with 322122560 in LF1.
    assert (SL : s * 322122560 <= s * lf) by nia.
    destruct (N.lt_ge_cases s 10) as [C1 | C1].
    + assert (2 * (s * lf) <= s' * lf) by nia. lia.
    + assert ((2 * s - 2) * lf <= s' * lf) by nia.
      assert ((2 * s - 2) * lf = 2 * (s * lf) - 2 * lf) by nia.
      assert (10 * lf <= s * lf) by nia. lia.
Qed.

(** the linear probe sequence reaches every slot *)
Lemma probe_total : forall c P m k, growing c P -> P (h_size m) -> inv c m ->
  forall d fuel pos i, (d < fuel)%nat -> pos < h_size m ->
  nth_error (h_vals m) (N.to_nat ((pos + N.of_nat d) mod h_size m)) = Some undef_id ->
  probe_loop fuel c m k (hc_hash c k) (sm_mod (hc_sm c) (hc_hash c k) (h_size m) (hc_hash c k) 0) pos i <> None.
Proof.
  intros c P m k G PS I. destruct (g_range c P G _ PS) as [S4 SB]. destruct I as [L1 L2 _].
  induction d as [| d IH]; intros fuel pos i Lf Lp HE; (destruct fuel as [| fuel]; [lia |]); cbn [probe_loop].
  - rewrite N.add_0_r, N.mod_small in HE by exact Lp. rewrite HE. cbn [obind]. rewrite N.eqb_refl. discriminate.
  - destruct (nth_error (h_vals m) (N.to_nat pos)) as [v |] eqn:EV; [| apply nth_error_None in EV; lia].
    cbn [obind]. destruct (v =? undef_id); [discriminate |].
    destruct (nth_error (h_keys m) (N.to_nat pos)) as [k' |] eqn:EK; [| apply nth_error_None in EK; lia].
    cbn [obind]. destruct (k' =? k); [discriminate |].
    rewrite (g_probe c P G). unfold pr_linear.
    assert (EW : w32 (pos + 1) = pos + 1) by (unfold w32; apply N.mod_small; lia). rewrite EW.
    rewrite (g_mod c P G (pos + 1)) by exact PS.
    apply IH; [lia | apply N.mod_lt; lia |].
    rewrite N.add_mod_idemp_l by lia. replace (pos + 1 + N.of_nat d) with (pos + N.of_nat (S d)) by lia. exact HE.
Qed.

Lemma empty_slot : forall c m, inv c m -> (length (content m) < N.to_nat (h_size m))%nat ->
  exists j, j < h_size m /\ nth_error (h_vals m) (N.to_nat j) = Some undef_id.
Proof.
  intros c m I HL. rewrite <- (combine_length_full c m I) in HL.
  assert (EX : forall l : list (N * N), (length (filter nonempty l) < length l)%nat ->
            exists i x, nth_error l i = Some x /\ nonempty x = false).
  { induction l as [| x l IH]; cbn [filter length]; intros H; [lia |].
    destruct (nonempty x) eqn:E.
    - cbn [length] in H. destruct IH as (i & y & A & B); [lia |]. exists (S i), y. auto.
    - exists 0%nat, x. auto. }
  destruct (EX _ HL) as (i & [k v] & A & B). exists (N.of_nat i). rewrite Nat2N.id.
  assert (A2 := A). unfold slots in A. rewrite combine_nth_error in A.
  unfold nonempty in B. cbn [snd] in B. apply Bool.negb_false_iff, N.eqb_eq in B. subst v.
  destruct (nth_error (h_keys m) i); [| discriminate]. destruct (nth_error (h_vals m) i) eqn:EV; [| discriminate].
  split; [| congruence].
  assert (i < length (slots m))%nat by (apply nth_error_Some; congruence).
  rewrite (combine_length_full c m I) in H. lia.
Qed.

Lemma probe_some : forall c P m k fuel, growing c P -> P (h_size m) -> inv c m ->
  N.of_nat (length (content m)) < h_size m -> (N.to_nat (h_size m) < fuel)%nat ->
  exists r, probe_loop fuel c m k (hc_hash c k) (sm_mod (hc_sm c) (hc_hash c k) (h_size m) (hc_hash c k) 0)
    (sm_mod (hc_sm c) (hc_hash c k) (h_size m) (hc_hash c k) 0) 0 = Some r.
Proof.
  intros c P m k fuel G PS I HC HF. destruct (g_range c P G _ PS) as [S4 SB].
  destruct (empty_slot c m I ltac:(lia)) as (j & J1 & J2).
  match goal with |- exists r, ?p = Some r => destruct p eqn:E end; [eauto | exfalso].
  revert E. set (q := sm_mod (hc_sm c) (hc_hash c k) (h_size m) (hc_hash c k) 0).
  assert (QL : q < h_size m) by (unfold q; rewrite (g_mod c P G) by exact PS; apply N.mod_lt; lia).
  apply (probe_total c P m k G PS I (N.to_nat ((h_size m + j - q) mod h_size m))).
  - assert ((h_size m + j - q) mod h_size m < h_size m) by (apply N.mod_lt; lia). lia.
  - exact QL.
  - rewrite N2Nat.id. rewrite N.add_mod_idemp_r by lia.
    replace (q + (h_size m + j - q)) with (j + 1 * h_size m) by lia.
    rewrite N.mod_add, N.mod_small by lia. exact J2.
Qed.

Definition counted (m : hmap) : Prop := h_entries m = N.of_nat (length (content m)).

(** an insert that does not grow the table *)
Lemma insert_small : forall c P m k v fuel n rem, growing c P -> P (h_size m) -> inv c m -> counted m ->
  N.of_nat (length (content m)) < h_size m -> (N.to_nat (h_size m) < fuel)%nat ->
  (over (h_size m) (h_lf m) (w32 (h_entries m + 1)) = false \/ In k (map fst (content m))) ->
  exists m' x b, ht_insert (S fuel) c n rem m k v = Some (m', (x, b)) /\ h_size m' = h_size m /\ h_lf m' = h_lf m.
Proof.
  intros c P m k v fuel n rem G PS I CN HC HF HO. cbn [ht_insert].
  destruct (probe_some c P m k fuel G PS I HC HF) as [[pos found] EP]. rewrite EP. cbn [obind].
  assert (S := probe_loop_spec fuel c m k 0 _ 0 (pos, found) eq_refl ltac:(intros; lia) EP I). cbv beta iota in S.
  destruct found.
  - destruct S as [x [Hx _]]. rewrite slot_eq in Hx.
    destruct (nth_error (h_keys m) (N.to_nat pos)); [| discriminate].
    destruct (nth_error (h_vals m) (N.to_nat pos)) as [y |]; [| discriminate]. cbn [obind].
    do 3 eexists. split; [reflexivity |]. auto.
  - destruct S as [S1 S2]. destruct HO as [HO | HO]; [| exfalso; eapply probe_false_notin; eauto].
    cbn [h_size h_lf h_entries]. rewrite HO. do 3 eexists. split; [reflexivity |]. auto.
Qed.

Lemma rehash_total : forall c P n rem fuel s lf e l m, growing c P -> P s -> lf_ok lf ->
  (forall e', e' <= e -> over s lf e' = false) -> e < 2 ^ 32 -> e < s ->
  (N.to_nat s < fuel)%nat ->
  inv c m -> counted m -> h_size m = s -> h_lf m = lf ->
  NoDup (map fst (filter nonempty l ++ content m)) ->
  N.of_nat (length (filter nonempty l ++ content m)) <= e ->
  exists m', rehash (ht_insert (S fuel) c n rem) l m = Some m' /\ h_size m' = s /\ h_lf m' = lf.
Proof.
  intros c P n rem fuel s lf e l. induction l as [| [k v] l IH]; intros m G PS LF HO HE HES HF I CN MS ML ND HL.
  - exists m. cbn [rehash]. auto.
  - cbn [rehash]. cbn [filter] in ND, HL.
    assert (NE : nonempty (k, v) = negb (v =? undef_id)) by reflexivity. rewrite NE in ND, HL. clear NE.
    destruct (v =? undef_id) eqn:EV; cbn [negb] in ND, HL.
    + apply IH; auto.
    + cbn [app length] in HL. rewrite app_length in HL.
      assert (CN' := CN). unfold counted in CN'.
      destruct (insert_small c P m k v fuel n rem G) as (m1 & x & b & E1 & S1 & L1); try (rewrite ?MS; assumption || lia); auto.
      { rewrite MS, ML. left. apply HO. unfold w32. rewrite N.mod_small; lia. }
      rewrite E1. cbn [obind]. apply N.eqb_neq in EV.
      assert (J := insert_ok (S fuel) c n rem m k v _ I EV E1). cbn [ins_ok] in J. destruct J as [I1 J].
      cbn [app map fst] in ND. apply NoDup_cons_iff in ND. destruct ND as [N1 N2].
      destruct b.
      * destruct J as (-> & NI & P1 & C1).
        assert (PP : Permutation (filter nonempty l ++ content m1) ((k, v) :: filter nonempty l ++ content m)).
        { rewrite P1. symmetry. apply Permutation_middle. }
        apply IH; auto; try congruence.
        -- apply C1; [exact CN | lia].
        -- eapply Permutation_NoDup; [apply Permutation_map; symmetry; exact PP |]. cbn [map fst]. constructor; assumption.
        -- apply Permutation_length in PP. rewrite PP. cbn [length]. rewrite app_length. lia.
      * destruct J as (-> & NI). exfalso. apply N1. rewrite map_app. apply in_or_app. right.
        apply in_map_iff. exists (k, x). auto.
Qed.

(** a table in a proper state *)
Record ready (c : hconf) (P : N -> Prop) (m : hmap) : Prop := {
  r_inv : inv c m; r_counted : counted m; r_size : P (h_size m); r_lf : lf_ok (h_lf m);
  r_over : over (h_size m) (h_lf m) (h_entries m) = false
}.

Lemma reserve_total : forall c P n rem fuel m hint lf, growing c P -> NoDup (map fst (content m)) -> counted m -> lf_ok lf ->
  h_lf m = lf -> P (sm_min (hc_sm c) hint) ->
  (forall e', e' <= h_entries m -> over (sm_min (hc_sm c) hint) lf e' = false) ->
  (N.to_nat (2 ^ 32) <= fuel)%nat -> h_entries m < 2 ^ 32 ->
  exists m', ht_reserve_with (ht_insert (S fuel) c n rem) c m hint = Some m' /\ ready c P m' /\
             Permutation (content m') (content m).
Proof.
  intros c P n rem fuel m hint lf G ND CN LF ML PS HO HF HE32.
  destruct (g_range c P G _ PS) as [S4 SB].
  assert (EF : h_entries m < sm_min (hc_sm c) hint) by (apply (not_full _ lf); [exact LF | lia | apply HO; lia]).
  assert (CN2 := CN). unfold counted in CN2.
  assert (EX : exists m', ht_reserve_with (ht_insert (S fuel) c n rem) c m hint = Some m' /\
                          h_size m' = sm_min (hc_sm c) hint /\ h_lf m' = lf).
  { unfold ht_reserve_with. rewrite ML.
    destruct (fresh_inv c (sm_min (hc_sm c) hint) lf) as [FI FC].
    destruct (0 <? h_entries m) eqn:E0.
    - eapply (rehash_total c P n rem fuel (sm_min (hc_sm c) hint) lf (h_entries m)); eauto.
      + lia.
      + unfold counted. rewrite FC. reflexivity.
      + rewrite FC, app_nil_r. exact ND.
      + rewrite FC, app_nil_r. unfold content, slots in CN2. rewrite CN2. lia.
    - eexists. split; [reflexivity |]. split; reflexivity. }
  destruct EX as (m' & E1 & E2 & E3). exists m'. split; [exact E1 |].
  destruct (reserve_ok c _ (insert_ok (S fuel) c n rem) m hint m' ND (or_introl CN) E1) as (I1 & P1 & H1).
  specialize (H1 ltac:(lia)). split; [| exact P1].
  constructor; auto.
  - rewrite E2. exact PS.
  - rewrite E3. exact LF.
  - rewrite E2, E3. apply HO. rewrite H1. apply Permutation_length in P1. lia.
Qed.

Lemma insert_total : forall c P n rem fuel m k v, growing c P -> ready c P m -> v <> undef_id ->
  h_entries m + 1 <= 2 ^ 28 -> (N.to_nat (2 ^ 32) < fuel)%nat ->
  exists m' x b, ht_insert (S fuel) c n rem m k v = Some (m', (x, b)) /\ ready c P m'.
Proof.
  intros c P n rem fuel m k v G R Hv HB HF. destruct R as [I CN PS LF OV].
  destruct (g_range c P G _ PS) as [S4 SB].
  assert (NF : h_entries m < h_size m) by (eapply not_full; [exact LF | lia | exact OV]). assert (CN2 := CN). unfold counted in CN2.
  assert (HB2 : h_entries m + 1 < 2 ^ 32) by (change (2 ^ 28) with 268435456 in HB; change (2 ^ 32) with 4294967296; lia).
  assert (W : w32 (h_entries m + 1) = h_entries m + 1) by (unfold w32; apply N.mod_small; lia).
  assert (DONE : forall r, ht_insert (S fuel) c n rem m k v = Some r ->
     forall m' x b, r = (m', (x, b)) -> inv c m' /\ counted m' /\ h_entries m' <= h_entries m + 1).
  { intros r HR m' x b ->. assert (J := insert_ok (S fuel) c n rem m k v _ I Hv HR). cbn [ins_ok] in J.
    destruct J as [I1 J]. split; [exact I1 |]. destruct b.
    - destruct J as (_ & _ & P1 & C1). specialize (C1 CN HB2). split; [exact C1 |].
      rewrite C1. apply Permutation_length in P1. rewrite P1. cbn [length]. lia.
    - destruct J as [-> _]. split; [exact CN | lia]. }
  destruct (over (h_size m) (h_lf m) (h_entries m + 1)) eqn:EO.
  - cbn [ht_insert] in DONE |- *.
    destruct (probe_some c P m k fuel G PS I ltac:(lia) ltac:(lia)) as [[pos found] EP]. rewrite EP in DONE |- *. cbn [obind] in DONE |- *.
    assert (S := probe_loop_spec fuel c m k 0 _ 0 (pos, found) eq_refl ltac:(intros; lia) EP I). cbv beta iota in S.
    destruct found.
    + destruct S as [x [Hx _]]. rewrite slot_eq in Hx.
      destruct (nth_error (h_keys m) (N.to_nat pos)); [| discriminate].
      destruct (nth_error (h_vals m) (N.to_nat pos)) as [y |]; [| discriminate]. cbn [obind].
      do 3 eexists. split; [reflexivity |]. constructor; auto.
    + destruct S as [S1 S2]. cbn [h_size h_lf h_entries] in DONE |- *. rewrite W in DONE |- *. rewrite EO in DONE |- *.
      destruct (grow (sm_direct (hc_sm c)) (h_size m) (h_lf m) (h_entries m + 1) n rem) as [lf hint] eqn:EG.
      destruct (grow_ok c P (sm_direct (hc_sm c)) (h_size m) (h_lf m) (h_entries m + 1) n rem lf hint G PS LF ltac:(lia) HB
                  ltac:(replace (h_entries m + 1 - 1) with (h_entries m) by lia; exact OV) EO EG) as (GP & GL & GO).
      cbn [h_keys h_vals].
      destruct (set_slot_inv c m pos k v (h_entries m + 1) lf I Hv S1 S2) as [I2 P2].
      set (m2 := mk_hmap (h_size m) (upd (h_keys m) (N.to_nat pos) k) (upd (h_vals m) (N.to_nat pos) v) (h_entries m + 1) lf) in *.
      change (set_slot m pos k v (h_entries m + 1) lf) with m2 in I2, P2.
      assert (CM2 : counted m2).
      { unfold counted. apply Permutation_length in P2. rewrite P2. cbn [length m2 h_entries]. lia. }
      destruct fuel as [| fuel]; [lia |].
      destruct (reserve_total c P n rem fuel m2 hint lf G (content_nodup c m2 I2) CM2 GL eq_refl GP GO ltac:(lia) HB2) as (m3 & E3 & R3 & P3).
      rewrite E3. cbn [obind].
      destruct R3 as [I3 C3 PS3 LF3 OV3]. destruct (g_range c P G _ PS3) as [T4 TB].
      assert (NF3 : h_entries m3 < h_size m3) by (eapply not_full; [exact LF3 | lia | exact OV3]). assert (C3' := C3). unfold counted in C3'.
      assert (IN3 : In (k, v) (content m3)).
      { eapply Permutation_in; [symmetry; exact P3 |]. eapply Permutation_in; [symmetry; exact P2 |]. left. reflexivity. }
      destruct (insert_small c P m3 k v fuel n rem G PS3 I3 C3 ltac:(lia) ltac:(lia)
                 (or_intror (in_map fst _ _ IN3))) as (m4 & x & b & E4 & Q1 & Q2).
      rewrite E4. cbn [obind]. do 3 eexists. split; [reflexivity |].
      assert (J := insert_ok (S fuel) c n rem m3 k v _ I3 Hv E4). cbn [ins_ok] in J. destruct J as [I4 J]. destruct b.
      * exfalso. destruct J as (_ & J & _). apply J. apply (in_map fst _ _ IN3).
      * destruct J as [-> _]. constructor; auto.
  - destruct (insert_small c P m k v fuel n rem G PS I CN ltac:(lia) ltac:(lia) ltac:(left; rewrite W; exact EO))
      as (m' & x & b & E1 & Q1 & Q2).
    do 3 eexists. split; [exact E1 |]. destruct (DONE _ E1 _ _ _ eq_refl) as (J1 & J2 & J3).
    constructor; auto.
    + rewrite Q1. exact PS.
    + rewrite Q2. exact LF.
    + rewrite Q1, Q2. assert (J := insert_ok (S fuel) c n rem m k v _ I Hv E1). cbn [ins_ok] in J. destruct J as [_ J].
      destruct b.
      * destruct J as (_ & _ & P1 & C1). specialize (C1 CN HB2). rewrite C1. apply Permutation_length in P1.
        rewrite P1. cbn [length]. replace (N.of_nat (S (length (content m)))) with (h_entries m + 1) by lia. exact EO.
      * destruct J as [-> _]. exact OV.
Qed.
