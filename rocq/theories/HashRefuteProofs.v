From Coq Require Import Permutation.
From Verif Require Import Base BitIO IntCodes Coders LZ Tries HashMap HashMapSpec HashMapProofs HashTermProofs HashTableProofs.
Local Open Scope N_scope.

(** *** A table that is reserved to its own size when it is full *)
Lemma insert_nogrow : forall f c n rem m k v m' x b,
  ht_insert f c n rem m k v = Some (m', (x, b)) -> over (h_size m) (h_lf m) (w32 (h_entries m + 1)) = false ->
  h_size m' = h_size m /\ h_lf m' = h_lf m.
Proof.
  intros f c n rem m k v m' x b H HO. destruct f as [| f]; [discriminate |]. cbn [ht_insert] in H. cbv zeta in H.
  match type of H with obind ?p _ = _ => destruct p as [[pos found] |] eqn:E end; [| discriminate].
  cbn [obind h_size h_lf h_entries] in H. rewrite HO in H. destruct found.
  - destruct (nth_error (h_vals m) (N.to_nat pos)); [| discriminate]. cbn [obind] in H. injection H as <- _ _. auto.
  - injection H as <- _ _. cbn [h_size h_lf]. auto.
Qed.

Section Stuck.
  Variables (c : hconf) (n rem s : N).
  Hypothesis Hs : 0 < s < 2 ^ 32.
  Hypothesis Hmin : sm_min (hc_sm c) s = s.
  Hypothesis Hov1 : forall e, e < s -> over s lf_95 e = false.
  Hypothesis Hov2 : over s lf_95 s = true.
  Hypothesis Hgrow : grow (sm_direct (hc_sm c)) s lf_95 s n rem = (lf_95, s).

  Lemma stuck_rehash : forall f,
    (forall m k v, inv c m -> counted m -> h_size m = s -> h_lf m = lf_95 -> h_entries m = s - 1 -> v <> undef_id ->
       ~ In k (map fst (content m)) -> ht_insert f c n rem m k v = None) ->
    forall l m, inv c m -> counted m -> h_size m = s -> h_lf m = lf_95 -> h_entries m < s ->
      NoDup (map fst (filter nonempty l ++ content m)) ->
      N.of_nat (length (filter nonempty l ++ content m)) = s ->
      rehash (ht_insert f c n rem) l m = None.
  Proof.
    intros f IH. induction l as [| [k v] l IHl]; intros m I CN MS ML ME ND HL.
    - exfalso. cbn [filter app] in HL. unfold counted in CN. lia.
    - cbn [rehash]. cbn [filter] in ND, HL.
      assert (NE : nonempty (k, v) = negb (v =? undef_id)) by reflexivity. rewrite NE in ND, HL. clear NE.
      destruct (v =? undef_id) eqn:EV; cbn [negb] in ND, HL; [apply IHl; auto |].
      apply N.eqb_neq in EV. cbn [app map fst] in ND. apply NoDup_cons_iff in ND. destruct ND as [N1 N2].
      assert (NK : ~ In k (map fst (content m))).
      { intros C. apply N1. rewrite map_app. apply in_or_app. auto. }
      destruct (N.eq_dec (h_entries m) (s - 1)) as [E | E].
      + rewrite IH; auto.
      + destruct (ht_insert f c n rem m k v) as [[m1 [x b]] |] eqn:EI; [| reflexivity]. cbn [obind].
        assert (W : w32 (h_entries m + 1) = h_entries m + 1) by (unfold w32; apply N.mod_small; lia).
        destruct (insert_nogrow _ _ _ _ _ _ _ _ _ _ EI) as [Q1 Q2].
        { rewrite MS, ML, W. apply Hov1. lia. }
        assert (J := insert_ok f c n rem m k v _ I EV EI). cbn [ins_ok] in J. destruct J as [I1 J]. destruct b.
        * destruct J as (-> & _ & P1 & C1). specialize (C1 CN ltac:(lia)).
          assert (PP : Permutation (filter nonempty l ++ content m1) ((k, v) :: filter nonempty l ++ content m)).
          { rewrite P1. symmetry. apply Permutation_middle. }
          apply IHl; auto; try congruence.
          -- rewrite C1. apply Permutation_length in P1. rewrite P1. cbn [length]. unfold counted in CN. lia.
          -- eapply Permutation_NoDup; [apply Permutation_map; symmetry; exact PP |]. cbn [map fst]. constructor; assumption.
          -- apply Permutation_length in PP. rewrite PP. exact HL.
        * exfalso. destruct J as [-> J]. apply NK. apply (in_map fst _ _ J).
  Qed.

  Lemma stuck_insert : forall f m k v, inv c m -> counted m -> h_size m = s -> h_lf m = lf_95 -> h_entries m = s - 1 ->
    v <> undef_id -> ~ In k (map fst (content m)) -> ht_insert f c n rem m k v = None.
  Proof.
    induction f as [| f IH]; intros m k v I CN MS ML ME HV NK; [reflexivity |]. cbn [ht_insert]. cbv zeta.
    match goal with |- obind ?p _ = _ => destruct p as [[pos found] |] eqn:E end; [| reflexivity]. cbn [obind].
    assert (S := probe_loop_spec f c m k 0 _ 0 (pos, found) eq_refl ltac:(intros; lia) E I). cbv beta iota in S.
    destruct found.
    - exfalso. destruct S as [x Hx]. apply NK. apply (in_map fst _ (k, x)). apply content_held. eauto.
    - destruct S as [S1 S2]. cbn [h_size h_lf h_entries h_keys h_vals].
      assert (W : w32 (h_entries m + 1) = s) by (rewrite ME; unfold w32; rewrite N.mod_small; lia).
      rewrite W, ML. rewrite MS at 1. rewrite Hov2. rewrite MS at 1. rewrite Hgrow.
      destruct (set_slot_inv c m pos k v s lf_95 I HV S1 S2) as [I2 P2].
      set (m2 := mk_hmap (h_size m) (upd (h_keys m) (N.to_nat pos) k) (upd (h_vals m) (N.to_nat pos) v) s lf_95) in *.
      change (set_slot m pos k v s lf_95) with m2 in I2, P2.
      unfold ht_reserve_with. cbn [m2 h_entries h_lf]. rewrite Hmin.
      replace (0 <? s) with true by (symmetry; apply N.ltb_lt; lia).
      destruct (fresh_inv c s lf_95) as [FI FC].
      rewrite (stuck_rehash f IH); auto.
      + unfold counted. rewrite FC. reflexivity.
      + cbn [ht_fresh h_entries]. lia.
      + rewrite FC, app_nil_r. apply (content_nodup c m2 I2).
      + rewrite FC, app_nil_r. change (filter nonempty (combine (h_keys m2) (h_vals m2))) with (content m2).
        apply Permutation_length in P2. rewrite P2. cbn [length]. unfold counted in CN. lia.
  Qed.
End Stuck.

(** *** Quadratic probing over 8 slots *)
Lemma quad8_stuck : forall k m,
  h_size m = 8 ->
  (forall j, In j [0; 1; 4] -> exists k' v', nth_error (h_keys m) (N.to_nat j) = Some k' /\ k' <> k /\
      nth_error (h_vals m) (N.to_nat j) = Some v' /\ v' <> undef_id) ->
  forall f i pos, In pos [0; 1; 4] ->
  probe_loop f (mk_hconf noop pr_quad sm_pow2) m k k 0 pos i = None.
Proof.
  intros k m HS HF. induction f as [| f IH]; intros i pos HP; [reflexivity |]. cbn [probe_loop].
  destruct (HF pos HP) as (k' & v' & A & B & C & D). rewrite A, C. cbn [obind].
  apply N.eqb_neq in B, D. rewrite D, B. cbn [hc_sm sm_mod sm_pow2 hc_probe]. apply IH.
  unfold pr_quad. rewrite HS. change (w32 (8 + 2 ^ 32 - 1)) with (N.ones 3). rewrite N.land_ones.
  set (j := w32 (i + 1)). clearbody j. change (2 ^ 3) with 8. rewrite N.add_0_l.
  assert (E : w32 (j * j) mod 8 = ((j mod 8) * (j mod 8)) mod 8).
  { unfold w32. change (2 ^ 32) with (8 * 536870912).
    rewrite N.mod_mul_r by discriminate. rewrite (N.mul_comm 8), N.mod_add by discriminate.
    rewrite N.mod_mod by discriminate. rewrite N.mul_mod by discriminate. reflexivity. }
  rewrite E. assert (J := N.mod_lt j 8 ltac:(discriminate)). set (r := j mod 8) in *. clearbody r.
  assert (r = 0 \/ r = 1 \/ r = 2 \/ r = 3 \/ r = 4 \/ r = 5 \/ r = 6 \/ r = 7) as C8 by lia.
  decompose [or] C8; subst r; cbn; tauto.
Qed.

(** results do not depend on the fuel *)
Lemma insert_mono_le : forall d f c n rem m k v r, ht_insert f c n rem m k v = Some r -> ht_insert (d + f) c n rem m k v = Some r.
Proof. induction d; intros; [exact H |]. cbn [plus]. apply insert_mono. apply IHd. exact H. Qed.
Lemma insert_det : forall f g c n rem m k v r r', ht_insert f c n rem m k v = Some r -> ht_insert g c n rem m k v = Some r' -> r = r'.
Proof.
  intros f g c n rem m k v r r' H H'. apply (insert_mono_le g) in H. apply (insert_mono_le f) in H'.
  rewrite Nat.add_comm in H. congruence.
Qed.
Lemma find_det : forall f g c n st p ch r r', ht_find f c n st p ch = Some r -> ht_find g c n st p ch = Some r' -> r = r'.
Proof.
  intros f g c n [m rem] p ch r r' H H'. unfold ht_find in *.
  destruct (ht_insert f c n (rem - 1) m (create_node p ch) (h_entries m)) as [[m1 [x b]] |] eqn:E; [| discriminate].
  destruct (ht_insert g c n (rem - 1) m (create_node p ch) (h_entries m)) as [[m1' [x' b']] |] eqn:E'; [| discriminate].
  cbn [obind] in *. assert (Q := insert_det _ _ _ _ _ _ _ _ _ _ E E'). injection Q as -> -> ->. congruence.
Qed.
Lemma roots1_det : forall f g c n rem m r r', ht_roots f c n rem [0] m = Some r -> ht_roots g c n rem [0] m = Some r' -> r = r'.
Proof.
  intros f g c n rem m r r' H H'. cbn [ht_roots] in *.
  destruct (ht_insert f c n rem m (create_node 0 0) (h_entries m)) as [[m1 x] |] eqn:E; [| discriminate].
  destruct (ht_insert g c n rem m (create_node 0 0) (h_entries m)) as [[m1' x'] |] eqn:E'; [| discriminate].
  cbn [obind] in *. assert (Q := insert_det _ _ _ _ _ _ _ _ _ _ E E'). congruence.
Qed.
