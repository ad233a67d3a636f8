(** The table as a finite map. *)
From Verif Require Import Base CompactHash CompactSparseProofs CompactGroupProofs CompactInsertProofs CompactTableProofs CompactCoreProofs CompactKeyProofs CompactGrowProofs.

Definition has (t : tbl) (dd : nat -> nat) (k v : N) : Prop := hasq (tsl t) dd (fst (decompose t k)) (snd (decompose t k)) v.
Definition upd_map (m : N -> option N) (k v : N) : N -> option N := fun x => if (x =? k)%N then Some v else m x.
Record rep (t : tbl) (dd : nat -> nat) (m : N -> option N) : Prop := mk_rep {
  r_inv : tinv t dd; r_log : 1 <= t_log t <= 17; r_w : t_width t <= 64; r_len : length (t_bs t) = n_buckets;
  r_has : forall k v, (k < 2 ^ N.of_nat (real_width t))%N -> (m k = Some v <-> has t dd k v);
  r_out : forall k, (2 ^ N.of_nat (real_width t) <= k)%N -> m k = None;
  r_load : t_size t < cap t / 2 }.

Lemma rep_rw t : 1 <= t_log t <= 17 -> t_width t <= 64 -> real_width t <= 64.
Proof. intros H1 H2. unfold real_width. lia. Qed.
Lemma cap_two t : 1 <= t_log t -> 2 <= cap t /\ cap t = 2 * (cap t / 2).
Proof.
  intros H. unfold cap. destruct (t_log t) as [|n]; [lia|]. rewrite Nat.pow_succ_r by lia. pose proof (Nat.pow_nonzero 2 n). rewrite (Nat.mul_comm 2 (2 ^ n)), Nat.div_mul by lia. lia.
Qed.
Lemma rep_size t dd m : rep t dd m -> t_size t < cap t.
Proof. intros H. pose proof (r_load _ _ _ H). pose proof (cap_two t (proj1 (r_log _ _ _ H))). lia. Qed.
Lemma has_fun t dd k v v' : tinv t dd -> has t dd k v -> has t dd k v' -> v = v'.
Proof.
  intros H (d & D1 & D2) (d' & D1' & D2'). assert (d = d') by (eapply (g4 _ _ _ _ _ (ti_g _ _ H)); eauto). subst d'. congruence.
Qed.
Theorem rep_lookup t dd m k : rep t dd m -> (k < 2 ^ N.of_nat (real_width t))%N -> lookup t k = Some (m k).
Proof.
  intros H Hk. pose proof (rep_rw t (r_log _ _ _ H) (r_w _ _ _ H)) as Hrw. destruct (decompose t k) as [a q] eqn:E. destruct (decompose_ok t k a q Hrw E) as (Ha & Hq & _).
  destruct (lookup_ok t dd k a q (r_inv _ _ _ H) (rep_size _ _ _ H) E Ha) as [(v & L1 & L2)|(L1 & L2)]; rewrite L1; f_equal; symmetry.
  - apply (r_has _ _ _ H); auto. unfold has. rewrite E. exact L2.
  - destruct (m k) as [v|] eqn:Em; [|auto]. exfalso. apply (L2 v). apply (r_has _ _ _ H) in Em; [|auto]. unfold has in Em. rewrite E in Em. exact Em.
Qed.

(** ** a run that comes back into the bucket it started from fills the table *)
Lemma cnt_ge f : forall k i, (forall j, i <= j < i + k -> f j = true) -> forall n, k <= n -> k <= cnt f i n.
Proof.
  induction k as [|k IH]; intros i H n Hn; [lia|]. destruct n as [|n]; [lia|]. cbn [cnt]. rewrite (H i) by lia. cbn [Nat.b2n]. specialize (IH (S i) ltac:(intros; apply H; lia) n ltac:(lia)). lia.
Qed.
Lemma run_size t dd A ge term : tinv t dd -> run_of t dd A ge term -> term - A <= t_size t.
Proof.
  intros H (R1 & R2 & R3 & R4 & _). rewrite (ti_n _ _ H). assert (P : per (cap t) (occb (tsl t))) by (intros i; unfold occb; rewrite (per_sl t i); reflexivity). rewrite <- (cnt_per _ _ P A).
  apply cnt_ge; [|lia]. intros j Hj. unfold occb. destruct (tsl t j) eqn:E; [auto|]. exfalso. apply (R3 j); [lia|auto].
Qed.
Lemma not_stale t dd A ge term : tinv t dd -> run_of t dd A ge term -> 7 <= t_log t -> t_size t < cap t / 2 -> ~ stale_at t ge term.
Proof.
  intros H R Hl Hs [Hw Hb]. pose proof (run_size t dd A ge term H R) as Hr. destruct R as (R1 & R2 & _). pose proof (cap_pos t). unfold wrap_at in Hw.
  assert (Hcap : 128 <= cap t). { unfold cap. replace (t_log t) with (7 + (t_log t - 7)) by lia. rewrite Nat.pow_add_r. pose proof (Nat.pow_nonzero 2 (t_log t - 7)). cbn [Nat.pow]. lia. }
  pose proof (cap_two t ltac:(lia)) as [_ Hc2].
  replace term with (ge + (term - ge)) in Hw by lia. destruct (wrap_ix (cap t) ge (term - ge) ltac:(lia) ltac:(lia) Hw) as (Hk & Hix). specialize (Hix (term - ge) ltac:(lia)). replace (ge + (term - ge)) with term in * by lia.
  destruct (Nat.ltb_spec (ge mod cap t + (term - ge)) (cap t)); [lia|]. pose proof (Nat.div_mod (ge mod cap t) 64). pose proof (Nat.div_mod (term mod cap t) 64). pose proof (Nat.mod_upper_bound (ge mod cap t) 64). pose proof (Nat.mod_upper_bound (term mod cap t) 64). lia.
Qed.

(** ** inserting *)
Lemma dec_lt t k : real_width t <= 64 -> fst (decompose t k) < cap t /\ (snd (decompose t k) < 2 ^ N.of_nat (quot_width t))%N.
Proof. intros H. destruct (decompose t k) as [a q] eqn:E. destruct (decompose_ok t k a q H E) as (H1 & H2 & _). auto. Qed.
Lemma dec_inj t k k' : real_width t <= 64 -> (k < 2 ^ N.of_nat (real_width t))%N -> (k' < 2 ^ N.of_nat (real_width t))%N -> decompose t k = decompose t k' -> k = k'.
Proof.
  intros H Hk Hk' E. destruct (decompose t k) as [a q] eqn:E1. rewrite <- (compose_dec t k a q H Hk E1). apply (compose_dec t k' a q H Hk'). auto.
Qed.
Definition key_at (t : tbl) (k v : N) (l : loc) : Prop := exists p, p < cap t /\ l = loc_of (t_bs t) p /\ slot (t_bs t) p = Some (snd (decompose t k), v).
Lemma insert_core_rep t dd m k v : rep t dd m -> t_size t + 1 < cap t / 2 -> (k < 2 ^ N.of_nat (real_width t))%N ->
  match m k with
  | Some v0 => exists l d, insert_core t k v = Some (t, l) /\ l = loc_of (t_bs t) ((fst (decompose t k) + d) mod cap t) /\ dd (fst (decompose t k) + d) = d /\ tsl t (fst (decompose t k) + d) = Some (snd (decompose t k), v0)
  | None => exists ge term, run_of t dd (fst (decompose t k) + cap t) ge term /\
      if (ge <? term) && (term mod cap t =? 0) then insert_core t k v = None
      else exists t' l dd', insert_core t k v = Some (t', l) /\ rep t' dd' (upd_map m k v) /\ t_size t' = S (t_size t) /\ t_log t' = t_log t /\ t_width t' = t_width t /\
        right_loc t (t_bs t') ge term l /\ tsl t' ge = Some (snd (decompose t k), v) /\ dd' ge = ge - (fst (decompose t k) + cap t) /\ (forall i, fst (decompose t k) + cap t <= i < term -> tsl t' i <> None)
  end.
Proof.
  intros H Hl Hk. pose proof (rep_rw t (r_log _ _ _ H) (r_w _ _ _ H)) as Hrw. destruct (decompose t k) as [a q] eqn:E. cbn [fst snd]. destruct (decompose_ok t k a q Hrw E) as (Ha & Hq & _).
  pose proof (rep_size _ _ _ H) as Hs.
  destruct (insert_core_ok t dd k v a q (r_inv _ _ _ H) Hs E Ha Hq) as [(p & v0 & I1 & I2 & I3 & d & I4 & I5 & I6)|(I1 & ge & term & I2 & I3)].
  - assert (Em : m k = Some v0) by (apply (r_has _ _ _ H); [auto|]; unfold has; rewrite E; exact I3). rewrite Em. exists (loc_of (t_bs t) p), d. subst p. auto.
  - assert (Em : m k = None). { destruct (m k) as [v0|] eqn:Em; [|auto]. exfalso. apply (I1 v0). apply (r_has _ _ _ H) in Em; [|auto]. unfold has in Em. rewrite E in Em. exact Em. }
    rewrite Em. exists ge, term. split; [auto|]. destruct ((ge <? term) && (term mod cap t =? 0)); [auto|]. destruct I3 as (t' & l & dd' & J1 & J2). destruct J2 as (K1 & K2 & K3 & K4 & K5 & K6 & K7 & K8 & K9 & K10).
    exists t', l, dd'. split; [auto|]. assert (Erw : real_width t' = real_width t) by (unfold real_width; rewrite K2, K3; reflexivity).
    assert (Ec : cap t' = cap t) by (unfold cap; rewrite K2; reflexivity). assert (Ed : forall x, decompose t' x = decompose t x) by (intros x; unfold decompose; rewrite Erw, K2; reflexivity).
    split; [|split; [auto|split; [auto|split; [auto|split; [auto|split; [auto|split; [auto|auto]]]]]]].
    split; auto.
    + rewrite K2. apply (r_log _ _ _ H).
    + rewrite K3. apply (r_w _ _ _ H).
    + rewrite K5. apply (r_len _ _ _ H).
    + intros x w Hx. rewrite Erw in Hx. unfold has, upd_map. rewrite Ed, K6. rewrite A_mod by auto. rewrite (Nat.mod_small (fst (decompose t x))) by (apply dec_lt; auto).
      pose proof (r_has _ _ _ H x w Hx) as Hh. unfold has in Hh. destruct (N.eqb_spec x k) as [->|Hn].
      * rewrite E in *. cbn [fst snd]. split; [intros X; injection X as ->; auto|]. intros [(_ & _ & ->)|X]; [auto|]. exfalso. apply (I1 w). auto.
      * rewrite Hh. split; [auto|]. intros [(X1 & X2 & _)|X]; [|auto]. exfalso. apply Hn. apply (dec_inj t); auto. rewrite E, <- X1, <- X2. apply surjective_pairing.
    + intros x Hx. rewrite Erw in Hx. unfold upd_map. destruct (N.eqb_spec x k) as [->|Hn]; [lia|]. apply (r_out _ _ _ H). auto.
    + rewrite K4, Ec. lia.
Qed.

(** ** changing a value *)
Lemma put_rep t dd m k v0 v d : rep t dd m -> (k < 2 ^ N.of_nat (real_width t))%N -> dd (fst (decompose t k) + d) = d -> tsl t (fst (decompose t k) + d) = Some (snd (decompose t k), v0) ->
  exists bs, put_at (t_bs t) (loc_of (t_bs t) ((fst (decompose t k) + d) mod cap t)) (snd (decompose t k), v) = Some bs /\ rep (set_bs t bs) dd (upd_map m k v).
Proof.
  intros H Hk Hd Hs. pose proof (rep_rw t (r_log _ _ _ H) (r_w _ _ _ H)) as Hrw. destruct (decompose t k) as [a q] eqn:E. cbn [fst snd] in *. destruct (decompose_ok t k a q Hrw E) as (Ha & Hq & _).
  pose proof (r_inv _ _ _ H) as T. pose proof (ti_g _ _ T) as G. pose proof (ti_shp _ _ T) as (W & L & B). set (p := (a + d) mod cap t) in *.
  destruct (put_at_ok (t_bs t) p (q, v0) (q, v) W Hs) as (bs & P1 & P2 & [P3 P3'] & P4). exists bs. split; [auto|].
  assert (Hsl : forall i, tsl (set_bs t bs) i = if i mod cap t =? p then Some (q, v) else tsl t i) by (intros i; unfold tsl; rewrite set_bs_cap; apply P4).
  assert (Hso : forall i, tsl (set_bs t bs) i = None <-> tsl t i = None).
  { intros i. rewrite Hsl. destruct (Nat.eqb_spec (i mod cap t) p) as [Ep|]; [|tauto]. unfold tsl. rewrite Ep. split; intros X; [discriminate|]. unfold tsl in Hs. fold p in Hs. congruence. }
  assert (Hhq : forall b q' v', hasq (tsl (set_bs t bs)) dd b q' v' <-> (b mod cap t = a /\ q' = q /\ v' = v) \/ (~ (b mod cap t = a /\ q' = q) /\ hasq (tsl t) dd b q' v')).
  { intros b q' v'. pose proof (cap_pos t) as Hn.
    assert (Hab : b mod cap t = a -> forall i, tsl t (b + i) = tsl t (a + i) /\ dd (b + i) = dd (a + i) /\ (b + i) mod cap t = (a + i) mod cap t).
    { intros Eb i. assert (X : (b + i) mod cap t = (a + i) mod cap t) by (rewrite (Nat.add_mod b i), Eb, Nat.add_mod_idemp_r by lia; reflexivity). split; [unfold tsl; rewrite X; reflexivity|]. split; [|auto].
      rewrite <- (per_mod (cap t) dd Hn (g_pd _ _ _ _ _ G) (b + i)), X. apply per_mod; auto. apply (g_pd _ _ _ _ _ G). }
    split.
    - intros (d' & D1 & D2). rewrite Hsl in D1. destruct (Nat.eqb_spec ((b + d') mod cap t) p) as [Ep|Np].
      + injection D1 as <- <-. left. split; [|auto].
        assert (Edd : d' = d). { rewrite <- D2, <- Hd. rewrite <- (per_mod (cap t) dd Hn (g_pd _ _ _ _ _ G) (b + d')), Ep. apply per_mod; auto. apply (g_pd _ _ _ _ _ G). }
        subst d'. unfold p in Ep. pose proof (Nat.mod_upper_bound b (cap t) ltac:(lia)).
        rewrite (Nat.add_mod b d), (Nat.add_mod a d), (Nat.mod_small a) in Ep by lia. set (r := d mod cap t) in *. assert (r < cap t) by (apply Nat.mod_upper_bound; lia).
        eapply (win_inj (cap t) r (b mod cap t + r) (a + r)) in Ep; lia.
      + right. split; [|exists d'; auto]. intros [X1 X2]. subst q'. destruct (Hab X1 d') as (Y1 & Y2 & Y3). rewrite Y1 in D1. rewrite Y2 in D2. assert (d' = d) by (eapply (g4 _ _ _ _ _ G); eauto). subst d'. apply Np. rewrite Y3. reflexivity.
    - intros [(X1 & -> & ->)|(X1 & d' & D1 & D2)].
      + exists d. destruct (Hab X1 d) as (Y1 & Y2 & Y3). rewrite Hsl, Y3, Y2. fold p. rewrite Nat.eqb_refl. auto.
      + exists d'. rewrite Hsl. destruct (Nat.eqb_spec ((b + d') mod cap t) p) as [Ep|Np]; [|auto]. exfalso. apply X1.
        assert (Edd : d' = d). { rewrite <- D2, <- Hd. rewrite <- (per_mod (cap t) dd Hn (g_pd _ _ _ _ _ G) (b + d')), Ep. apply per_mod; auto. apply (g_pd _ _ _ _ _ G). }
        subst d'. assert (Z : tsl t (b + d) = tsl t (a + d)) by (unfold tsl; rewrite Ep; reflexivity). split; [|rewrite Z in D1; congruence].
        unfold p in Ep. pose proof (Nat.mod_upper_bound b (cap t) ltac:(lia)).
        rewrite (Nat.add_mod b d), (Nat.add_mod a d), (Nat.mod_small a) in Ep by lia. set (r := d mod cap t) in *. assert (r < cap t) by (apply Nat.mod_upper_bound; lia).
        eapply (win_inj (cap t) r (b mod cap t + r) (a + r)) in Ep; lia. }
  split; try (apply H).
  - split.
    + rewrite set_bs_cap. split; try (apply G).
      * rewrite <- (set_bs_cap t bs). apply per_sl.
      * intros i X Y. destruct (g1 _ _ _ _ _ G i) as [Z1 Z2]; [intros Z; apply X, Hso; auto|auto|]. split; [|auto]. intros Z. apply Z1, Hso. auto.
      * intros i. replace (tcc (set_bs t bs) (S i)) with (tcc t (S i)) by reflexivity. rewrite (g2 _ _ _ _ _ G). rewrite Hso. tauto.
      * intros b. replace (tvv (set_bs t bs) b) with (tvv t b) by reflexivity. rewrite (g3 _ _ _ _ _ G). split; intros (d' & D1 & D2); exists d'; (split; [|auto]); intros Z; apply D1, Hso; auto.
      * intros b d1 d2 q' w1 w2 X1 X2 X3 X4. rewrite Hsl in X1, X3.
        assert (Y1 : exists w, tsl t (b + d1) = Some (q', w)). { destruct (Nat.eqb_spec ((b + d1) mod cap t) p) as [Ep|]; [|eauto]. injection X1 as <- _. exists v0. unfold tsl. rewrite Ep. exact Hs. }
        assert (Y2 : exists w, tsl t (b + d2) = Some (q', w)). { destruct (Nat.eqb_spec ((b + d2) mod cap t) p) as [Ep|]; [|eauto]. injection X3 as <- _. exists v0. unfold tsl. rewrite Ep. exact Hs. }
        destruct Y1 as (u1 & Y1). destruct Y2 as (u2 & Y2). eapply (g4 _ _ _ _ _ G); eauto.
    + split; [exact P2|]. split; [exact L|]. rewrite set_bs_cap. cbn [set_bs t_bs]. lia.
    + intros i q' w. rewrite Hsl. replace (quot_width (set_bs t bs)) with (quot_width t) by reflexivity. destruct (_ =? p); [intros X; injection X as <- <-; auto|apply (ti_q _ _ T)].
    + cbn [set_bs t_size]. rewrite set_bs_cap, (ti_n _ _ T). apply cnt_ext. intros j _. unfold occb. destruct (tsl t j) eqn:E1, (tsl (set_bs t bs) j) eqn:E2; auto.
      * apply Hso in E2. congruence.
      * apply Hso in E1. congruence.
  - cbn [set_bs t_bs]. rewrite P3. apply H.
  - intros x w Hx. replace (real_width (set_bs t bs)) with (real_width t) in Hx by reflexivity. pose proof (r_has _ _ _ H x w Hx) as Hh. unfold has, upd_map in *. replace (decompose (set_bs t bs) x) with (decompose t x) by reflexivity.
    rewrite Hhq. destruct (dec_lt t x Hrw) as [X1 X2]. rewrite Nat.mod_small by auto. destruct (N.eqb_spec x k) as [->|Hn].
    + rewrite E in *. cbn [fst snd]. split; [intros X; injection X as ->; auto|]. intros [(_ & _ & ->)|(X & _)]; [auto|]. exfalso. apply X. auto.
    + rewrite Hh. assert (Hne : ~ (fst (decompose t x) = a /\ snd (decompose t x) = q)). { intros [Y1 Y2]. apply Hn. apply (dec_inj t); auto. rewrite E, <- Y1, <- Y2. apply surjective_pairing. }
      split; [auto|]. intros [(Y1 & Y2 & _)|(_ & Y)]; [|auto]. exfalso. auto.
  - intros x Hx. unfold upd_map. destruct (N.eqb_spec x k) as [->|Hn]; [replace (real_width (set_bs t bs)) with (real_width t) in Hx by reflexivity; lia|]. apply (r_out _ _ _ H). auto.
Qed.
