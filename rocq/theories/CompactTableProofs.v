(** The functions of the table against the abstract description. *)
From Verif Require Import Base CompactHash CompactSparseProofs CompactGroupProofs CompactInsertProofs.

Definition tsl (t : tbl) (i : nat) : option (N * N) := slot (t_bs t) (i mod cap t).
Definition tcc (t : tbl) (i : nat) : bool := snd (nth (i mod cap t) (t_cv t) (false, false)).
Definition tvv (t : tbl) (i : nat) : bool := fst (nth (i mod cap t) (t_cv t) (false, false)).
Definition shp (t : tbl) : Prop := wf_bs (t_bs t) /\ length (t_cv t) = cap t /\ cap t < 64 * length (t_bs t).

Lemma cap_pos t : 0 < cap t.
Proof. unfold cap. pose proof (Nat.pow_nonzero 2 (t_log t)). lia. Qed.
Lemma ix_lt t i : i mod cap t < cap t.
Proof. pose proof (cap_pos t). apply Nat.mod_upper_bound. lia. Qed.
Lemma per_mod_fn {X} n (f : nat -> X) : 0 < n -> per n (fun i => f (i mod n)).
Proof. intros Hn i. replace (i + n) with (i + 1 * n) by lia. rewrite Nat.mod_add by lia. reflexivity. Qed.
Lemma per_sl t : per (cap t) (tsl t). Proof. apply (per_mod_fn _ (slot (t_bs t))), cap_pos. Qed.
Lemma per_cc t : per (cap t) (tcc t). Proof. apply (per_mod_fn _ (fun p => snd (nth p (t_cv t) (false, false)))), cap_pos. Qed.
Lemma per_vv t : per (cap t) (tvv t). Proof. apply (per_mod_fn _ (fun p => fst (nth p (t_cv t) (false, false)))), cap_pos. Qed.
Lemma win_inj n A i j : A <= i < A + n -> A <= j < A + n -> i mod n = j mod n -> i = j.
Proof.
  intros Hi Hj E. pose proof (Nat.div_mod i n ltac:(lia)). pose proof (Nat.div_mod j n ltac:(lia)). rewrite E in *.
  assert (i / n = j / n \/ i / n < j / n \/ j / n < i / n) as [X|[X|X]] by lia; [rewrite X in *; lia|nia|nia].
Qed.
Lemma mod_add_ix t i : mod_add t (i mod cap t) = S i mod cap t.
Proof. pose proof (cap_pos t). unfold mod_add. rewrite Nat.add_mod_idemp_l by lia. f_equal. lia. Qed.
Lemma mod_sub_ix t i : mod_sub t (S i mod cap t) = i mod cap t.
Proof.
  pose proof (cap_pos t). unfold mod_sub. replace (S i mod cap t + cap t - 1) with (S i mod cap t + (cap t - 1)) by lia. rewrite Nat.add_mod_idemp_l by lia.
  replace (S i + (cap t - 1)) with (i + 1 * cap t) by lia. apply Nat.mod_add. lia.
Qed.

(** ** single slots *)
Lemma get_cv_ix t i : shp t -> nth_error (t_cv t) (i mod cap t) = Some (tvv t i, tcc t i).
Proof.
  intros (_ & L & _). pose proof (ix_lt t i). unfold tvv, tcc. rewrite <- surjective_pairing. apply nth_error_nth'. lia.
Qed.
Lemma get_c_ix t i : shp t -> get_c t (i mod cap t) = Some (tcc t i).
Proof. intros H. unfold get_c. rewrite (get_cv_ix t i H). reflexivity. Qed.
Lemma get_v_ix t i : shp t -> get_v t (i mod cap t) = Some (tvv t i).
Proof. intros H. unfold get_v. rewrite (get_cv_ix t i H). reflexivity. Qed.
(** same buckets and sizes *)
Definition same_bs (t t' : tbl) : Prop := t_log t' = t_log t /\ t_size t' = t_size t /\ t_width t' = t_width t /\ t_bs t' = t_bs t.
Lemma same_cap t t' : same_bs t t' -> cap t' = cap t.
Proof. intros (H & _). unfold cap. rewrite H. reflexivity. Qed.
Lemma same_sl t t' : same_bs t t' -> forall i, tsl t' i = tsl t i.
Proof. intros H i. unfold tsl. rewrite (same_cap _ _ H). destruct H as (_ & _ & _ & ->). reflexivity. Qed.
Lemma set_c_ix t i b : shp t -> exists t', set_c t (i mod cap t) b = Some t' /\ same_bs t t' /\ shp t' /\ (forall j, tvv t' j = tvv t j) /\
  (forall j, tcc t' j = if j mod cap t =? i mod cap t then b else tcc t j).
Proof.
  intros H. unfold set_c. rewrite (get_cv_ix t i H). cbn [obind fst snd]. eexists. split; [reflexivity|]. split; [split; [|split; [|split]]; reflexivity|]. destruct H as (W & L & B). pose proof (ix_lt t i).
  split; [split; [auto|split; [cbn [t_cv]; rewrite upd_length; exact L|exact B]]|].
  split; intros j; unfold tvv, tcc, cap; cbn [t_cv t_log]; fold (cap t); destruct (Nat.eqb_spec (j mod cap t) (i mod cap t)) as [E|E].
  - rewrite E, nth_upd_eq by lia. reflexivity.
  - rewrite nth_upd_ne by auto. reflexivity.
  - rewrite E, nth_upd_eq by lia. reflexivity.
  - rewrite nth_upd_ne by auto. reflexivity.
Qed.
Lemma set_v_ix t i b : shp t -> exists t', set_v t (i mod cap t) b = Some t' /\ same_bs t t' /\ shp t' /\ (forall j, tcc t' j = tcc t j) /\
  (forall j, tvv t' j = if j mod cap t =? i mod cap t then b else tvv t j).
Proof.
  intros H. unfold set_v. rewrite (get_cv_ix t i H). cbn [obind fst snd]. eexists. split; [reflexivity|]. split; [split; [|split; [|split]]; reflexivity|]. destruct H as (W & L & B). pose proof (ix_lt t i).
  split; [split; [auto|split; [cbn [t_cv]; rewrite upd_length; exact L|exact B]]|].
  split; intros j; unfold tvv, tcc, cap; cbn [t_cv t_log]; fold (cap t); destruct (Nat.eqb_spec (j mod cap t) (i mod cap t)) as [E|E].
  - rewrite E, nth_upd_eq by lia. reflexivity.
  - rewrite nth_upd_ne by auto. reflexivity.
  - rewrite E, nth_upd_eq by lia. reflexivity.
  - rewrite nth_upd_ne by auto. reflexivity.
Qed.
Lemma exists_ix t i : shp t -> exists b, sparse_exists (t_bs t) (i mod cap t) = Some b /\ (b = true <-> tsl t i <> None).
Proof. intros (W & _ & B). pose proof (ix_lt t i). apply sparse_exists_ok; [auto|lia]. Qed.
Lemma exists_full t i : shp t -> tsl t i <> None -> sparse_exists (t_bs t) (i mod cap t) = Some true.
Proof. intros H Hs. destruct (exists_ix t i H) as (b & -> & E). f_equal. apply E. auto. Qed.
Lemma exists_empty t i : shp t -> tsl t i = None -> sparse_exists (t_bs t) (i mod cap t) = Some false.
Proof. intros H Hs. destruct (exists_ix t i H) as (b & -> & E). f_equal. destruct b; [|auto]. exfalso. apply (proj1 E); auto. Qed.

(** ** the cursors *)
Lemma seek_end_ok t : shp t -> forall k i fuel vs, (forall j, i <= j < i + k -> tsl t j <> None) -> tsl t (i + k) = None -> k < fuel ->
  seek_end fuel t (i mod cap t) vs = Some ((i + k) mod cap t, vs + cnt (tvv t) i k).
Proof.
  intros H. induction k as [|k IH]; intros i fuel vs Ho He Hf; (destruct fuel as [|fuel]; [lia|]); cbn [seek_end].
  - rewrite Nat.add_0_r in *. rewrite exists_empty by auto. cbn [obind cnt]. rewrite Nat.add_0_r. reflexivity.
  - rewrite exists_full by (auto; apply Ho; lia). cbn [obind]. rewrite get_v_ix by auto. cbn [obind]. rewrite mod_add_ix. rewrite IH.
    + cbn [cnt]. replace (S i + k) with (i + S k) by lia. do 2 f_equal. lia.
    + intros j Hj. apply Ho. lia.
    + replace (S i + k) with (i + S k) by lia. auto.
    + lia.
Qed.
Lemma seek_back_ok t stop : shp t -> forall k i fuel cs, k <= i -> (forall m, m < k -> cnt (tcc t) (i - m) m < cs - stop) -> stop <= cs -> cnt (tcc t) (i - k) k = cs - stop -> k < fuel ->
  seek_back fuel t stop (i mod cap t) cs = Some ((i - k) mod cap t).
Proof.
  intros H. induction k as [|k IH]; intros i fuel cs Hi Hm Hs Hk Hf; (destruct fuel as [|fuel]; [lia|]); cbn [seek_back].
  - cbn [cnt] in Hk. replace (cs =? stop) with true by (symmetry; apply Nat.eqb_eq; lia). rewrite Nat.sub_0_r. reflexivity.
  - pose proof (Hm 0 ltac:(lia)) as H0. cbn [cnt] in H0. replace (cs =? stop) with false by (symmetry; apply Nat.eqb_neq; lia).
    destruct i as [|i]; [lia|]. rewrite mod_sub_ix, get_c_ix by auto. cbn [obind].
    assert (Hc : forall m, cnt (tcc t) (i - m) (S m) = cnt (tcc t) (i - m) m + Nat.b2n (tcc t (i - m + m))).
    { intros m. replace (S m) with (m + 1) by lia. rewrite cnt_app. cbn [cnt]. lia. }
    assert (Hb : forall m, m <= k -> cnt (tcc t) (i - m) (S m) = cnt (tcc t) (i - m) m + Nat.b2n (tcc t i)).
    { intros m Hk'. rewrite Hc. do 2 f_equal. f_equal. lia. }
    replace (S i - S k) with (i - k) in Hk |- * by lia. rewrite Hb in Hk by lia. assert (Hle : Nat.b2n (tcc t i) <= cs - stop).
    { lia. }
    apply IH.
    + lia.
    + intros m Hmk. specialize (Hm (S m) ltac:(lia)). replace (S i - S m) with (i - m) in Hm by lia. rewrite Hb in Hm by lia. lia.
    + lia.
    + lia.
    + lia.
Qed.
Lemma search_in_ok t q : shp t -> forall k i fuel, k < cap t -> k <= fuel -> (forall j, i <= j < i + k -> tsl t j <> None) ->
  (search_in fuel t (i mod cap t) ((i + k) mod cap t) q = Some None /\ (forall j v, i <= j < i + k -> tsl t j <> Some (q, v))) \/
  (exists j v, i <= j < i + k /\ tsl t j = Some (q, v) /\ search_in fuel t (i mod cap t) ((i + k) mod cap t) q = Some (Some (loc_of (t_bs t) (j mod cap t)))).
Proof.
  intros H. induction k as [|k IH]; intros i fuel Hk Hf Ho.
  - left. split; [|intros; lia]. rewrite Nat.add_0_r. destruct fuel; cbn [search_in]; rewrite Nat.eqb_refl; reflexivity.
  - destruct fuel as [|fuel]; [lia|]. cbn [search_in]. replace (i mod cap t =? (i + S k) mod cap t) with false.
    2: { symmetry. apply Nat.eqb_neq. intros E. eapply win_inj in E; [| |]; try (instantiate (1 := i)); lia. }
    pose proof (ix_lt t i). destruct H as (W & L & B). destruct (sparse_pos_ok (t_bs t) (i mod cap t) W ltac:(lia)) as (s & S1 & _ & _ & S2 & S3 & S4). rewrite S1. cbn [obind].
    assert (Hx : slot (t_bs t) (i mod cap t) <> None) by (apply Ho; lia). destruct (S4 (proj2 S3 Hx)) as (e & E1 & E2). rewrite E1. cbn [obind]. destruct (N.eqb_spec (fst e) q) as [Eq|Nq].
    + right. exists i, (snd e). split; [lia|]. split; [unfold tsl; rewrite E2; destruct e; cbn in *; congruence|]. rewrite S2. reflexivity.
    + rewrite mod_add_ix. replace (i + S k) with (S i + k) by lia. destruct (IH (S i) fuel) as [(R1 & R2)|(j & v & R1 & R2 & R3)]; [lia|lia|intros; apply Ho; lia| |].
      * left. split; [auto|]. intros j v Hj. destruct (Nat.eq_dec j i) as [->|]; [unfold tsl; rewrite E2; intros X; injection X as X; subst e; cbn in Nq; congruence|apply R2; lia].
      * right. exists j, v. split; [lia|auto].
Qed.

(** ** shifting *)
Lemma shift_c_ok A : forall k t ge fuel, shp t -> A <= ge -> ge + k < A + cap t -> k <= fuel ->
  exists t', shift_c fuel t (ge mod cap t) ((ge + k) mod cap t) = Some t' /\ same_bs t t' /\ shp t' /\ (forall j, tvv t' j = tvv t j) /\
    (forall j, A <= j < A + cap t -> tcc t' j = if (ge <? j) && (j <=? ge + k) then tcc t (j - 1) else tcc t j).
Proof.
  induction k as [|k IH]; intros t ge fuel H HA Hk Hf.
  - exists t. rewrite Nat.add_0_r. destruct fuel; cbn [shift_c]; rewrite Nat.eqb_refl; (split; [reflexivity|]); (split; [repeat split|]); (split; [auto|]); (split; [auto|]);
      intros j Hj; destruct (Nat.ltb_spec ge j), (Nat.leb_spec j ge); cbn [andb]; auto; lia.
  - destruct fuel as [|fuel]; [lia|]. cbn [shift_c]. replace ((ge + S k) mod cap t =? ge mod cap t) with false.
    2: { symmetry. apply Nat.eqb_neq. intros E. eapply (win_inj (cap t) A) in E; lia. }
    replace (ge + S k) with (S (ge + k)) by lia. rewrite mod_sub_ix, get_c_ix by auto. cbn [obind].
    destruct (set_c_ix t (S (ge + k)) (tcc t (ge + k)) H) as (t1 & T1 & T2 & T3 & T4 & T5). rewrite T1. cbn [obind].
    pose proof (same_cap _ _ T2) as Hc. destruct (IH t1 ge fuel T3 HA ltac:(lia) ltac:(lia)) as (t2 & U1 & U2 & U3 & U4 & U5). rewrite Hc in U1.
    replace (mod_sub t1 (S (ge + k) mod cap t)) with ((ge + k) mod cap t) by (rewrite <- Hc, mod_sub_ix; reflexivity).
    exists t2. split; [auto|]. split; [unfold same_bs in *; intuition congruence|]. split; [auto|]. split; [intros j; rewrite U4; apply T4|].
    intros j Hj. rewrite U5 by lia. rewrite !T5.
    assert (Q : forall x, A <= x < A + cap t -> (x mod cap t =? S (ge + k) mod cap t) = (x =? S (ge + k))).
    { intros x Hx. destruct (Nat.eqb_spec x (S (ge + k))) as [->|Hn]; [apply Nat.eqb_refl|]. apply Nat.eqb_neq. intros E. apply Hn. eapply (win_inj (cap t) A); [auto|lia|auto]. }
    destruct (Nat.ltb_spec ge j), (Nat.leb_spec j (ge + k)), (Nat.leb_spec j (S (ge + k))); cbn [andb]; try lia; rewrite Q by lia;
      match goal with |- context [?x =? S (ge + k)] => destruct (Nat.eqb_spec x (S (ge + k))) as [Ex|Ex] end; auto; try lia. f_equal. lia.
Qed.

(** the wrap-around: the run goes past the last slot *)
Definition wrap_at (t : tbl) (ge term : nat) : Prop := term mod cap t < ge mod cap t.
Lemma trunc_small qw q : (q < 2 ^ N.of_nat qw)%N -> trunc_q qw q = q.
Proof. intros H. unfold trunc_q. apply N.mod_small. auto. Qed.
Lemma no_wrap_ix n ge k : 0 < n -> k < n -> ~ (ge + k) mod n < ge mod n -> forall m, m <= k -> (ge + m) mod n = ge mod n + m.
Proof.
  intros Hn Hk Hw m Hm. pose proof (Nat.mod_upper_bound ge n ltac:(lia)). assert (X : ge mod n + k < n).
  { destruct (Nat.lt_ge_cases (ge mod n + k) n) as [|Hc]; [auto|exfalso]. apply Hw. rewrite Nat.add_mod, (Nat.mod_small k n) by lia. replace (ge mod n + k) with ((ge mod n + k - n) + 1 * n) by lia. rewrite Nat.mod_add, Nat.mod_small by lia. lia. }
  rewrite Nat.add_mod, (Nat.mod_small m n) by lia. apply Nat.mod_small. lia.
Qed.
Lemma wrap_ix n ge k : 0 < n -> k < n -> (ge + k) mod n < ge mod n -> n <= ge mod n + k /\ forall m, m <= k -> (ge + m) mod n = if ge mod n + m <? n then ge mod n + m else ge mod n + m - n.
Proof.
  intros Hn Hk Hw. pose proof (Nat.mod_upper_bound ge n ltac:(lia)). split.
  - destruct (Nat.le_gt_cases n (ge mod n + k)) as [|Hc]; [auto|exfalso]. rewrite Nat.add_mod, (Nat.mod_small k n), (Nat.mod_small (_ + _) n) in Hw by lia. lia.
  - intros m Hm. rewrite Nat.add_mod, (Nat.mod_small m n) by lia. destruct (Nat.ltb_spec (ge mod n + m) n); [apply Nat.mod_small; lia|].
    replace (ge mod n + m) with ((ge mod n + m - n) + 1 * n) at 1 by lia. rewrite Nat.mod_add, Nat.mod_small by lia. lia.
Qed.

Definition ins_sl (sl : nat -> option (N * N)) (ge term : nat) (q v : N) (i : nat) : option (N * N) :=
  if i <? ge then sl i else if i =? ge then Some (q, v) else if i <=? term then sl (i - 1) else sl i.
Definition stale_at (t : tbl) (ge term : nat) : Prop := wrap_at t ge term /\ (term mod cap t) / 64 = (ge mod cap t) / 64.
Definition right_loc (t : tbl) (bs : list bucket) (ge term : nat) (l : loc) : Prop :=
  (~ stale_at t ge term -> l = loc_of bs (ge mod cap t)) /\
  (stale_at t ge term -> l = loc_of bs ((ge - 1) mod cap t)).

Lemma shift_sparse_ok t A ge term q v : shp t -> cap t <= A -> A < ge -> ge < term -> term < A + cap t -> (forall i, A <= i < term -> tsl t i <> None) -> tsl t term = None ->
  (q < 2 ^ N.of_nat (quot_width t))%N -> (forall i q' v', tsl t i = Some (q', v') -> (q' < 2 ^ N.of_nat (quot_width t))%N) ->
  if term mod cap t =? 0 then shift_insert_sparse t (ge mod cap t) (term mod cap t) q v = None
  else exists bs l, shift_insert_sparse t (ge mod cap t) (term mod cap t) q v = Some (bs, l) /\ wf_bs bs /\ length bs = length (t_bs t) /\
    (forall i, A <= i < A + cap t -> slot bs (i mod cap t) = ins_sl (tsl t) ge term q v i) /\ right_loc t bs ge term l.
Proof.
  intros (W & L & B) HA Hg Hgt Ht Ho He Hq Hqs. set (n := cap t) in *. assert (Hn : 0 < n) by apply cap_pos. set (f := ge mod n). set (k := term - ge).
  assert (Hk : 0 < k < n) by (unfold k; lia). assert (Ek : term = ge + k) by (unfold k; lia). assert (Hf : f < n) by (apply Nat.mod_upper_bound; lia).
  assert (Hmod : forall m, ge + m < A + n -> slot (t_bs t) ((ge + m) mod n) = tsl t (ge + m)) by reflexivity.
  unfold shift_insert_sparse. fold n. destruct (Nat.ltb_spec (term mod n) f) as [Hw|Hw].
  - (* wrap *)
    rewrite Ek in Hw. destruct (wrap_ix n ge k Hn (proj2 Hk) Hw) as (Hk2 & Hix). fold f in Hk2, Hix. rewrite <- Ek in Hw.
    assert (Eto : term mod n = f + k - n) by (rewrite Ek, Hix by lia; destruct (Nat.ltb_spec (f + k) n); lia).
    destruct (sparse_shift_ok (S n) (quot_width t) (t_bs t) f n q v W) as (bs1 & e1 & P1 & P2 & P3 & P4 & P5); [lia|lia| |lia|].
    { intros p Hp. assert (X := Hix (p - f) ltac:(lia)). destruct (Nat.ltb_spec (f + (p - f)) n); [|lia]. replace (f + (p - f)) with p in X by lia. rewrite <- X. apply (Ho (ge + (p - f))). lia. }
    rewrite P1. cbn [obind]. rewrite (trunc_small _ _ Hq) in P5.
    destruct (Nat.eqb_spec (term mod n) 0) as [Ez|Ez].
    + rewrite Ez. unfold sparse_shift at 1. destruct (sparse_pos bs1 0); reflexivity.
    + set (to := term mod n) in *. assert (Hoc1 : forall p, p < to -> slot bs1 p <> None).
      { intros p Hp. rewrite P5. destruct (Nat.eqb_spec p f); [lia|]. destruct (Nat.ltb_spec f p); [lia|]. cbn [andb]. assert (X := Hix (p + n - f) ltac:(lia)). destruct (Nat.ltb_spec (f + (p + n - f)) n); [lia|].
        replace (f + (p + n - f) - n) with p in X by lia. rewrite <- X. apply (Ho (ge + (p + n - f))). lia. }
      destruct P4 as [P4 P4']. assert (Hqe1 : (fst e1 < 2 ^ N.of_nat (quot_width t))%N).
      { destruct e1 as [q1 v1]. cbn. apply (Hqs (ge + (n - 1 - f)) q1 v1). unfold tsl. fold n. rewrite Hix by lia. destruct (Nat.ltb_spec (f + (n - 1 - f)) n); [|lia]. rewrite <- P2. f_equal. lia. }
      destruct (sparse_shift_ok (S n) (quot_width t) bs1 0 to (fst e1) (snd e1) P3) as (bs2 & e2 & Q1 & Q2 & Q3 & Q4 & Q5); [lia|lia|intros; apply Hoc1; lia|lia|].
      rewrite Q1. cbn [obind]. rewrite (trunc_small _ _ Hqe1), <- surjective_pairing in Q5.
      assert (Hes : slot bs2 to = None). { rewrite Q5. destruct (Nat.eqb_spec to 0); [lia|]. destruct (Nat.ltb_spec to to); [lia|]. rewrite andb_false_r. rewrite P5. destruct (Nat.eqb_spec to f); [lia|]. destruct (Nat.ltb_spec f to); [lia|]. cbn [andb]. exact He. }
      assert (Hqe2 : (fst e2 < 2 ^ N.of_nat (quot_width t))%N).
      { rewrite P5 in Q2. destruct (Nat.eqb_spec (to - 1) f); [lia|]. destruct (Nat.ltb_spec f (to - 1)); [lia|]. cbn [andb] in Q2. destruct e2 as [q2 v2]. apply (Hqs (ge + (to - 1 + n - f)) q2 v2). unfold tsl. fold n. rewrite Hix by lia.
        destruct (Nat.ltb_spec (f + (to - 1 + n - f)) n); [lia|]. replace (f + (to - 1 + n - f) - n) with (to - 1) by lia. exact Q2. }
      destruct Q4 as [Q4 Q4'].
      destruct (set_at_empty_ok (quot_width t) bs2 to (fst e2) (snd e2) Q3) as (bs3 & R1 & R2 & R3 & R4 & R5); [lia|auto|].
      rewrite R1. cbn [obind]. rewrite (trunc_small _ _ Hqe2), <- surjective_pairing in R4. exists bs3, (loc_of (t_bs t) f). split; [reflexivity|]. split; [auto|]. split; [lia|]. split.
      * intros i Hi. set (p := i mod n). rewrite R4, !Q5, !P5.
        assert (Hi' : (exists m, m <= k /\ i = ge + m) \/ (forall m, m <= k -> i <> ge + m)).
        { destruct (Nat.le_gt_cases ge i); [|right; intros; lia]. destruct (Nat.le_gt_cases i term); [left; exists (i - ge); lia|right; intros; lia]. }
        destruct Hi' as [(m & Hm & ->)|Hno].
        -- specialize (Hix m Hm) as Hp. fold p in Hp. unfold ins_sl. destruct (Nat.ltb_spec (ge + m) ge); [lia|].
           destruct (Nat.eqb_spec (ge + m) ge) as [E0|E0].
           ++ assert (m = 0) by lia. subst m. destruct (Nat.ltb_spec (f + 0) n); [|lia]. rewrite Hp. destruct (Nat.eqb_spec (f + 0) to); [lia|]. destruct (Nat.eqb_spec (f + 0) 0); [lia|]. destruct (Nat.ltb_spec 0 (f + 0)); [|lia]. destruct (Nat.ltb_spec (f + 0) to); [lia|]. cbn [andb].
              destruct (Nat.eqb_spec (f + 0) f); [|lia]. reflexivity.
           ++ destruct (Nat.leb_spec (ge + m) term); [|lia]. unfold tsl. fold n. replace (ge + m - 1) with (ge + (m - 1)) by lia. rewrite (Hix (m - 1)) by lia.
              destruct (Nat.ltb_spec (f + m) n).
              ** rewrite Hp. destruct (Nat.eqb_spec (f + m) to); [lia|]. destruct (Nat.eqb_spec (f + m) 0); [lia|]. destruct (Nat.ltb_spec 0 (f + m)); [|lia]. destruct (Nat.ltb_spec (f + m) to); [lia|]. cbn [andb].
                 destruct (Nat.eqb_spec (f + m) f); [lia|]. destruct (Nat.ltb_spec f (f + m)); [|lia]. destruct (Nat.ltb_spec (f + m) n); [|lia]. cbn [andb]. destruct (Nat.ltb_spec (f + (m - 1)) n); [|lia]. f_equal. lia.
              ** destruct (Nat.eqb_spec p to) as [E1|E1].
                 --- destruct (Nat.ltb_spec (f + (m - 1)) n); [lia|]. rewrite <- Q2, P5. destruct (Nat.eqb_spec (to - 1) f); [lia|]. destruct (Nat.ltb_spec f (to - 1)); [lia|]. cbn [andb]. f_equal. lia.
                 --- destruct (Nat.eqb_spec p 0) as [E2|E2].
                     +++ destruct (Nat.ltb_spec (f + (m - 1)) n); [|lia]. rewrite <- P2. f_equal. lia.
                     +++ destruct (Nat.ltb_spec 0 p); [|lia]. destruct (Nat.ltb_spec p to); [|lia]. cbn [andb]. destruct (Nat.eqb_spec (p - 1) f); [lia|]. destruct (Nat.ltb_spec f (p - 1)); [lia|]. cbn [andb].
                         destruct (Nat.ltb_spec (f + (m - 1)) n); [lia|]. f_equal. lia.
        -- assert (Hp : forall m, m <= k -> p <> (ge + m) mod n). { intros m Hm E. apply (Hno m Hm). eapply (win_inj n A); [lia|lia|exact E]. }
           assert (Hp1 : forall m, m <= k -> f + m < n -> p <> f + m). { intros m Hm Hl. pose proof (Hp m Hm) as X. rewrite Hix in X by auto. destruct (Nat.ltb_spec (f + m) n); [auto|lia]. }
           assert (Hp2 : forall m, m <= k -> n <= f + m -> p <> f + m - n). { intros m Hm Hl. pose proof (Hp m Hm) as X. rewrite Hix in X by auto. destruct (Nat.ltb_spec (f + m) n); [lia|auto]. }
           assert (Hpn : p < n) by (apply Nat.mod_upper_bound; lia).
           assert (Hp3 : p < f). { destruct (Nat.lt_ge_cases p f); [auto|exfalso]. apply (Hp1 (p - f)); lia. }
           assert (Hp4 : to < p). { destruct (Nat.lt_ge_cases to p); [auto|exfalso]. apply (Hp2 (p + n - f)); lia. }
           destruct (Nat.eqb_spec p to); [lia|]. destruct (Nat.eqb_spec p 0); [lia|]. destruct (Nat.ltb_spec 0 p); [|lia]. destruct (Nat.ltb_spec p to); [lia|]. cbn [andb]. destruct (Nat.eqb_spec p f); [lia|]. destruct (Nat.ltb_spec f p); [lia|]. cbn [andb].
           unfold ins_sl. destruct (Nat.ltb_spec i ge); [reflexivity|]. destruct (Nat.eqb_spec i ge); [exfalso; apply (Hno 0); lia|]. destruct (Nat.leb_spec i term); [exfalso; apply (Hno (i - ge)); lia|reflexivity].
      * assert (SB : same_bits (t_bs t) bs2). { split; [lia|]. intros i. rewrite Q4'. apply P4'. }
        assert (Hl3 : loc_of bs3 f = (f / 64, snd (loc_of (t_bs t) f) + if (f / 64 =? to / 64) && (to <? f) then 1 else 0)) by (rewrite R5, (same_bits_loc (t_bs t) bs2) by auto; reflexivity).
        assert (Eto' : term mod cap t = to) by reflexivity. assert (Efr : ge mod cap t = f) by reflexivity. unfold right_loc, stale_at, wrap_at. rewrite Eto', Efr. split.
        -- intros Hs. rewrite Hl3. destruct (Nat.eqb_spec (f / 64) (to / 64)) as [Eb|Eb]; [exfalso; apply Hs; split; [auto|congruence]|]. cbn [andb]. rewrite Nat.add_0_r. reflexivity.
        -- intros [_ Hs]. assert (Ef1 : (ge - 1) mod cap t = f - 1).
           { fold n. symmetry. apply (Nat.mod_unique _ _ (ge / n)); [lia|]. pose proof (Nat.div_mod ge n ltac:(lia)). fold f in H. lia. }
           rewrite Ef1. assert (Ed1 : S (f - 1) / 64 = (f - 1) / 64). { replace (S (f - 1)) with f by lia. pose proof (Nat.div_le_mono (f - 1) f 64 ltac:(lia) ltac:(lia)). pose proof (Nat.div_le_mono to (f - 1) 64 ltac:(lia) ltac:(lia)). lia. }
           assert (Hs1 : slot bs3 (f - 1) <> None).
           { rewrite R4. destruct (Nat.eqb_spec (f - 1) to); [congruence|]. rewrite Q5. destruct (Nat.eqb_spec (f - 1) 0); [discriminate|]. destruct (Nat.ltb_spec 0 (f - 1)); [|lia]. destruct (Nat.ltb_spec (f - 1) to); [lia|]. cbn [andb]. rewrite P5. destruct (Nat.eqb_spec (f - 1) f); [lia|]. destruct (Nat.ltb_spec f (f - 1)); [lia|]. cbn [andb].
             rewrite <- Ef1. apply (Ho (ge - 1)). lia. }
           pose proof (loc_succ bs3 (f - 1) Hs1 Ed1) as X. replace (S (f - 1)) with f in * by lia. rewrite Hl3 in X. replace (to <? f) with true in X by (symmetry; apply Nat.ltb_lt; lia).
           replace (f / 64 =? to / 64) with true in X by (symmetry; apply Nat.eqb_eq; auto). cbn [andb] in X. rewrite (surjective_pairing (loc_of (t_bs t) f)), (surjective_pairing (loc_of bs3 (f - 1))). rewrite !loc_fst.
           rewrite Ed1. f_equal. assert (X2 := f_equal snd X). cbn [snd] in X2. lia.
  - (* no wrap *)
    rewrite Ek in Hw. pose proof (no_wrap_ix n ge k Hn (proj2 Hk) ltac:(fold f; lia)) as Hix. fold f in Hix. assert (Eto : term mod n = f + k) by (rewrite Ek; apply Hix; lia). rewrite Eto.
    assert (Hto : f + k < n) by (rewrite <- Eto; apply Nat.mod_upper_bound; lia).
    destruct (Nat.eqb_spec (f + k) 0); [lia|].
    destruct (sparse_shift_ok (S n) (quot_width t) (t_bs t) f (f + k) q v W) as (bs1 & e1 & P1 & P2 & P3 & P4 & P5); [lia|lia| |lia|].
    { intros p Hp. assert (X := Hix (p - f) ltac:(lia)). replace (f + (p - f)) with p in X by lia. rewrite <- X. apply (Ho (ge + (p - f))). lia. }
    rewrite P1. cbn [obind]. rewrite (trunc_small _ _ Hq) in P5. destruct P4 as [P4 P4'].
    assert (Hes : slot bs1 (f + k) = None). { rewrite P5. destruct (Nat.eqb_spec (f + k) f); [lia|]. destruct (Nat.ltb_spec (f + k) (f + k)); [lia|]. rewrite andb_false_r. rewrite <- Eto. exact He. }
    assert (Hqe : (fst e1 < 2 ^ N.of_nat (quot_width t))%N).
    { destruct e1 as [q1 v1]. apply (Hqs (ge + (k - 1)) q1 v1). unfold tsl. fold n. rewrite Hix by lia. rewrite <- P2. f_equal. lia. }
    destruct (set_at_empty_ok (quot_width t) bs1 (f + k) (fst e1) (snd e1) P3) as (bs3 & R1 & R2 & R3 & R4 & R5); [lia|auto|].
    rewrite R1. cbn [obind]. rewrite (trunc_small _ _ Hqe), <- surjective_pairing in R4. exists bs3, (loc_of (t_bs t) f). split; [reflexivity|]. split; [auto|]. split; [lia|]. split.
    + intros i Hi. set (p := i mod n). rewrite R4, !P5.
      assert (Hi' : (exists m, m <= k /\ i = ge + m) \/ (forall m, m <= k -> i <> ge + m)).
      { destruct (Nat.le_gt_cases ge i); [|right; intros; lia]. destruct (Nat.le_gt_cases i term); [left; exists (i - ge); lia|right; intros; lia]. }
      destruct Hi' as [(m & Hm & ->)|Hno].
      * specialize (Hix m Hm) as Hp. fold p in Hp. unfold ins_sl. destruct (Nat.ltb_spec (ge + m) ge); [lia|]. rewrite Hp.
        destruct (Nat.eqb_spec (ge + m) ge) as [E0|E0].
        -- destruct (Nat.eqb_spec (f + m) (f + k)); [lia|]. destruct (Nat.eqb_spec (f + m) f); [|lia]. reflexivity.
        -- destruct (Nat.leb_spec (ge + m) term); [|lia]. unfold tsl. fold n. replace (ge + m - 1) with (ge + (m - 1)) by lia. rewrite (Hix (m - 1)) by lia.
           destruct (Nat.eqb_spec (f + m) (f + k)); [rewrite <- P2; f_equal; lia|]. destruct (Nat.eqb_spec (f + m) f); [lia|]. destruct (Nat.ltb_spec f (f + m)); [|lia]. destruct (Nat.ltb_spec (f + m) (f + k)); [|lia]. cbn [andb]. f_equal. lia.
      * assert (Hp : forall m, m <= k -> p <> f + m). { intros m Hm E. rewrite <- Hix in E by auto. apply (Hno m Hm). eapply (win_inj n A); [lia|lia|exact E]. }
        assert (Hp3 : p < f \/ f + k < p). { destruct (Nat.lt_ge_cases p f); [auto|]. destruct (Nat.lt_ge_cases (f + k) p); [auto|exfalso]. apply (Hp (p - f)); lia. }
        destruct (Nat.eqb_spec p (f + k)); [lia|]. destruct (Nat.eqb_spec p f); [lia|].
        unfold ins_sl. destruct (Nat.ltb_spec f p), (Nat.ltb_spec p (f + k)); cbn [andb]; try lia;
          (destruct (Nat.ltb_spec i ge); [reflexivity|]; destruct (Nat.eqb_spec i ge); [exfalso; apply (Hno 0); lia|]; destruct (Nat.leb_spec i term); [exfalso; apply (Hno (i - ge)); lia|reflexivity]).
    + unfold right_loc, stale_at, wrap_at. fold n. fold f. rewrite Eto. split; [|lia]. intros _.
      rewrite R5. rewrite (same_bits_loc (t_bs t) bs1) by (split; auto). replace (f + k <? f) with false by (symmetry; apply Nat.ltb_ge; lia). rewrite andb_false_r, Nat.add_0_r. reflexivity.
Qed.
