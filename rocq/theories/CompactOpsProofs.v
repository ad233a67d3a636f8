(** Growing, and sequences of operations. *)
From Verif Require Import Base CompactHash CompactSparseProofs CompactGroupProofs CompactInsertProofs CompactTableProofs CompactCoreProofs CompactKeyProofs CompactGrowProofs CompactMapProofs.

Lemma rep_ext t dd m m' : (forall x, m x = m' x) -> rep t dd m -> rep t dd m'.
Proof.
  intros E H. split; try apply H.
  - intros k v Hk. rewrite <- E. apply (r_has _ _ _ H). auto.
  - intros k Hk. rewrite <- E. apply (r_out _ _ _ H). auto.
Qed.

(** ** the empty table *)
Lemma slot_new log w p : slot (t_bs (new_tbl log w)) p = None.
Proof.
  unfold slot, sparse_pos. destruct (nth_error (t_bs (new_tbl log w)) (p / 64)) as [bk|] eqn:E; [|reflexivity]. cbn [obind sp_exists].
  apply nth_error_In in E. cbn [new_tbl t_bs] in E. apply repeat_spec in E. subst bk. cbn [fst]. rewrite N.bits_0. reflexivity.
Qed.
Lemma cap_max log : log <= 17 -> 2 ^ log < 64 * n_buckets.
Proof.
  intros H. apply Nat.le_lt_trans with (2 ^ 17); [apply Nat.pow_le_mono_r; lia|]. replace 17 with (6 + 11) by reflexivity. rewrite Nat.pow_add_r. change (2 ^ 6) with 64. apply Nat.mul_lt_mono_pos_l; [lia|].
  unfold n_buckets. apply Nat.ltb_lt. vm_compute. reflexivity.
Qed.
Lemma nth_new log i : nth i (repeat (false, false) log) (false, false) = (false, false).
Proof. destruct (nth_in_or_default i (repeat (false, false) log) (false, false)) as [H|H]; [apply repeat_spec in H|]; auto. Qed.
Lemma cap_new log w : cap (new_tbl log w) = 2 ^ log. Proof. reflexivity. Qed.
Lemma new_rep log w : 1 <= log <= 17 -> w <= 64 -> rep (new_tbl log w) (fun _ => 0) (fun _ => None).
Proof.
  intros Hl Hw. set (t := new_tbl log w). assert (Sl : forall i, tsl t i = None) by (intros i; apply slot_new).
  assert (Cc : forall i, tcc t i = false) by (intros i; unfold tcc; cbn [t new_tbl t_cv]; rewrite nth_new; reflexivity).
  assert (Vv : forall i, tvv t i = false) by (intros i; unfold tvv; cbn [t new_tbl t_cv]; rewrite nth_new; reflexivity).
  assert (Lb : length (t_bs t) = n_buckets) by (cbn [t new_tbl t_bs]; apply repeat_length).
  split.
  - split.
    + split; try (intros i; rewrite ?Sl, ?Cc, ?Vv; reflexivity).
      * apply cap_pos.
      * intros i. apply cap_pos.
      * intros i X. rewrite Sl in X. congruence.
      * intros i. rewrite Sl, Cc. split; [discriminate|intros [X _]; congruence].
      * intros b. rewrite Vv. split; [discriminate|]. intros (d & X & _). rewrite Sl in X. congruence.
      * intros b d d' q v v' X. rewrite Sl in X. discriminate.
    + split; [|split].
      * apply Forall_forall. intros bk X. cbn [t new_tbl t_bs] in X. apply repeat_spec in X. subst bk. unfold wf_bucket. cbn [fst snd length]. rewrite ?bits_zero. split; [reflexivity|intros; apply N.bits_0].
      * cbn [t new_tbl t_cv]. apply repeat_length.
      * rewrite Lb. apply (cap_max log). apply Hl.
    + intros i q v X. rewrite Sl in X. discriminate.
    + cbn [t new_tbl t_size]. symmetry. apply cnt_zero. intros j _. unfold occb. rewrite Sl. reflexivity.
  - exact Hl.
  - exact Hw.
  - exact Lb.
  - intros k v _. split; [discriminate|]. intros (d & X & _). rewrite Sl in X. discriminate.
  - reflexivity.
  - pose proof (cap_two t ltac:(cbn [t new_tbl t_log]; lia)). cbn [t new_tbl t_size] in *. lia.
Qed.

(** ** the elements of a table *)
Lemma elems_in t dd k v : forall m i, In (k, v) (elems t dd i m) <-> exists x q, i <= x < i + m /\ tsl t x = Some (q, v) /\ k = compose t ((x - dd x) mod cap t) q.
Proof.
  induction m as [|m IH]; intros i; cbn [elems].
  - split; [intros []|]. intros (x & q & X & _). lia.
  - assert (Hrest : In (k, v) (elems t dd (S i) m) <-> exists x q, i < x < i + S m /\ tsl t x = Some (q, v) /\ k = compose t ((x - dd x) mod cap t) q).
    { rewrite IH. split; intros (x & q & X & Y); exists x, q; (split; [lia|auto]). }
    destruct (tsl t i) as [[q0 v0]|] eqn:E.
    + cbn [In]. rewrite Hrest. split.
      * intros [X|(x & q & X & Y)]; [injection X as X1 X2; subst; exists i, q0; split; [lia|auto]|exists x, q; split; [lia|auto]].
      * intros (x & q & X & Y1 & Y2). destruct (Nat.eq_dec x i) as [->|Hn]; [left; rewrite E in Y1; injection Y1 as -> ->; subst k; reflexivity|right; exists x, q; split; [lia|auto]].
    + rewrite Hrest. split; intros (x & q & X & Y1 & Y2); exists x, q; (split; [|auto]); [lia|]. destruct (Nat.eq_dec x i) as [->|]; [congruence|lia].
Qed.
Lemma elems_len t dd : forall m i, length (elems t dd i m) = cnt (occb (tsl t)) i m.
Proof. induction m as [|m IH]; intros i; [reflexivity|]. cbn [elems cnt]. unfold occb at 1. destruct (tsl t i) as [[q v]|]; cbn [length Nat.b2n plus]; rewrite IH; reflexivity. Qed.
Lemma elem_dec t dd x q v : tinv t dd -> real_width t <= 64 -> cap t <= x -> tsl t x = Some (q, v) ->
  decompose t (compose t ((x - dd x) mod cap t) q) = ((x - dd x) mod cap t, q) /\ (compose t ((x - dd x) mod cap t) q < 2 ^ N.of_nat (real_width t))%N.
Proof. intros H Hrw Hx E. apply dec_compose; auto; [apply ix_lt|apply (ti_q _ _ H) in E; auto]. Qed.
Lemma back_mod n x y d : 0 < n -> d <= x -> d <= y -> x mod n = y mod n -> (x - d) mod n = (y - d) mod n.
Proof.
  intros Hn H1 H2 E. pose proof (Nat.div_mod x n ltac:(lia)) as X. pose proof (Nat.div_mod y n ltac:(lia)) as Y. rewrite E in X. destruct (Nat.le_ge_cases (x / n) (y / n)) as [Hc|Hc].
  - replace (y - d) with (x - d + (y / n - x / n) * n). { rewrite Nat.mod_add by lia. reflexivity. } rewrite Nat.mul_sub_distr_r. pose proof (Nat.mul_le_mono_l (x / n) (y / n) n Hc). rewrite !(Nat.mul_comm _ n). lia.
  - replace (x - d) with (y - d + (x / n - y / n) * n). { rewrite Nat.mod_add by lia. reflexivity. } rewrite Nat.mul_sub_distr_r. pose proof (Nat.mul_le_mono_l (y / n) (x / n) n Hc). rewrite !(Nat.mul_comm _ n). lia.
Qed.
Lemma elems_nodup t dd st : tinv t dd -> real_width t <= 64 -> forall m i, st + cap t < i -> i + m <= st + 2 * cap t -> NoDup (map fst (elems t dd i m)).
Proof.
  intros H Hrw. induction m as [|m IH]; intros i Hi Hm; cbn [elems]; [constructor|]. destruct (tsl t i) as [[q v]|] eqn:E; [|apply IH; lia]. cbn [map fst]. constructor; [|apply IH; lia].
  intros X. apply in_map_iff in X. destruct X as ([k v'] & X1 & X2). cbn [fst] in X1. apply elems_in in X2. destruct X2 as (x & q' & Y1 & Y2 & Y3).
  assert (W1 : st + cap t <= i < st + cap t + cap t) by lia. assert (W2 : st + cap t <= x < st + cap t + cap t) by lia. assert (W3 : i < x) by lia.
  destruct (elem_dec t dd i q v H Hrw ltac:(lia) E) as [D1 _]. destruct (elem_dec t dd x q' v' H Hrw ltac:(lia) Y2) as [D2 _]. rewrite <- Y3, X1, D1 in D2. injection D2 as D2 D3. subst q'.
  pose proof (ti_g _ _ H) as G. pose proof (g0 _ _ _ _ _ G i) as L1. pose proof (g0 _ _ _ _ _ G x) as L2.
  (* both at the same home: move x to the same lap *)
  set (b := i - dd i). set (d2 := dd x).
  assert (Hw : (b + d2) mod cap t = x mod cap t). { rewrite <- (Nat.add_mod_idemp_l b d2) by (pose proof (cap_pos t); lia). unfold b. rewrite D2. rewrite Nat.add_mod_idemp_l by (pose proof (cap_pos t); lia). f_equal. unfold d2. lia. }
  assert (S2 : tsl t (b + d2) = Some (q, v')) by (unfold tsl; rewrite Hw; exact Y2).
  assert (P2 : dd (b + d2) = d2). { rewrite <- (per_mod (cap t) dd (cap_pos t) (g_pd _ _ _ _ _ G) (b + d2)), Hw. apply per_mod; [apply cap_pos|apply (g_pd _ _ _ _ _ G)]. }
  assert (S1 : tsl t (b + dd i) = Some (q, v)) by (replace (b + dd i) with i by (unfold b; lia); auto).
  assert (P1 : dd (b + dd i) = dd i) by (replace (b + dd i) with i by (unfold b; lia); auto).
  assert (Ed : dd i = d2) by (eapply (g4 _ _ _ _ _ G b); eauto).
  assert (Hx : i mod cap t = x mod cap t). { rewrite <- Hw. f_equal. unfold b. lia. }
  pose proof (win_inj (cap t) (st + cap t) i x W1 W2 Hx) as Eix. rewrite Eix in W3. exact (Nat.lt_irrefl _ W3).
Qed.
Lemma elems_map t dd m st k v : rep t dd m -> st < cap t -> tsl t st = None -> In (k, v) (elems t dd (st + cap t + 1) (cap t - 1)) <-> m k = Some v.
Proof.
  intros R Hst Est. pose proof (r_inv _ _ _ R) as H. pose proof (ti_g _ _ H) as G. pose proof (rep_rw t (r_log _ _ _ R) (r_w _ _ _ R)) as Hrw. pose proof (cap_pos t) as Hn. rewrite elems_in. split.
  - intros (x & q & X1 & X2 & X3). destruct (elem_dec t dd x q v H Hrw ltac:(lia) X2) as [D1 D2]. rewrite <- X3 in D1, D2. apply (r_has _ _ _ R); [auto|]. unfold has. rewrite D1. cbn [fst snd].
    apply (hasq_cong (cap t) (tsl t) dd (x - dd x) ((x - dd x) mod cap t)); [auto|apply per_sl|apply (g_pd _ _ _ _ _ G)|symmetry; apply Nat.mod_mod; lia|].
    exists (dd x). pose proof (g0 _ _ _ _ _ G x). replace (x - dd x + dd x) with x by lia. auto.
  - intros Em. assert (Hk : (k < 2 ^ N.of_nat (real_width t))%N). { destruct (N.lt_ge_cases k (2 ^ N.of_nat (real_width t))) as [|Hc]; [auto|]. rewrite (r_out _ _ _ R k Hc) in Em. discriminate. }
    pose proof Em as Em'. apply (r_has _ _ _ R) in Em'; [|auto]. destruct Em' as (d & D1 & D2). destruct (decompose t k) as [a q] eqn:E. cbn [fst snd] in *. destruct (decompose_ok t k a q Hrw E) as (Ha & Hq & _).
    set (p := (a + d) mod cap t). assert (Hp : p < cap t) by apply ix_lt. assert (Hps : p <> st). { intros X. unfold tsl in D1, Est. fold p in D1. rewrite X in D1. rewrite Nat.mod_small in Est by auto. congruence. }
    set (x := if p <? st + 1 then p + 2 * cap t else p + cap t). assert (Hx : st + cap t + 1 <= x < st + cap t + 1 + (cap t - 1)) by (unfold x; destruct (Nat.ltb_spec p (st + 1)); lia).
    assert (Hxm : x mod cap t = p) by (unfold x; destruct (Nat.ltb_spec p (st + 1)); [rewrite Nat.mod_add by lia|replace (p + cap t) with (p + 1 * cap t) by lia; rewrite Nat.mod_add by lia]; apply Nat.mod_small; auto).
    assert (Hdx : dd x = d). { rewrite <- D2. rewrite <- (per_mod (cap t) dd Hn (g_pd _ _ _ _ _ G) x), Hxm. apply per_mod; auto. apply (g_pd _ _ _ _ _ G). }
    exists x, q. split; [auto|]. split; [unfold tsl in *; rewrite Hxm; auto|]. rewrite Hdx. symmetry. pose proof (g0 _ _ _ _ _ G x) as L. rewrite (back_mod (cap t) x (a + d) d); [|auto|lia|lia|auto]. replace (a + d - d) with a by lia. rewrite Nat.mod_small by auto. apply compose_dec; auto.
Qed.
Lemma elems_size t dd st : tinv t dd -> st < cap t -> tsl t st = None -> length (elems t dd (st + cap t + 1) (cap t - 1)) = t_size t.
Proof.
  intros H Hst Est. rewrite elems_len, (ti_n _ _ H). assert (P : per (cap t) (occb (tsl t))) by (intros i; unfold occb; rewrite (per_sl t i); reflexivity). rewrite <- (cnt_per _ _ P (st + cap t)).
  pose proof (cap_pos t). replace (cap t) with (1 + (cap t - 1)) at 4 by lia. rewrite cnt_app. cbn [cnt]. unfold occb at 2. rewrite (per_sl t st), Est. cbn [Nat.b2n plus]. reflexivity.
Qed.

(** ** re-insertion *)
Fixpoint assoc (l : list (N * N)) (k : N) : option N := match l with [] => None | (x, v) :: l => if (k =? x)%N then Some v else assoc l k end.
Lemma assoc_in l k v : NoDup (map fst l) -> (assoc l k = Some v <-> In (k, v) l).
Proof.
  induction l as [|[x w] l IH]; cbn [assoc map fst In]; intros H; [split; [discriminate|tauto]|]. inversion H; subst. destruct (N.eqb_spec k x) as [->|Hn].
  - split; [intros X; injection X as ->; auto|]. intros [X|X]; [injection X as ->; auto|]. exfalso. apply H2. apply (in_map fst) in X. auto.
  - rewrite IH by auto. split; [auto|]. intros [X|X]; [injection X as -> ->; congruence|auto].
Qed.
Lemma reins_rep l : forall nt dd m, rep nt dd m -> NoDup (map fst l) -> (forall k v, In (k, v) l -> m k = None /\ (k < 2 ^ N.of_nat (real_width nt))%N) -> t_size nt + length l < cap nt / 2 ->
  reins l nt = None \/ exists nt' dd', reins l nt = Some nt' /\ rep nt' dd' (fun x => match assoc l x with Some v => Some v | None => m x end) /\ t_size nt' = t_size nt + length l /\ t_log nt' = t_log nt /\ t_width nt' = t_width nt.
Proof.
  induction l as [|[k v] l IH]; intros nt dd m R Nd Hl Hs; cbn [reins].
  - right. exists nt, dd. cbn [length assoc]. split; [auto|]. split; [apply (rep_ext _ _ m); auto|]. split; [lia|auto].
  - cbn [length] in Hs. cbn [map fst] in Nd. inversion Nd as [|? ? N1 N2]; subst. assert (Hnr : needs_realloc nt (t_width nt) = false).
    { unfold needs_realloc, needs_capacity. rewrite Nat.eqb_refl. cbn [negb]. rewrite orb_false_r. apply Nat.leb_gt. lia. }
    rewrite Hnr. destruct (Hl k v (or_introl eq_refl)) as [Hm Hk]. pose proof (insert_core_rep nt dd m k v R ltac:(lia) Hk) as X. rewrite Hm in X. destruct X as (ge & term & _ & X). destruct ((ge <? term) && (term mod cap nt =? 0)); [rewrite X; auto|].
    destruct X as (nt1 & lo & dd1 & X1 & X2 & X3 & X4 & X5 & _). rewrite X1. cbn [obind].
    assert (Ec : cap nt1 = cap nt) by (unfold cap; rewrite X4; reflexivity). assert (Er : real_width nt1 = real_width nt) by (unfold real_width; rewrite X4, X5; reflexivity).
    destruct (IH nt1 dd1 (upd_map m k v) X2 N2) as [Y|(nt2 & dd2 & Y1 & Y2 & Y3 & Y4 & Y5)]; [| |auto|].
    + intros k' v' Hin. destruct (Hl k' v' (or_intror Hin)) as [Z1 Z2]. rewrite Er. split; [|auto]. unfold upd_map. destruct (N.eqb_spec k' k) as [->|]; [|auto]. exfalso. apply N1. apply (in_map fst) in Hin. auto.
    + rewrite Ec, X3. lia.
    + right. exists nt2, dd2. split; [auto|]. split.
      * apply (rep_ext _ _ _ _) with (2 := Y2). intros x. cbn [assoc]. unfold upd_map. destruct (N.eqb_spec x k) as [->|]; [|auto]. destruct (assoc l k) as [v'|] eqn:Ea; [|auto]. exfalso. apply N1. apply assoc_in in Ea; auto. apply (in_map fst) in Ea. auto.
      * cbn [length]. split; [lia|]. split; congruence.
Qed.

(** ** growing *)
Lemma grow_rep t dd m w : rep t dd m -> t_width t <= w <= 64 -> (needs_capacity t = true -> t_log t < 17) ->
  grow t w = None \/ exists t' dd', grow t w = Some t' /\ rep t' dd' m /\ t_size t' = t_size t /\ t_width t' = w /\ t_size t' + 1 < cap t' / 2 /\ t_log t' = (if needs_capacity t then S (t_log t) else t_log t).
Proof.
  intros R Hw Hlog. pose proof (r_inv _ _ _ R) as H. pose proof (r_load _ _ _ R) as Hld. pose proof (r_log _ _ _ R) as Hl0. destruct (cap_two t (proj1 Hl0)) as [Hc2 Hce]. pose proof (rep_rw t Hl0 (r_w _ _ _ R)) as Hrw.
  destruct (grow_eq t dd w H (rep_size _ _ _ R)) as (st & Hst & Est & Eg). rewrite Eg. clear Eg. destruct (needs_realloc t w) eqn:En.
  2: { right. exists t, dd. unfold needs_realloc in En. apply orb_false_iff in En. destruct En as [En1 En2]. apply negb_false_iff, Nat.eqb_eq in En2. rewrite En1. unfold needs_capacity in En1. apply Nat.leb_gt in En1. split; [auto|]. split; [auto|]. split; [auto|]. split; [auto|]. split; [lia|auto]. }
  set (log' := if needs_capacity t then S (t_log t) else t_log t). assert (Hl' : 1 <= log' <= 17 /\ t_log t <= log') by (unfold log'; destruct (needs_capacity t); [specialize (Hlog eq_refl); lia|lia]).
  assert (Hcap : cap (new_tbl log' w) = if needs_capacity t then 2 * cap t else cap t) by (rewrite cap_new; unfold log', cap; destruct (needs_capacity t); [rewrite Nat.pow_succ_r'; reflexivity|reflexivity]).
  assert (Hroom : t_size t + 1 < cap (new_tbl log' w) / 2). { rewrite Hcap. unfold needs_capacity. destruct (Nat.leb_spec (cap t / 2) (t_size t + 1)) as [Hc|Hc]; [|lia]. rewrite Nat.mul_comm, Nat.div_mul by lia. lia. }
  assert (Hrw' : real_width t <= real_width (new_tbl log' w)) by (unfold real_width; cbn [new_tbl t_log t_width]; lia).
  pose proof (elems_size t dd st H Hst Est) as Hes. destruct (reins_rep (elems t dd (st + cap t + 1) (cap t - 1)) (new_tbl log' w) (fun _ => 0) (fun _ => None)) as [X|(t' & dd' & X1 & X2 & X3 & X4 & X5)].
  - apply new_rep; lia.
  - apply (elems_nodup t dd st); auto; lia.
  - intros k v Hin. split; [auto|]. apply (elems_map t dd m st k v R Hst Est) in Hin. destruct (N.lt_ge_cases k (2 ^ N.of_nat (real_width t))) as [Hc|Hc]; [|rewrite (r_out _ _ _ R k Hc) in Hin; discriminate].
    eapply N.lt_le_trans; [exact Hc|]. apply N.pow_le_mono_r; lia.
  - cbn [new_tbl t_size]. rewrite Hes. change (cap (mk_tbl log' 0 w (repeat (false, false) (2 ^ log')) (repeat (0%N, []) n_buckets))) with (cap (new_tbl log' w)). lia.
  - auto.
  - right. exists t', dd'. assert (Ec : cap t' = cap (new_tbl log' w)) by (unfold cap; rewrite X4; reflexivity). cbn [new_tbl t_size t_log t_width] in X3, X4, X5. split; [auto|]. split.
    + apply (rep_ext _ _ _ _) with (2 := X2). intros x. destruct (assoc _ x) as [v|] eqn:Ea.
      * apply assoc_in in Ea; [|apply (elems_nodup t dd st); auto; lia]. symmetry. apply (elems_map t dd m st x v R Hst Est). auto.
      * destruct (m x) as [v|] eqn:Em; [|auto]. apply (elems_map t dd m st x v R Hst Est) in Em. apply assoc_in in Em; [congruence|]. apply (elems_nodup t dd st); auto; lia.
    + split; [lia|]. split; [auto|]. split; [rewrite Ec; lia|auto].
Qed.
