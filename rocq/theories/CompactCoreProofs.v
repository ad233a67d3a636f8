(** Finding and inserting a key. *)
From Verif Require Import Base CompactHash CompactSparseProofs CompactGroupProofs CompactInsertProofs CompactTableProofs.

Definition occb (sl : nat -> option (N * N)) (i : nat) : bool := match sl i with Some _ => true | None => false end.
Record tinv (t : tbl) (dd : nat -> nat) : Prop := mk_tinv {
  ti_g : ginv (cap t) (tsl t) (tcc t) (tvv t) dd;
  ti_shp : shp t;
  ti_q : forall i q v, tsl t i = Some (q, v) -> (q < 2 ^ N.of_nat (quot_width t))%N;
  ti_n : t_size t = cnt (occb (tsl t)) 0 (cap t) }.

(** ** counting *)
Lemma cnt_ext f g : forall k i, (forall j, i <= j < i + k -> f j = g j) -> cnt f i k = cnt g i k.
Proof. induction k as [|k IH]; intros i H; [reflexivity|]. cbn [cnt]. rewrite (H i) by lia. rewrite (IH (S i)); [reflexivity|]. intros j Hj. apply H. lia. Qed.
Lemma cnt_per n f : per n f -> forall i, cnt f i n = cnt f 0 n.
Proof.
  intros H. induction i as [|i IH]; [reflexivity|]. rewrite <- IH. assert (X : cnt f i (n + 1) = cnt f i (1 + n)) by (f_equal; lia).
  rewrite !cnt_app in X. cbn [cnt] in X. rewrite H in X. replace (i + 1) with (S i) in X by lia. lia.
Qed.
Lemma cnt_one f g x : forall k i, i <= x < i + k -> f x = false -> g x = true -> (forall j, i <= j < i + k -> j <> x -> g j = f j) -> cnt g i k = S (cnt f i k).
Proof.
  induction k as [|k IH]; intros i Hx Hf Hg H; [lia|]. cbn [cnt]. destruct (Nat.eq_dec i x) as [->|Hn].
  - rewrite Hf, Hg. rewrite (cnt_ext g f); [reflexivity|]. intros j Hj. apply H; lia.
  - rewrite (H i) by lia. rewrite (IH (S i)); [lia|lia|auto|auto|]. intros j Hj Hjx. apply H; lia.
Qed.
Lemma cnt_gap f : forall k i, cnt f i k < k -> exists j, i <= j < i + k /\ f j = false.
Proof.
  induction k as [|k IH]; intros i H; [lia|]. cbn [cnt] in H. destruct (f i) eqn:E; [|exists i; split; [lia|auto]]. cbn in H. destruct (IH (S i) ltac:(lia)) as (j & J1 & J2). exists j. split; [lia|auto].
Qed.
Lemma first_none (sl : nat -> option (N * N)) i : forall k, (forall j, i <= j < i + k -> sl j <> None) \/ exists m, m < k /\ sl (i + m) = None /\ forall j, i <= j < i + m -> sl j <> None.
Proof.
  induction k as [|k IH]; [left; intros; lia|]. destruct IH as [IH|(m & M1 & M2 & M3)]; [|right; exists m; split; [lia|auto]].
  destruct (sl (i + k)) eqn:E.
  - left. intros j Hj. destruct (Nat.eq_dec j (i + k)) as [->|]; [congruence|apply IH; lia].
  - right. exists k. split; [lia|]. split; [auto|]. auto.
Qed.
Lemma term_ex t dd A : tinv t dd -> t_size t < cap t -> exists k, k < cap t /\ tsl t (A + k) = None /\ forall j, A <= j < A + k -> tsl t j <> None.
Proof.
  intros H Hs. destruct (first_none (tsl t) A (cap t)) as [Hall|X]; [exfalso|exact X].
  rewrite (ti_n _ _ H) in Hs. assert (P : per (cap t) (occb (tsl t))) by (intros i; unfold occb; rewrite (per_sl t i); reflexivity). rewrite <- (cnt_per _ _ P A) in Hs.
  apply cnt_gap in Hs. destruct Hs as (j & J1 & J2). specialize (Hall j J1). unfold occb in J2. destruct (tsl t j); [discriminate|contradiction].
Qed.

(** ** the group of a home *)
Lemma search_group_ok t dd A term : shp t -> (forall i, dd i < cap t) ->
  (forall i, tsl t (S i) <> None -> 0 < dd (S i) -> tsl t i <> None /\ dd (S i) <= S (dd i)) ->
  (forall i, tcc t (S i) = true <-> tsl t (S i) <> None /\ dd (S i) <> S (dd i)) ->
  (forall b, A < b < A + cap t -> (tvv t b = true <-> exists d, tsl t (b + d) <> None /\ dd (b + d) = d)) ->
  tvv t A = true -> cap t <= A -> A < term < A + cap t -> (forall i, A <= i < term -> tsl t i <> None) -> tsl t term = None ->
  exists gs ge, search_group t (A mod cap t) = Some (mk_group (gs mod cap t) (ge mod cap t) (term mod cap t)) /\ is_ge dd A term ge /\ gs < ge /\
    (forall j, gs <= j < ge -> j - dd j = (ge - 1) - dd (ge - 1)) /\ tcc t gs = true /\ 0 < gs.
Proof.
  intros H H0 H1 H2 H3 HvA HA Ht Ho He. unfold search_group.
  replace (A mod cap t) with (A mod cap t) by reflexivity. rewrite (seek_end_ok t H (term - A) A (S (cap t)) 0); [|intros; apply Ho; lia|replace (A + (term - A)) with term by lia; auto|lia].
  cbn [obind]. replace (A + (term - A)) with term by lia. destruct (ge_exists _ _ _ _ _ _ _ H0 H1 H2 Ho H3 HA Ht) as (ge & Hge).
  pose proof (count_ge _ _ _ _ _ _ _ H0 H1 H2 Ho H3 HA Ht He ge Hge) as Hc. pose proof Hge as (G1 & G2 & G3).
  assert (Hv : 0 + cnt (tvv t) A (term - A) = 1 + cnt (tvv t) (S A) (term - S A)). { replace (term - A) with (S (term - S A)) by lia. cbn [cnt]. rewrite HvA. reflexivity. }
  rewrite (seek_back_ok t 1 H (term - ge) term (S (cap t))); [|lia| |lia| |lia].
  2: { intros m Hm. pose proof (count_after _ _ _ _ _ _ _ H0 H1 H2 Ho H3 HA Ht ge Hge (term - m) ltac:(lia)) as X. replace (term - (term - m)) with m in X by lia. lia. }
  2: { replace (term - (term - ge)) with ge by lia. lia. }
  cbn [obind]. replace (term - (term - ge)) with ge by lia.
  destruct (group_start _ _ _ (tvv t) _ A H0 H1 H2 (dd (ge - 1)) (ge - 1) ltac:(lia) ltac:(apply Ho; lia) eq_refl) as (k & K1 & K2 & K3 & K4 & K5). pose proof (H0 (ge - 1)).
  assert (Hz : forall m, m <= k -> cnt (tcc t) (ge - m) m = 0).
  { intros m Hm. apply cnt_zero. intros j Hj. replace j with (ge - 1 - (ge - 1 - j)) by lia. apply K3. lia. }
  rewrite (seek_back_ok t 0 H (S k) ge (S (cap t))); [|lia| |lia| |lia].
  2: { intros m Hm. rewrite Hz by lia. lia. }
  2: { cbn [cnt]. replace (ge - S k) with (ge - 1 - k) by lia. rewrite K2. replace (S (ge - 1 - k)) with (ge - k) by lia. rewrite Hz by lia. reflexivity. }
  cbn [obind]. exists (ge - S k), ge. split; [reflexivity|]. split; [auto|]. split; [lia|]. split; [|split; [replace (ge - S k) with (ge - 1 - k) by lia; auto|lia]].
  intros j Hj. replace j with (ge - 1 - (ge - 1 - j)) by lia. apply K5. lia.
Qed.
(** the group holds exactly the elements of the home, if there are any *)
Lemma group_exact t dd A term gs ge : (forall i, dd i < cap t) ->
  (forall i, tsl t (S i) <> None -> 0 < dd (S i) -> tsl t i <> None /\ dd (S i) <= S (dd i)) ->
  (forall i, tcc t (S i) = true <-> tsl t (S i) <> None /\ dd (S i) <> S (dd i)) -> cap t <= A -> A < term < A + cap t -> (forall i, A <= i < term -> tsl t i <> None) -> tsl t term = None ->
  is_ge dd A term ge -> gs < ge -> (forall j, gs <= j < ge -> j - dd j = (ge - 1) - dd (ge - 1)) -> tcc t gs = true -> 0 < gs ->
  (exists d, tsl t (A + d) <> None /\ dd (A + d) = d) -> A <= gs /\ forall d, tsl t (A + d) <> None /\ dd (A + d) = d <-> gs <= A + d < ge.
Proof.
  intros H0 H1 H2 HA Ht Ho He (G1 & G2 & G3) Hgs Hh Hc Hp Hex.
  assert (Hin : forall d, tsl t (A + d) <> None -> dd (A + d) = d -> A + d < ge).
  { intros d D1 D2. assert (Hd : A + d < term).
    { destruct (Nat.lt_ge_cases (A + d) term) as [|Hx]; [auto|exfalso]. destruct (run_back (cap t) (tsl t) (tcc t) (tvv t) dd H0 H1 (A + d - term) (A + d)) as [Hy _]; [lia|auto|lia|].
      replace (A + d - (A + d - term)) with term in Hy by lia. auto. }
    destruct (Nat.lt_ge_cases (A + d) ge) as [|Hx]; [auto|exfalso]. pose proof (hh_le (cap t) (tsl t) (tcc t) (tvv t) dd A term H0 H1 H2 Ho ge (A + d) ltac:(lia) Hx Hd). specialize (G3 ltac:(lia)). lia. }
  assert (Hlast : ge - 1 - dd (ge - 1) = A).
  { destruct Hex as (d & D1 & D2). pose proof (Hin d D1 D2). pose proof (hh_le (cap t) (tsl t) (tcc t) (tvv t) dd A term H0 H1 H2 Ho (A + d) (ge - 1) ltac:(lia) ltac:(lia) ltac:(lia)). pose proof (G2 (ge - 1) ltac:(lia)). lia. }
  assert (HgA : A <= gs). { pose proof (Hh gs ltac:(lia)). lia. }
  split; [auto|]. intros d. split.
  - intros [D1 D2]. pose proof (Hin d D1 D2). split; [|auto]. destruct (Nat.le_gt_cases gs (A + d)) as [|Hx]; [auto|exfalso].
    destruct gs as [|g]; [lia|]. apply H2 in Hc. destruct Hc as [_ Hc]. pose proof (hh_le (cap t) (tsl t) (tcc t) (tvv t) dd A term H0 H1 H2 Ho (A + d) g ltac:(lia) ltac:(lia) ltac:(lia)).
    pose proof (Hh (S g) ltac:(lia)). pose proof (H0 g). pose proof (H0 (S g)). pose proof (hh_le (cap t) (tsl t) (tcc t) (tvv t) dd A term H0 H1 H2 Ho g (S g) ltac:(lia) ltac:(lia) ltac:(lia)). lia.
  - intros Hd. split; [apply Ho; lia|]. pose proof (Hh (A + d) ltac:(lia)). pose proof (H0 (A + d)). lia.
Qed.

(** ** windows *)
Definition win (n A i : nat) : nat := A + (i + (n - A mod n)) mod n.
Lemma win_spec n A i : 0 < n -> A <= win n A i < A + n /\ win n A i mod n = i mod n.
Proof.
  intros Hn. unfold win. pose proof (Nat.mod_upper_bound (i + (n - A mod n)) n ltac:(lia)). split; [lia|].
  rewrite Nat.add_mod_idemp_r by lia. pose proof (Nat.div_mod A n ltac:(lia)). pose proof (Nat.mod_upper_bound A n ltac:(lia)).
  replace (A + (i + (n - A mod n))) with (i + (A / n + 1) * n) by nia. apply Nat.mod_add. lia.
Qed.
Lemma win_id n A i : A <= i < A + n -> win n A i = i.
Proof. intros H. destruct (win_spec n A i ltac:(lia)) as [X Y]. eapply (win_inj n A); eauto. Qed.
Lemma win_per n A : 0 < n -> per n (win n A).
Proof. intros Hn i. unfold win. f_equal. replace (i + n + (n - A mod n)) with (i + (n - A mod n) + 1 * n) by lia. apply Nat.mod_add. lia. Qed.
Lemma hasq_per n sl dd : per n sl -> per n dd -> forall b q v, hasq sl dd (b + n) q v <-> hasq sl dd b q v.
Proof.
  intros Ps Pd b q v. unfold hasq. split; intros (d & D1 & D2); exists d.
  - replace (b + n + d) with (b + d + n) in D1, D2 by lia. rewrite Ps in D1. rewrite Pd in D2. auto.
  - replace (b + n + d) with (b + d + n) by lia. rewrite Ps, Pd. auto.
Qed.
Lemma hasq_cong n sl dd b b' q v : 0 < n -> per n sl -> per n dd -> b mod n = b' mod n -> hasq sl dd b q v <-> hasq sl dd b' q v.
Proof.
  intros Hn Ps Pd E. assert (X : forall b, hasq sl dd b q v <-> hasq sl dd (b mod n) q v).
  { intros c. rewrite (Nat.div_mod c n) at 1 by lia. rewrite Nat.add_comm, Nat.mul_comm. induction (c / n) as [|k IH]; [rewrite Nat.add_0_r; tauto|].
    replace (c mod n + S k * n) with (c mod n + k * n + n) by lia. rewrite hasq_per by auto. exact IH. }
  rewrite (X b), (X b'), E. tauto.
Qed.

(** ** what an insertion does *)
Definition run_of (t : tbl) (dd : nat -> nat) (A ge term : nat) : Prop :=
  A <= ge <= term /\ term < A + cap t /\ (forall i, A <= i < term -> tsl t i <> None) /\ tsl t term = None /\
  (forall i, A <= i < ge -> i - dd i <= A) /\ (ge < term -> A < ge - dd ge) /\ (ge = A -> term = A).
Definition inserted (t t' : tbl) (dd dd' : nat -> nat) (A ge term : nat) (q v : N) (l : loc) : Prop :=
  tinv t' dd' /\ t_log t' = t_log t /\ t_width t' = t_width t /\ t_size t' = S (t_size t) /\ length (t_bs t') = length (t_bs t) /\
  (forall b q' v', hasq (tsl t') dd' b q' v' <-> (b mod cap t = A mod cap t /\ q' = q /\ v' = v) \/ hasq (tsl t) dd b q' v') /\
  tsl t' ge = Some (q, v) /\ dd' ge = ge - A /\ right_loc t (t_bs t') ge term l /\ (forall i, A <= i < term -> tsl t' i <> None).

Lemma inserted_ok t dd A ge term q v (ng : bool) t' l : tinv t dd -> cap t <= A -> run_of t dd A ge term ->
  tvv t A = negb ng -> (forall w, ~ hasq (tsl t) dd A q w) -> (q < 2 ^ N.of_nat (quot_width t))%N ->
  shp t' -> t_log t' = t_log t -> t_width t' = t_width t -> t_size t' = S (t_size t) -> length (t_bs t') = length (t_bs t) ->
  (forall i, A <= i < A + cap t -> tsl t' i = ins_sl (tsl t) ge term q v i) ->
  (forall i, A <= i < A + cap t -> tcc t' i = if i <? ge then tcc t i else if i =? ge then ng else if i <=? term then tcc t (i - 1) else tcc t i) ->
  (forall i, A <= i < A + cap t -> tvv t' i = if i =? A then true else tvv t i) ->
  right_loc t (t_bs t') ge term l ->
  exists dd', inserted t t' dd dd' A ge term q v l.
Proof.
  intros H HA (R1 & R2 & R3 & R4 & R5 & R6 & R7) Hng Hq Hqw Hshp Hl Hw Hs Hb Es Ec Ev Hloc. set (n := cap t) in *. assert (Hn : 0 < n) by apply cap_pos.
  assert (Hc : cap t' = n) by (unfold n, cap; rewrite Hl; reflexivity).
  set (newd := fun i => if i <? ge then dd i else if i =? ge then ge - A else if i <=? term then S (dd (i - 1)) else dd i).
  set (dd' := fun i => newd (win n A i)).
  assert (Pd : per n dd') by (intros i; unfold dd'; rewrite (win_per n A Hn); reflexivity).
  assert (Ed : forall i, A <= i < A + n -> dd' i = newd i) by (intros i Hi; unfold dd'; rewrite win_id by auto; reflexivity).
  assert (Ps : per n (tsl t')) by (rewrite <- Hc; apply per_sl). assert (Pc : per n (tcc t')) by (rewrite <- Hc; apply per_cc). assert (Pv : per n (tvv t')) by (rewrite <- Hc; apply per_vv).
  assert (Hq' : forall d w, tsl t (A + d) = Some (q, w) -> dd (A + d) <> d) by (intros d w D1 D2; apply (Hq w); exists d; auto).
  assert (Hr : A <= ge <= term /\ term < A + n) by lia.
  pose proof (ti_g _ _ H) as G. fold n in G.
  exists dd'. split; [|split; [auto|split; [auto|split; [auto|split; [auto|split; [|split; [|split; [|split; [auto|]]]]]]]]].
  - split.
    + rewrite Hc. apply (ins_ginv n (tsl t) (tsl t') (tcc t) (tvv t) (tcc t') (tvv t') dd dd' A ge term q v ng G HA Hr R3 R4 R5 R6 R7 Hng Hq' Ps Pc Pv Pd Es Ec Ev Ed).
    + auto.
    + intros i q' v' Hi. destruct (win_spec n A i Hn) as [W1 W2]. assert (Hi' : tsl t' (win n A i) = Some (q', v')) by (rewrite <- Hi; unfold tsl; rewrite Hc, W2; reflexivity).
      assert (Eqw : quot_width t' = quot_width t) by (unfold quot_width, real_width; rewrite Hl, Hw; reflexivity). rewrite Eqw. rewrite Es in Hi' by auto. unfold ins_sl in Hi'.
      destruct (_ <? ge); [eapply (ti_q _ _ H); eauto|]. destruct (_ =? ge); [injection Hi' as <- <-; auto|]. destruct (_ <=? term); eapply (ti_q _ _ H); eauto.
    + rewrite Hs, (ti_n _ _ H), Hc. fold n. assert (P1 : per n (occb (tsl t))) by (intros i; unfold occb; rewrite (g_ps _ _ _ _ _ G); reflexivity). assert (P2 : per n (occb (tsl t'))) by (intros i; unfold occb; rewrite Ps; reflexivity).
      rewrite <- (cnt_per n _ P1 A), <- (cnt_per n _ P2 A). symmetry. apply (cnt_one _ _ term); [lia|unfold occb; rewrite R4; reflexivity| |].
      * unfold occb. rewrite Es by lia. unfold ins_sl. destruct (Nat.ltb_spec term ge); [lia|]. destruct (Nat.eqb_spec term ge); [reflexivity|]. destruct (Nat.leb_spec term term); [|lia].
        destruct (tsl t (term - 1)) eqn:E; [reflexivity|]. exfalso. apply (R3 (term - 1)); [lia|auto].
      * intros j Hj Hjt. unfold occb. rewrite Es by lia. unfold ins_sl. destruct (Nat.ltb_spec j ge); [reflexivity|]. destruct (Nat.eqb_spec j ge) as [->|].
        -- destruct (tsl t ge) eqn:E; [reflexivity|]. exfalso. apply (R3 ge); [lia|auto].
        -- destruct (Nat.leb_spec j term); [|reflexivity]. destruct (tsl t (j - 1)) eqn:E1; [|exfalso; apply (R3 (j - 1)); [lia|auto]]. destruct (tsl t j) eqn:E2; [reflexivity|]. exfalso. apply (R3 j); [lia|auto].
  - intros b q' v'. destruct (win_spec n A b Hn) as [W1 W2]. rewrite (hasq_cong n _ dd' b (win n A b)) by auto. rewrite (hasq_cong n (tsl t) dd b (win n A b)); [|auto|apply (g_ps _ _ _ _ _ G)|apply (g_pd _ _ _ _ _ G)|auto].
    rewrite (hasq_ins n (tsl t) (tsl t') (tcc t) (tvv t) (tcc t') (tvv t') dd dd' A ge term q v ng G HA Hr R3 R4 R5 R6 R7 Hq' Ps Pd Es Ec Ev Ed (win n A b) q' v' W1).
    split; intros [(X1 & X2 & X3)|X]; auto; left; (split; [|auto]); [change (b mod n = A mod n); rewrite <- W2, X1; reflexivity|]. change (b mod n = A mod n) in X1. eapply (win_inj n A); [auto|lia|congruence].
  - rewrite Es by lia. unfold ins_sl. rewrite Nat.ltb_irrefl, Nat.eqb_refl. reflexivity.
  - rewrite Ed by lia. unfold newd. rewrite Nat.ltb_irrefl, Nat.eqb_refl. reflexivity.
  - intros i Hi. rewrite Es by lia. unfold ins_sl. destruct (Nat.ltb_spec i ge); [apply R3; lia|]. destruct (Nat.eqb_spec i ge); [discriminate|]. destruct (i <=? term); apply R3; lia.
Qed.

Lemma quot_same t t' : t_log t' = t_log t -> t_width t' = t_width t -> quot_width t' = quot_width t.
Proof. intros H1 H2. unfold quot_width, real_width. rewrite H1, H2. reflexivity. Qed.
Lemma set_bs_cap t bs : cap (set_bs t bs) = cap t. Proof. reflexivity. Qed.
Lemma inc_shp t : shp t -> shp (inc_size t). Proof. intros H. exact H. Qed.

(** insertion behind the group, :486-504 and :648-660 *)
Lemma insert_after_ok t A gs ge term q v : shp t -> cap t <= A -> A < ge <= term -> term < A + cap t -> (forall i, A <= i < term -> tsl t i <> None) -> tsl t term = None ->
  (q < 2 ^ N.of_nat (quot_width t))%N -> (forall i q' v', tsl t i = Some (q', v') -> (q' < 2 ^ N.of_nat (quot_width t))%N) -> tcc t term = false ->
  let r := insert_after t (mk_group gs (ge mod cap t) (term mod cap t)) q v in
  if (ge <? term) && (term mod cap t =? 0) then r = None
  else exists t' l, r = Some (t', l) /\ shp t' /\ t_log t' = t_log t /\ t_width t' = t_width t /\ t_size t' = t_size t /\ length (t_bs t') = length (t_bs t) /\
    (forall i, A <= i < A + cap t -> tsl t' i = ins_sl (tsl t) ge term q v i) /\ (forall i, tvv t' i = tvv t i) /\
    (forall i, A <= i < A + cap t -> tcc t' i = if i <? ge then tcc t i else if i =? ge then false else if i <=? term then tcc t (i - 1) else tcc t i) /\
    right_loc t (t_bs t') ge term l.
Proof.
  intros H HA Hg Ht Ho He Hq Hqs Hct r. unfold r, insert_after. cbn [g_end g_term]. destruct (Nat.ltb_spec ge term) as [Hlt|Hge]; cbn [andb].
  - rewrite exists_full by (auto; apply Ho; lia). cbn [obind]. unfold shift_insert.
    destruct (shift_c_ok A (term - ge) t ge (cap t) H ltac:(lia) ltac:(lia) ltac:(lia)) as (t1 & T1 & T2 & T3 & T4 & T5). replace (ge + (term - ge)) with term in * by lia. rewrite T1. cbn [obind].
    pose proof (same_cap _ _ T2) as Hc. assert (Eqw : quot_width t1 = quot_width t) by (destruct T2 as (X1 & X2 & X3 & X4); apply quot_same; auto).
    pose proof (shift_sparse_ok t1 A ge term q v T3) as P. rewrite Hc, Eqw in P. specialize (P HA ltac:(lia) Hlt Ht).
    assert (P1 : forall i, A <= i < term -> tsl t1 i <> None) by (intros i Hi; rewrite (same_sl _ _ T2); auto). specialize (P P1). rewrite (same_sl _ _ T2) in P. specialize (P He Hq).
    assert (P2 : forall i q' v', tsl t1 i = Some (q', v') -> (q' < 2 ^ N.of_nat (quot_width t))%N) by (intros i q' v'; rewrite (same_sl _ _ T2); apply Hqs). specialize (P P2).
    destruct (Nat.eqb_spec (term mod cap t) 0) as [Ez|Ez]; [rewrite P; reflexivity|]. destruct P as (bs & l & Q1 & Q2 & Q3 & Q4 & Q5). rewrite Q1. cbn [obind].
    destruct T2 as (E1 & E2 & E3 & E4). assert (Hshp : shp (set_bs t1 bs)). { destruct T3 as (X1 & X2 & X3). split; [exact Q2|]. split; [exact X2|]. cbn [set_bs t_bs]. rewrite Q3. exact X3. }
    destruct (set_c_ix (set_bs t1 bs) ge false Hshp) as (t2 & U1 & U2 & U3 & U4 & U5). assert (Hc2 : cap (set_bs t1 bs) = cap t) by (rewrite set_bs_cap; auto). rewrite Hc2 in *. rewrite U1. cbn [obind].
    exists t2, l. split; [reflexivity|]. split; [auto|]. destruct U2 as (V1 & V2 & V3 & V4). cbn [set_bs t_log t_size t_width t_bs] in V1, V2, V3, V4.
    assert (Hc3 : cap t2 = cap t) by (unfold cap in *; rewrite V1, E1; reflexivity).
    split; [congruence|]. split; [congruence|]. split; [congruence|]. split; [rewrite V4, Q3, E4; reflexivity|]. split; [|split; [|split]].
    + intros i Hi. unfold tsl. rewrite Hc3, V4. rewrite Q4 by auto. unfold ins_sl. rewrite !(same_sl _ _ (conj E1 (conj E2 (conj E3 E4)))). reflexivity.
    + intros i. rewrite U4. unfold tvv at 1. cbn [set_bs t_cv]. rewrite Hc2. rewrite <- Hc. apply T4.
    + intros i Hi. rewrite U5. replace (tcc (set_bs t1 bs) i) with (tcc t1 i) by reflexivity. rewrite T5 by auto.
      assert (Q : (i mod cap t =? ge mod cap t) = (i =? ge)). { destruct (Nat.eqb_spec i ge) as [->|Hn]; [apply Nat.eqb_refl|]. apply Nat.eqb_neq. intros E. apply Hn. eapply (win_inj (cap t) A); [lia|lia|auto]. }
      rewrite Q. destruct (Nat.ltb_spec i ge), (Nat.eqb_spec i ge), (Nat.ltb_spec ge i); try lia; cbn [andb]; auto.
    + unfold right_loc, stale_at, wrap_at in *. rewrite Hc in Q5. rewrite V4. exact Q5.
  - assert (ge = term) by lia. subst ge. rewrite exists_empty by auto. cbn [obind].
    destruct H as (W & L & B). pose proof (ix_lt t term). destruct (set_at_empty_ok (quot_width t) (t_bs t) (term mod cap t) q v W ltac:(lia) He) as (bs & R1 & R2 & R3 & R4 & R5). rewrite R1. cbn [obind].
    exists (set_bs t bs), (loc_of (t_bs t) (term mod cap t)). split; [reflexivity|]. split; [split; [exact R2|split; [exact L|rewrite set_bs_cap; cbn [set_bs t_bs]; lia]]|]. split; [reflexivity|]. split; [reflexivity|]. split; [reflexivity|]. split; [exact R3|].
    split; [|split; [reflexivity|split]].
    + intros i Hi. unfold tsl. rewrite set_bs_cap. cbn [set_bs t_bs]. rewrite R4, (trunc_small _ _ Hq). unfold ins_sl.
      assert (Q : (i mod cap t =? term mod cap t) = (i =? term)). { destruct (Nat.eqb_spec i term) as [->|Hn]; [apply Nat.eqb_refl|]. apply Nat.eqb_neq. intros E. apply Hn. eapply (win_inj (cap t) A); [lia|lia|auto]. }
      rewrite Q. destruct (Nat.eqb_spec i term) as [->|Hn]; [rewrite Nat.ltb_irrefl; reflexivity|]. destruct (Nat.ltb_spec i term), (Nat.leb_spec i term); auto; lia.
    + intros i Hi. replace (tcc (set_bs t bs) i) with (tcc t i) by reflexivity. destruct (Nat.ltb_spec i term); [auto|]. destruct (Nat.eqb_spec i term) as [->|]; [auto|]. destruct (Nat.leb_spec i term); [lia|auto].
    + unfold right_loc, stale_at, wrap_at. split; [|lia]. intros _. cbn [set_bs t_bs]. rewrite R5. rewrite Nat.ltb_irrefl, andb_false_r, Nat.add_0_r. reflexivity.
Qed.

Lemma v_home t dd A d q w : tinv t dd -> tsl t (A + d) = Some (q, w) -> dd (A + d) = d -> tvv t A = true.
Proof. intros H D1 D2. apply (g3 _ _ _ _ _ (ti_g _ _ H)). exists d. split; [congruence|auto]. Qed.
Lemma v_full t dd A : tinv t dd -> cap t <= A -> tvv t A = true -> tsl t A <> None.
Proof.
  intros H HA Hv. pose proof (ti_g _ _ H) as G. destruct (proj1 (g3 _ _ _ _ _ G A) Hv) as (d & D1 & D2).
  destruct (run_back (cap t) (tsl t) (tcc t) (tvv t) dd (g0 _ _ _ _ _ G) (g1 _ _ _ _ _ G) d (A + d)) as [X _]; [lia|auto|lia|]. replace (A + d - d) with A in X by lia. auto.
Qed.
Lemma c_empty t dd i : tinv t dd -> 0 < i -> tsl t i = None -> tcc t i = false.
Proof.
  intros H Hi He. destruct (tcc t i) eqn:E; [|auto]. exfalso. destruct i as [|i]; [lia|]. apply (g2 _ _ _ _ _ (ti_g _ _ H)) in E. destruct E as [E _]. auto.
Qed.

Lemma insert_core_ok t dd key v a q : tinv t dd -> t_size t < cap t -> decompose t key = (a, q) -> a < cap t -> (q < 2 ^ N.of_nat (quot_width t))%N ->
  (exists p v0, insert_core t key v = Some (t, loc_of (t_bs t) p) /\ slot (t_bs t) p = Some (q, v0) /\ hasq (tsl t) dd a q v0 /\ exists d, p = (a + d) mod cap t /\ dd (a + d) = d /\ tsl t (a + d) = Some (q, v0)) \/
  ((forall v0, ~ hasq (tsl t) dd a q v0) /\ exists ge term, run_of t dd (a + cap t) ge term /\
    if (ge <? term) && (term mod cap t =? 0) then insert_core t key v = None
    else exists t' l dd', insert_core t key v = Some (t', l) /\ inserted t t' dd dd' (a + cap t) ge term q v l).
Proof.
  intros H Hs Hd Ha Hq. set (A := a + cap t). assert (HA : cap t <= A) by (unfold A; lia). assert (EA : A mod cap t = a).
  { unfold A. replace (a + cap t) with (a + 1 * cap t) by lia. rewrite Nat.mod_add by lia. apply Nat.mod_small. auto. }
  pose proof (ti_g _ _ H) as G. pose proof (ti_shp _ _ H) as Sh. assert (Hx : forall q' v', hasq (tsl t) dd a q' v' <-> hasq (tsl t) dd A q' v').
  { intros q' v'. apply (hasq_cong (cap t)); [apply cap_pos|apply per_sl|apply (g_pd _ _ _ _ _ G)|]. rewrite EA. apply Nat.mod_small. auto. }
  destruct (term_ex t dd A H Hs) as (k & Hk & He & Ho). set (term := A + k) in *.
  unfold insert_core. rewrite Hd. cbv beta iota. destruct (tsl t A) as [e|] eqn:Es.
  2: { (* empty home *)
    right. assert (Hv : tvv t A = false). { destruct (tvv t A) eqn:E; [|auto]. exfalso. apply (v_full t dd A H HA E). auto. }
    assert (Hno : forall v0, ~ hasq (tsl t) dd A q v0). { intros v0 (d & D1 & D2). rewrite (v_home t dd A d q v0 H D1 D2) in Hv. discriminate. }
    split; [intros v0 X; apply (Hno v0), Hx; auto|]. exists A, A. assert (Hrun : run_of t dd A A A). { split; [lia|]. split; [lia|]. split; [intros; lia|]. split; [auto|]. split; [intros; lia|]. split; [lia|auto]. }
    split; [auto|]. rewrite Nat.ltb_irrefl. cbn [andb]. pose proof (exists_empty t A Sh Es) as Hxe. rewrite EA in Hxe. rewrite Hxe. cbn [obind].
    destruct Sh as (W & L & B). destruct (set_at_empty_ok (quot_width t) (t_bs t) a q v W ltac:(lia)) as (bs & R1 & R2 & R3 & R4 & R5); [unfold tsl in Es; rewrite EA in Es; auto|]. rewrite R1. cbn [obind].
    assert (Sh1 : shp (set_bs t bs)) by (split; [exact R2|split; [exact L|rewrite set_bs_cap; cbn [set_bs t_bs]; lia]]).
    destruct (set_v_ix (set_bs t bs) A true Sh1) as (t1 & T1 & T2 & T3 & T4 & T5). rewrite set_bs_cap, EA in T1. rewrite T1. cbn [obind]. pose proof (same_cap _ _ T2) as Hc1. rewrite set_bs_cap in Hc1.
    destruct (set_c_ix t1 A true T3) as (t2 & U1 & U2 & U3 & U4 & U5). rewrite Hc1, EA in U1. rewrite U1. cbn [obind]. pose proof (same_cap _ _ U2) as Hc2. rewrite Hc1 in Hc2.
    destruct T2 as (X1 & X2 & X3 & X4). destruct U2 as (Y1 & Y2 & Y3 & Y4). cbn [set_bs t_log t_size t_width t_bs] in X1, X2, X3, X4.
    destruct (inserted_ok t dd A A A q v true (inc_size t2) (loc_of (t_bs t) a) H HA Hrun) as (dd' & D); auto.
    - cbn [inc_size t_log]. congruence.
    - cbn [inc_size t_width]. congruence.
    - cbn [inc_size t_size]. congruence.
    - cbn [inc_size t_bs]. rewrite Y4, X4. auto.
    - intros i Hi. unfold tsl. replace (cap (inc_size t2)) with (cap t) by (symmetry; exact Hc2). cbn [inc_size t_bs]. rewrite Y4, X4, R4, (trunc_small _ _ Hq). unfold ins_sl.
      assert (Q : (i mod cap t =? a) = (i =? A)). { rewrite <- EA. destruct (Nat.eqb_spec i A) as [->|Hn]; [apply Nat.eqb_refl|]. apply Nat.eqb_neq. intros E. apply Hn. eapply (win_inj (cap t) A); [lia|lia|auto]. }
      rewrite Q. destruct (Nat.eqb_spec i A) as [->|Hn]; [rewrite Nat.ltb_irrefl; reflexivity|]. destruct (Nat.ltb_spec i A), (Nat.leb_spec i A); auto; lia.
    - intros i Hi. replace (tcc (inc_size t2) i) with (tcc t2 i) by reflexivity. rewrite U5, T4. rewrite Hc1.
      assert (Q : (i mod cap t =? A mod cap t) = (i =? A)). { destruct (Nat.eqb_spec i A) as [->|Hn]; [apply Nat.eqb_refl|]. apply Nat.eqb_neq. intros E. apply Hn. eapply (win_inj (cap t) A); [lia|lia|auto]. }
      rewrite Q. replace (tcc (set_bs t bs) i) with (tcc t i) by reflexivity. destruct (Nat.eqb_spec i A) as [->|Hn]; [rewrite Nat.ltb_irrefl; reflexivity|]. destruct (Nat.ltb_spec i A), (Nat.leb_spec i A); auto; lia.
    - intros i Hi. replace (tvv (inc_size t2) i) with (tvv t2 i) by reflexivity. rewrite U4, T5. rewrite set_bs_cap.
      assert (Q : (i mod cap t =? A mod cap t) = (i =? A)). { destruct (Nat.eqb_spec i A) as [->|Hn]; [apply Nat.eqb_refl|]. apply Nat.eqb_neq. intros E. apply Hn. eapply (win_inj (cap t) A); [lia|lia|auto]. }
      rewrite Q. reflexivity.
    - unfold right_loc, stale_at, wrap_at. split; [|lia]. intros _. cbn [inc_size t_bs]. rewrite Y4, X4, EA, R5. rewrite Nat.ltb_irrefl, andb_false_r, Nat.add_0_r. reflexivity.
    - exists (inc_size t2), (loc_of (t_bs t) a), dd'. auto. }
  assert (Hk0 : A < term). { unfold term. destruct k; [|lia]. unfold term in He. rewrite Nat.add_0_r in He. congruence. }
  pose proof (exists_full t A Sh ltac:(congruence)) as Hxe. rewrite EA in Hxe. rewrite Hxe. cbn [obind]. pose proof (get_v_ix t A Sh) as Hxv. rewrite EA in Hxv. rewrite Hxv. cbn [obind].
  assert (Hterm : A < term < A + cap t) by (unfold term in *; lia).
  destruct (tvv t A) eqn:Ev.
  - (* the group exists *)
    destruct (search_group_ok t dd A term Sh (g0 _ _ _ _ _ G) (g1 _ _ _ _ _ G) (g2 _ _ _ _ _ G)) as (gs & ge & S1 & S2 & S3 & S4 & S5 & S6); auto.
    { intros b _. apply (g3 _ _ _ _ _ G). }
    rewrite EA in S1. rewrite S1. cbn [obind g_start g_end].
    destruct (group_exact t dd A term gs ge (g0 _ _ _ _ _ G) (g1 _ _ _ _ _ G) (g2 _ _ _ _ _ G) HA Hterm Ho He S2 S3 S4 S5 S6) as (Hgs & Hex); [apply (g3 _ _ _ _ _ G); auto|].
    pose proof S2 as (G1 & G2 & G3).
    destruct (search_in_ok t q Sh (ge - gs) gs (cap t)) as [(F1 & F2)|(j & v0 & F1 & F2 & F3)]; [lia|lia|intros; apply Ho; lia| |].
    + replace (gs + (ge - gs)) with ge in * by lia. rewrite F1. cbn [obind]. right.
      assert (Hno : forall v0, ~ hasq (tsl t) dd A q v0). { intros v0 (d & D1 & D2). assert (gs <= A + d < ge) by (apply Hex; split; [congruence|auto]). apply (F2 (A + d) v0); auto. }
      split; [intros v0 X; apply (Hno v0), Hx; auto|]. exists ge, term. assert (Hrun : run_of t dd A ge term). { split; [lia|]. split; [lia|]. split; [auto|]. split; [auto|]. split; [auto|]. split; [auto|lia]. }
      split; [auto|].
      pose proof (insert_after_ok t A (gs mod cap t) ge term q v Sh HA G1 ltac:(lia) Ho He Hq (ti_q _ _ H) (c_empty t dd term H ltac:(lia) He)) as P. cbn zeta in P.
      destruct ((ge <? term) && (term mod cap t =? 0)); [rewrite P; reflexivity|]. destruct P as (t1 & l & P1 & P2 & P3 & P4 & P5 & P6 & P7 & P8 & P9 & P10). rewrite P1. cbn [obind].
      destruct (inserted_ok t dd A ge term q v false (inc_size t1) l H HA Hrun) as (dd' & D); auto.
      * cbn [inc_size t_size]. congruence.
      * intros i Hi. replace (tvv (inc_size t1) i) with (tvv t1 i) by reflexivity. rewrite P8. destruct (Nat.eqb_spec i A) as [->|]; auto.
      * exists (inc_size t1), l, dd'. auto.
    + replace (gs + (ge - gs)) with ge in * by lia. rewrite F3. cbn [obind]. left. exists (j mod cap t), v0. split; [reflexivity|]. split; [exact F2|].
      assert (Hj : tsl t (A + (j - A)) <> None /\ dd (A + (j - A)) = j - A) by (apply Hex; lia). replace (A + (j - A)) with j in Hj by lia. destruct Hj as [J1 J2].
      split; [apply Hx; exists (j - A); replace (A + (j - A)) with j by lia; auto|]. exists (j - A). assert (Ej : j = a + (j - A) + cap t) by (unfold A in *; lia).
      split; [|split].
      * rewrite Ej at 1. replace (a + (j - A) + cap t) with (a + (j - A) + 1 * cap t) by lia. apply Nat.mod_add. lia.
      * rewrite <- (g_pd _ _ _ _ _ G). rewrite <- Ej. auto.
      * rewrite <- (per_sl t). rewrite <- Ej. auto.
  - (* a new group *)
    right. assert (Hno : forall v0, ~ hasq (tsl t) dd A q v0). { intros v0 (d & D1 & D2). rewrite (v_home t dd A d q v0 H D1 D2) in Ev. discriminate. }
    split; [intros v0 X; apply (Hno v0), Hx; auto|].
    destruct (set_v_ix t A true Sh) as (t1 & T1 & T2 & T3 & T4 & T5). rewrite EA in T1. rewrite T1. cbn [obind]. pose proof (same_cap _ _ T2) as Hc1. pose proof (same_sl _ _ T2) as Hsl1.
    assert (Q : forall i, A <= i < A + cap t -> (i mod cap t =? A mod cap t) = (i =? A)). { intros i Hi. destruct (Nat.eqb_spec i A) as [->|Hn]; [apply Nat.eqb_refl|]. apply Nat.eqb_neq. intros E. apply Hn. eapply (win_inj (cap t) A); [lia|lia|auto]. }
    destruct (search_group_ok t1 dd A term T3) as (gs & ge & S1 & S2 & S3 & S4 & S5 & S6); auto; try rewrite Hc1; auto.
    { apply (g0 _ _ _ _ _ G). }
    { intros i. rewrite !Hsl1. apply (g1 _ _ _ _ _ G). }
    { intros i. rewrite !Hsl1, T4. apply (g2 _ _ _ _ _ G). }
    { intros b Hb. rewrite T5, Q by lia. destruct (Nat.eqb_spec b A); [lia|]. rewrite (g3 _ _ _ _ _ G). split; intros (d & D1 & D2); exists d; [rewrite Hsl1|rewrite Hsl1 in D1]; auto. }
    { rewrite T5, Nat.eqb_refl. reflexivity. }
    { intros i Hi. rewrite Hsl1. auto. }
    { rewrite Hsl1. auto. }
    rewrite Hc1, EA in S1. rewrite S1. cbn [obind]. pose proof S2 as (G1 & G2 & G3).
    exists ge, term. assert (Hrun : run_of t dd A ge term). { split; [lia|]. split; [lia|]. split; [auto|]. split; [auto|]. split; [auto|]. split; [auto|lia]. }
    split; [auto|]. assert (Eqw : quot_width t1 = quot_width t) by (destruct T2 as (X1 & X2 & X3 & X4); apply quot_same; auto).
    pose proof (insert_after_ok t1 A (gs mod cap t) ge term q v T3) as P. rewrite Hc1, Eqw in P. specialize (P HA G1 ltac:(lia)).
    assert (P1 : forall i, A <= i < term -> tsl t1 i <> None) by (intros i Hi; rewrite Hsl1; auto). specialize (P P1). rewrite Hsl1 in P. specialize (P He Hq).
    assert (P2 : forall i q' v', tsl t1 i = Some (q', v') -> (q' < 2 ^ N.of_nat (quot_width t))%N) by (intros i q' v'; rewrite Hsl1; apply (ti_q _ _ H)). specialize (P P2). rewrite T4 in P. specialize (P (c_empty t dd term H ltac:(lia) He)). cbn zeta in P.
    clear P1 P2. destruct ((ge <? term) && (term mod cap t =? 0)); [rewrite P; reflexivity|]. destruct P as (t2 & l & P1 & P2 & P3 & P4 & P5 & P6 & P7 & P8 & P9 & P10). rewrite P1. cbn [obind g_end].
    assert (Hc2 : cap t2 = cap t) by (rewrite <- Hc1; unfold cap; rewrite P3; reflexivity).
    destruct (set_c_ix t2 ge true P2) as (t3 & U1 & U2 & U3 & U4 & U5). rewrite Hc2 in U1. rewrite U1. cbn [obind]. pose proof (same_sl _ _ U2) as Hsl3. destruct U2 as (Y1 & Y2 & Y3 & Y4). destruct T2 as (X1 & X2 & X3 & X4).
    destruct (inserted_ok t dd A ge term q v true (inc_size t3) l H HA Hrun) as (dd' & D); auto.
    + cbn [inc_size t_log]. congruence.
    + cbn [inc_size t_width]. congruence.
    + cbn [inc_size t_size]. congruence.
    + cbn [inc_size t_bs]. congruence.
    + intros i Hi. replace (tsl (inc_size t3) i) with (tsl t3 i) by reflexivity. rewrite Hsl3, P7 by auto. unfold ins_sl. rewrite !Hsl1. reflexivity.
    + intros i Hi. replace (tcc (inc_size t3) i) with (tcc t3 i) by reflexivity. rewrite U5, Hc2, P9 by auto.
      assert (Qg : (i mod cap t =? ge mod cap t) = (i =? ge)). { destruct (Nat.eqb_spec i ge) as [->|Hn]; [apply Nat.eqb_refl|]. apply Nat.eqb_neq. intros E. apply Hn. eapply (win_inj (cap t) A); [lia|lia|auto]. }
      rewrite Qg, !T4. destruct (Nat.eqb_spec i ge) as [->|]; [rewrite Nat.ltb_irrefl; reflexivity|reflexivity].
    + intros i Hi. replace (tvv (inc_size t3) i) with (tvv t3 i) by reflexivity. rewrite U4, P8, T5, Q by auto. reflexivity.
    + unfold right_loc, stale_at, wrap_at in *. rewrite Hc1 in P10. cbn [inc_size t_bs]. rewrite Y4. exact P10.
    + exists (inc_size t3), l, dd'. auto.
Qed.
