(** Inserting behind a group and moving the rest of the run one slot ahead. *)
From Verif Require Import Base CompactHash CompactGroupProofs.

Lemma win_ex n A : 0 < n -> forall i, exists j, A <= j < A + n /\ forall X (f : nat -> X), per n f -> forall m, f (i + m) = f (j + m).
Proof.
  intros Hn i. set (r := (i + (n - A mod n)) mod n). exists (A + r). assert (r < n) by (apply Nat.mod_upper_bound; lia). split; [lia|]. intros X f Hf m.
  assert (Hm : (A + r) mod n = i mod n).
  { unfold r. rewrite Nat.add_mod_idemp_r by lia. pose proof (Nat.div_mod A n ltac:(lia)). pose proof (Nat.mod_upper_bound A n ltac:(lia)).
    replace (A + (i + (n - A mod n))) with (i + (A / n + 1) * n) by nia. apply Nat.mod_add. lia. }
  rewrite <- (per_mod n f Hn Hf (i + m)), <- (per_mod n f Hn Hf (A + r + m)). f_equal.
  rewrite (Nat.add_mod i m), (Nat.add_mod (A + r) m), Hm by lia. reflexivity.
Qed.

Definition hasq (sl : nat -> option (N * N)) (dd : nat -> nat) (b : nat) (q v : N) : Prop := exists d, sl (b + d) = Some (q, v) /\ dd (b + d) = d.

Section Ins.
Variables (n : nat) (sl sl' : nat -> option (N * N)) (cc vv cc' vv' : nat -> bool) (dd dd' : nat -> nat) (A ge term : nat) (q v : N) (ng : bool).
Hypothesis G : ginv n sl cc vv dd.
Hypothesis HA : n <= A.
Hypothesis Hr : A <= ge <= term /\ term < A + n.
Hypothesis Ho : forall i, A <= i < term -> sl i <> None.
Hypothesis He : sl term = None.
Hypothesis Hg1 : forall i, A <= i < ge -> i - dd i <= A.
Hypothesis Hg2 : ge < term -> A < ge - dd ge.
Hypothesis Hg3 : ge = A -> term = A.
Hypothesis Hng : vv A = negb ng.
Hypothesis Hq : forall d w, sl (A + d) = Some (q, w) -> dd (A + d) <> d.
Hypothesis Ps : per n sl'.
Hypothesis Pc : per n cc'.
Hypothesis Pv : per n vv'.
Hypothesis Pd : per n dd'.
Hypothesis Es : forall i, A <= i < A + n -> sl' i = if i <? ge then sl i else if i =? ge then Some (q, v) else if i <=? term then sl (i - 1) else sl i.
Hypothesis Ec : forall i, A <= i < A + n -> cc' i = if i <? ge then cc i else if i =? ge then ng else if i <=? term then cc (i - 1) else cc i.
Hypothesis Ev : forall i, A <= i < A + n -> vv' i = if i =? A then true else vv i.
Hypothesis Ed : forall i, A <= i < A + n -> dd' i = if i <? ge then dd i else if i =? ge then ge - A else if i <=? term then S (dd (i - 1)) else dd i.

Let n_pos : 0 < n := g_n _ _ _ _ _ G.
Let d_lt := g0 _ _ _ _ _ G.
Let step := g1 _ _ _ _ _ G.
Let cst := g2 _ _ _ _ _ G.

Ltac cs := repeat match goal with
  | |- context [?a <? ?b] => destruct (Nat.ltb_spec a b); try lia
  | |- context [?a =? ?b] => destruct (Nat.eqb_spec a b); try lia
  | |- context [?a <=? ?b] => destruct (Nat.leb_spec a b); try lia end.
Ltac cs_in K := repeat match type of K with
  | context [?a <? ?b] => destruct (Nat.ltb_spec a b); try lia
  | context [?a =? ?b] => destruct (Nat.eqb_spec a b); try lia
  | context [?a <=? ?b] => destruct (Nat.leb_spec a b); try lia end.

(** an element of home [A] is there iff there is one before [ge] *)
Lemma group_last : ge <> A -> ng = false -> ge - 1 - dd (ge - 1) = A.
Proof.
  intros Hn Hf. subst ng. cbn in Hng. destruct (proj1 (g3 _ _ _ _ _ G A) Hng) as (d & D1 & D2).
  assert (Hd : A + d < term).
  { destruct (Nat.lt_ge_cases (A + d) term) as [|Hc]; [auto|exfalso]. destruct (run_back n sl cc vv dd d_lt step (A + d - term) (A + d)) as [Hx _]; [lia|auto|lia|].
    replace (A + d - (A + d - term)) with term in Hx by lia. auto. }
  assert (Hd' : A + d < ge).
  { destruct (Nat.lt_ge_cases (A + d) ge) as [|Hc]; [auto|exfalso]. pose proof (hh_le n sl cc vv dd A term d_lt step cst Ho ge (A + d) ltac:(lia) Hc Hd). specialize (Hg2 ltac:(lia)). lia. }
  pose proof (hh_le n sl cc vv dd A term d_lt step cst Ho (A + d) (ge - 1) ltac:(lia) ltac:(lia) ltac:(lia)) as H. pose proof (Hg1 (ge - 1) ltac:(lia)). lia.
Qed.
Lemma group_none : ge <> A -> ng = true -> ge - 1 - dd (ge - 1) < A.
Proof.
  intros Hn Hf. subst ng. cbn in Hng. pose proof (Hg1 (ge - 1) ltac:(lia)). destruct (Nat.eq_dec (ge - 1 - dd (ge - 1)) A) as [E|]; [|lia]. exfalso.
  pose proof (d_lt (ge - 1)). assert (vv A = true); [|congruence]. apply (g3 _ _ _ _ _ G). exists (ge - 1 - A). replace (A + (ge - 1 - A)) with (ge - 1) by lia. split; [apply Ho; lia|lia].
Qed.

Lemma ins_step_w i : A <= i < A + n -> sl' (S i) <> None -> 0 < dd' (S i) -> sl' i <> None /\ dd' (S i) <= S (dd' i).
Proof.
  intros Hi. destruct (Nat.eq_dec (S i) (A + n)) as [E|E].
  - rewrite E, Ps, Pd. pose proof (g_ps _ _ _ _ _ G A) as PA. rewrite <- E in PA. pose proof (g_pd _ _ _ _ _ G A) as DA. rewrite <- E in DA. rewrite (Es A), (Ed A) by lia.
    destruct (Nat.ltb_spec A ge) as [Hc|Hc].
    + rewrite <- PA, <- DA. intros Hs Hd. destruct (step i Hs Hd) as [B1 B2]. assert (Hx : term < i) by (assert (i = term \/ term < i) as [->|] by lia; [contradiction|auto]).
      rewrite Es, Ed by lia. cs. auto.
    + replace (A =? ge) with true by (symmetry; apply Nat.eqb_eq; lia). intros _ Hd. lia.
  - rewrite !Es, !Ed by lia. replace (S i - 1) with i by lia. destruct (Nat.lt_total (S i) ge) as [Hc|[Hc|Hc]].
    + cs. apply step.
    + cs. intros _ _. replace i with (ge - 1) by lia. split; [apply Ho; lia|]. destruct (bool_dec ng true) as [B|B].
      * pose proof (group_none ltac:(lia) B). pose proof (d_lt (ge - 1)). lia.
      * assert (B' : ng = false) by (destruct ng; congruence). pose proof (group_last ltac:(lia) B'). lia.
    + destruct (Nat.le_gt_cases (S i) term) as [Ht|Ht].
      * cs.
        -- intros _ _. split; [discriminate|]. subst i. specialize (Hg2 ltac:(lia)). lia.
        -- intros Hs _. destruct i as [|i]; [lia|]. replace (S i - 1) with i in * by lia. split; [apply Ho; lia|]. destruct (Nat.eq_dec (dd (S i)) 0) as [->|Hz]; [lia|]. destruct (step i Hs ltac:(lia)). lia.
      * cs; intros Hs Hd; destruct (step i Hs Hd) as [B1 B2]; try (exfalso; replace i with term in B1 by lia; contradiction); auto.
Qed.
Lemma ins_cc_w i : A <= i < A + n -> (cc' (S i) = true <-> sl' (S i) <> None /\ dd' (S i) <> S (dd' i)).
Proof.
  intros Hi. destruct (Nat.eq_dec (S i) (A + n)) as [E|E].
  - rewrite E, Ps, Pd, Pc. rewrite !Es, !Ed, !Ec by lia. pose proof (g_ps _ _ _ _ _ G A) as PA. rewrite <- E in PA. pose proof (g_pd _ _ _ _ _ G A) as DA. rewrite <- E in DA. pose proof (g_pc _ _ _ _ _ G A) as CA. rewrite <- E in CA.
    rewrite <- PA, <- DA, <- CA. destruct (Nat.lt_ge_cases A ge) as [Hc|Hc].
    + assert (X : sl i = None -> sl (S i) <> None -> dd (S i) = 0). { intros X1 X2. destruct (Nat.eq_dec (dd (S i)) 0); [auto|]. destruct (step i X2 ltac:(lia)). contradiction. }
      cs; rewrite cst; try tauto.
      * assert (i = term) as Ei by lia. rewrite <- Ei in He. split; intros [Y1 Y2]; (split; [auto|]); rewrite (X He Y1); discriminate.
      * assert (i = term) as Ei by lia. rewrite <- Ei in He. split; intros [Y1 Y2]; (split; [auto|]); rewrite (X He Y1); discriminate.
    + specialize (Hg3 ltac:(lia)). assert (EA : ge = A) by lia. assert (ng = true) as B.
      { destruct ng; [auto|]. exfalso. destruct (proj1 (g3 _ _ _ _ _ G A) Hng) as (d & D1 & D2). destruct (run_back n sl cc vv dd d_lt step d (A + d)) as [Hx _]; [lia|auto|lia|].
        replace (A + d - d) with A in Hx by lia. rewrite Hg3 in He. contradiction. }
      rewrite B. cs; subst; split; auto; intros _; split; try discriminate; try lia.
  - rewrite !Es, !Ed, !Ec by lia. replace (S i - 1) with i by lia. destruct (Nat.lt_total (S i) ge) as [Hc|[Hc|Hc]].
    + cs. apply cst.
    + cs. replace i with (ge - 1) by lia. pose proof (d_lt (ge - 1)). split.
      * intros B. pose proof (group_none ltac:(lia) B). split; [discriminate|]. lia.
      * intros [_ B]. destruct (bool_dec ng true) as [B'|B']; [auto|]. assert (B0 : ng = false) by (destruct ng; congruence). pose proof (group_last ltac:(lia) B0). lia.
    + destruct (Nat.le_gt_cases (S i) term) as [Ht|Ht].
      * cs.
        -- subst i. pose proof (Hg2 ltac:(lia)) as Hx. pose proof (d_lt ge). split; [|intros _].
           ++ intros _. split; [apply Ho; lia|lia].
           ++ destruct (Nat.eq_dec ge A) as [Ea|Ea]; [specialize (Hg3 Ea); lia|]. pose proof (Hg1 (ge - 1) ltac:(lia)). pose proof (d_lt (ge - 1)).
              replace ge with (S (ge - 1)) at 1 by lia. apply cst. replace (S (ge - 1)) with ge by lia. split; [apply Ho; lia|lia].
        -- destruct i as [|i]; [lia|]. replace (S i - 1) with i in * by lia. rewrite cst. split; intros [B1 B2]; split; auto; lia.
      * cs; rewrite cst.
        -- subst i. assert (term = ge) by lia. subst term. split; intros [B1 B2]; (split; [auto|]).
           ++ destruct (Nat.eq_dec (dd (S ge)) 0) as [->|Hz]; [discriminate|]. destruct (step ge B1 ltac:(lia)). contradiction.
           ++ destruct (Nat.eq_dec (dd (S ge)) 0) as [->|Hz]; [discriminate|]. destruct (step ge B1 ltac:(lia)). contradiction.
        -- assert (i = term) as Ei by lia. rewrite <- Ei in He. split; intros [B1 B2]; (split; [auto|]).
           ++ destruct (Nat.eq_dec (dd (S i)) 0) as [->|Hz]; [discriminate|]. destruct (step i B1 ltac:(lia)). contradiction.
           ++ destruct (Nat.eq_dec (dd (S i)) 0) as [->|Hz]; [discriminate|]. destruct (step i B1 ltac:(lia)). contradiction.
        -- tauto.
Qed.
Lemma ins_d_lt_w i : A <= i < A + n -> dd' i < n.
Proof.
  intros Hi. rewrite Ed by lia. cs; auto. destruct (Nat.eq_dec (dd (i - 1)) 0) as [->|Hz]; [lia|].
  pose proof (hh_le n sl cc vv dd A term d_lt step cst Ho ge (i - 1) ltac:(lia) ltac:(lia) ltac:(lia)) as H'. pose proof (Hg2 ltac:(lia)). lia.
Qed.

(** where an old element is now *)
Definition sh (i : nat) : nat := if ((ge <=? i) && (i <? term)) || ((ge + n <=? i) && (i <? term + n)) then 1 else 0.
Lemma sh_in i : (ge <= i < term \/ ge + n <= i < term + n) -> sh i = 1.
Proof. intros H. unfold sh. cs; cbn; auto. Qed.
Lemma sh_out i : ~ (ge <= i < term \/ ge + n <= i < term + n) -> sh i = 0.
Proof. intros H. unfold sh. cs; cbn; auto. Qed.
Lemma elem_fwd b d q' v' : A <= b < A + n -> sl' (b + d) = Some (q', v') -> dd' (b + d) = d ->
  (b = A /\ d = ge - A /\ q' = q /\ v' = v) \/ exists d0, sl (b + d0) = Some (q', v') /\ dd (b + d0) = d0 /\ d = d0 + sh (b + d0).
Proof.
  intros Hb Hs Hd. assert (Hdn : d < n). { destruct (win_ex n A n_pos (b + d)) as (j & Hj & Hf). specialize (Hf _ _ Pd 0). rewrite !Nat.add_0_r in Hf. rewrite Hf in Hd. pose proof (ins_d_lt_w j Hj). lia. }
  destruct (Nat.lt_ge_cases (b + d) (A + n)) as [Hc|Hc].
  - rewrite Es in Hs by lia. rewrite Ed in Hd by lia. revert Hs Hd. cs; intros Hs Hd.
    + right. exists d. rewrite sh_out by lia. auto.
    + left. injection Hs as <- <-. lia.
    + right. exists (d - 1). replace (b + (d - 1)) with (b + d - 1) by lia. rewrite sh_in by lia. split; [auto|]. lia.
    + right. exists d. rewrite sh_out by lia. auto.
  - replace (b + d) with ((b + d - n) + n) in Hs, Hd by lia. rewrite Ps in Hs. rewrite Pd in Hd. rewrite Es in Hs by lia. rewrite Ed in Hd by lia. revert Hs Hd. cs; intros Hs Hd.
    + right. exists d. replace (b + d) with ((b + d - n) + n) by lia. rewrite (g_ps _ _ _ _ _ G), (g_pd _ _ _ _ _ G). rewrite sh_out by lia. auto.
    + right. exists (d - 1). replace (b + (d - 1)) with ((b + d - n - 1) + n) by lia. rewrite (g_ps _ _ _ _ _ G), (g_pd _ _ _ _ _ G). rewrite sh_in by lia. split; [auto|]. lia.
    + right. exists d. replace (b + d) with ((b + d - n) + n) by lia. rewrite (g_ps _ _ _ _ _ G), (g_pd _ _ _ _ _ G). rewrite sh_out by lia. auto.
Qed.
Lemma elem_bwd b d q' v' : A <= b < A + n -> sl (b + d) = Some (q', v') -> dd (b + d) = d -> exists d', sl' (b + d') = Some (q', v') /\ dd' (b + d') = d'.
Proof.
  intros Hb Hs Hd. pose proof (d_lt (b + d)) as Hdn. rewrite Hd in Hdn. destruct (Nat.lt_ge_cases (b + d) (A + n)) as [Hc|Hc].
  - destruct (Nat.lt_ge_cases (b + d) ge) as [H1|H1]; [|destruct (Nat.lt_total (b + d) term) as [H2|[H2|H2]]].
    + exists d. rewrite Es, Ed by lia. cs. auto.
    + exists (S d). rewrite Es, Ed by lia. cs. replace (b + S d - 1) with (b + d) by lia. auto.
    + rewrite H2 in Hs. congruence.
    + exists d. rewrite Es, Ed by lia. cs. auto.
  - replace (b + d) with ((b + d - n) + n) in Hs, Hd by lia. rewrite (g_ps _ _ _ _ _ G) in Hs. rewrite (g_pd _ _ _ _ _ G) in Hd.
    destruct (Nat.lt_ge_cases (b + d - n) ge) as [H1|H1]; [|destruct (Nat.lt_total (b + d - n) term) as [H2|[H2|H2]]].
    + exists d. replace (b + d) with ((b + d - n) + n) by lia. rewrite Ps, Pd, Es, Ed by lia. cs. auto.
    + exists (S d). replace (b + S d) with ((b + S d - n) + n) by lia. rewrite Ps, Pd, Es, Ed by lia. cs. replace (b + S d - n - 1) with (b + d - n) by lia. auto.
    + rewrite H2 in Hs. congruence.
    + exists d. replace (b + d) with ((b + d - n) + n) by lia. rewrite Ps, Pd, Es, Ed by lia. cs. auto.
Qed.
Lemma elem_new : sl' (A + (ge - A)) = Some (q, v) /\ dd' (A + (ge - A)) = ge - A.
Proof. replace (A + (ge - A)) with ge by lia. rewrite Es, Ed by lia. cs. auto. Qed.

Lemma hasq_ins b q' v' : A <= b < A + n -> (hasq sl' dd' b q' v' <-> (b = A /\ q' = q /\ v' = v) \/ hasq sl dd b q' v').
Proof.
  intros Hb. split.
  - intros (d & D1 & D2). destruct (elem_fwd b d q' v' Hb D1 D2) as [(X1 & X2 & X3 & X4)|(d0 & X1 & X2 & X3)]; [left; auto|right; exists d0; auto].
  - intros [(-> & -> & ->)|(d & D1 & D2)]; [exists (ge - A); apply elem_new|]. destruct (elem_bwd b d q' v' Hb D1 D2) as (d' & X). exists d'. auto.
Qed.

Lemma ins_ginv : ginv n sl' cc' vv' dd'.
Proof.
  split; auto.
  - intros i. destruct (win_ex n A n_pos i) as (j & Hj & Hf). specialize (Hf _ _ Pd 0). rewrite !Nat.add_0_r in Hf. rewrite Hf. apply ins_d_lt_w; auto.
  - intros i. destruct (win_ex n A n_pos i) as (j & Hj & Hf). pose proof (Hf _ _ Pd 0) as D0. pose proof (Hf _ _ Pd 1) as D1. pose proof (Hf _ _ Ps 0) as S0. pose proof (Hf _ _ Ps 1) as S1.
    rewrite !Nat.add_0_r in *. rewrite !Nat.add_1_r in *. rewrite D0, D1, S0, S1. apply ins_step_w; auto.
  - intros i. destruct (win_ex n A n_pos i) as (j & Hj & Hf). pose proof (Hf _ _ Pd 0) as D0. pose proof (Hf _ _ Pd 1) as D1. pose proof (Hf _ _ Pc 1) as S0. pose proof (Hf _ _ Ps 1) as S1.
    rewrite !Nat.add_0_r in *. rewrite !Nat.add_1_r in *. rewrite D0, D1, S0, S1. apply ins_cc_w; auto.
  - intros b. destruct (win_ex n A n_pos b) as (j & Hj & Hf). pose proof (Hf _ _ Pv 0) as V0. rewrite !Nat.add_0_r in V0. rewrite V0. rewrite Ev by auto.
    assert (W : (exists d, sl' (b + d) <> None /\ dd' (b + d) = d) <-> exists q' v', hasq sl' dd' j q' v').
    { split.
      - intros (d & D1 & D2). rewrite (Hf _ _ Ps) in D1. rewrite (Hf _ _ Pd) in D2. destruct (sl' (j + d)) as [[q' v']|] eqn:E; [|contradiction]. exists q', v', d. auto.
      - intros (q' & v' & d & D1 & D2). exists d. rewrite (Hf _ _ Ps), (Hf _ _ Pd). split; [congruence|auto]. }
    rewrite W. destruct (Nat.eqb_spec j A) as [->|Hn].
    + split; [|auto]. intros _. exists q, v. apply hasq_ins; [lia|]. left. auto.
    + rewrite (g3 _ _ _ _ _ G). split.
      * intros (d & D1 & D2). destruct (sl (j + d)) as [[q' v']|] eqn:E; [|contradiction]. exists q', v'. apply hasq_ins; [auto|]. right. exists d. auto.
      * intros (q' & v' & H). apply hasq_ins in H; [|auto]. destruct H as [(X & _)|(d & D1 & D2)]; [contradiction|]. exists d. split; [congruence|auto].
  - intros b d d' q' w w'. destruct (win_ex n A n_pos b) as (j & Hj & Hf). rewrite !(Hf _ _ Ps), !(Hf _ _ Pd). intros X1 X2 X3 X4.
    destruct (elem_fwd j d q' w Hj X1 X2) as [(Y1 & Y2 & Y3 & Y4)|(d0 & Y1 & Y2 & Y3)]; destruct (elem_fwd j d' q' w' Hj X3 X4) as [(Z1 & Z2 & Z3 & Z4)|(d1 & Z1 & Z2 & Z3)].
    + congruence.
    + subst. exfalso. eapply Hq; eauto.
    + subst. exfalso. eapply Hq; eauto.
    + assert (d0 = d1) by (eapply (g4 _ _ _ _ _ G); eauto). subst d1. congruence.
Qed.
End Ins.
