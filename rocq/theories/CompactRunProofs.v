(** Sequences of operations. *)
From Verif Require Import Base CompactHash CompactHashSpec CompactSparseProofs CompactGroupProofs CompactInsertProofs CompactTableProofs CompactCoreProofs CompactKeyProofs CompactGrowProofs CompactMapProofs CompactOpsProofs.

Definition fits (t : tbl) (k : N) : Prop := (k < 2 ^ N.of_nat (t_width t))%N.
Lemma fits_rw t k : fits t k -> (k < 2 ^ N.of_nat (real_width t))%N.
Proof. intros H. eapply N.lt_le_trans; [exact H|]. apply N.pow_le_mono_r; [lia|]. unfold real_width. lia. Qed.

(** the reference of index() can be written through: unless it is stale *)
Lemma put_new t dd m k v0 v d l : rep t dd m -> (k < 2 ^ N.of_nat (real_width t))%N -> dd (fst (decompose t k) + d) = d -> tsl t (fst (decompose t k) + d) = Some (snd (decompose t k), v0) ->
  l = loc_of (t_bs t) ((fst (decompose t k) + d) mod cap t) ->
  exists t', (do e <- get_at (t_bs t) l; do bs <- put_at (t_bs t) l (fst e, v); Some (set_bs t bs)) = Some t' /\ rep t' dd (upd_map m k v) /\ t_size t' = t_size t /\ t_log t' = t_log t /\ t_width t' = t_width t.
Proof.
  intros R Hk Hd Hs ->. destruct (put_rep t dd m k v0 v d R Hk Hd Hs) as (bs & P1 & P2). exists (set_bs t bs).
  rewrite (get_loc _ _ _ Hs). cbn [obind fst]. rewrite P1. cbn [obind]. auto.
Qed.
Lemma core_assign t dd m k v : rep t dd m -> t_size t + 1 < cap t / 2 -> (k < 2 ^ N.of_nat (real_width t))%N -> (7 <= t_log t \/ m k <> None) ->
  let r := do (t1, l) <- insert_core t k 0; do e <- get_at (t_bs t1) l; do bs <- put_at (t_bs t1) l (fst e, v); Some (set_bs t1 bs) in
  (r = None /\ m k = None) \/ exists t' dd', r = Some t' /\ rep t' dd' (upd_map m k v) /\ t_size t' = (match m k with None => S (t_size t) | Some _ => t_size t end) /\ t_log t' = t_log t /\ t_width t' = t_width t.
Proof.
  intros R Hs Hk Hl. cbv zeta. pose proof (insert_core_rep t dd m k 0 R Hs Hk) as X. destruct (m k) as [v0|] eqn:Em.
  - destruct X as (l & d & X1 & X2 & X3 & X4). rewrite X1. cbn [obind]. right. destruct (put_new t dd m k v0 v d l R Hk X3 X4 X2) as (t' & Y1 & Y2 & Y3 & Y4 & Y5). exists t', dd. auto.
  - destruct Hl as [Hl|Hl]; [|congruence]. destruct X as (ge & term & Hr & X). destruct ((ge <? term) && (term mod cap t =? 0)); [rewrite X; auto|]. right.
    destruct X as (t1 & l & dd1 & X1 & X2 & X3 & X4 & X5 & X6 & X7 & X8 & _). rewrite X1. cbn [obind].
    assert (Ec : cap t1 = cap t) by (unfold cap; rewrite X4; reflexivity). assert (Er : real_width t1 = real_width t) by (unfold real_width; rewrite X4, X5; reflexivity).
    assert (Ed : decompose t1 k = decompose t k) by (unfold decompose; rewrite Er, X4; reflexivity).
    pose proof (not_stale t dd _ ge term (r_inv _ _ _ R) Hr Hl ltac:(lia)) as Hns. destruct X6 as [X6 _]. specialize (X6 Hns). set (a := fst (decompose t k)) in *. set (q := snd (decompose t k)) in *.
    destruct Hr as (R1 & _). set (d := ge - (a + cap t)) in *. assert (Ege : ge = a + d + cap t) by (unfold d; lia).
    destruct (put_new t1 dd1 (upd_map m k 0) k 0 v d l X2) as (t' & Y1 & Y2 & Y3 & Y4 & Y5).
    + rewrite Er. auto.
    + rewrite Ed. fold a. rewrite <- X8 at 2. rewrite Ege. symmetry. rewrite <- Ec. apply (g_pd _ _ _ _ _ (ti_g _ _ (r_inv _ _ _ X2))).
    + rewrite Ed. fold a q. rewrite <- X7. rewrite Ege. symmetry. rewrite <- Ec. apply (per_sl t1).
    + rewrite Ed. fold a. rewrite X6, Ege, Ec. f_equal. replace (a + d + cap t) with (a + d + 1 * cap t) by lia. pose proof (cap_pos t). rewrite Nat.mod_add by lia. reflexivity.
    + exists t', dd1. split; [auto|]. split; [|split; [|split]; congruence]. apply (rep_ext _ _ _ _) with (2 := Y2). intros x. unfold upd_map. destruct (x =? k)%N; auto.
Qed.
Lemma core_insert t dd m k v : rep t dd m -> t_size t + 1 < cap t / 2 -> (k < 2 ^ N.of_nat (real_width t))%N ->
  let r := do (t1, _) <- insert_core t k v; Some t1 in
  match m k with
  | Some _ => r = Some t
  | None => r = None \/ exists t' dd', r = Some t' /\ rep t' dd' (upd_map m k v) /\ t_size t' = S (t_size t) /\ t_log t' = t_log t /\ t_width t' = t_width t
  end.
Proof.
  intros R Hs Hk. cbv zeta. pose proof (insert_core_rep t dd m k v R Hs Hk) as X. destruct (m k) as [v0|] eqn:Em.
  - destruct X as (l & d & X1 & _). rewrite X1. reflexivity.
  - destruct X as (ge & term & Hr & X). destruct ((ge <? term) && (term mod cap t =? 0)); [rewrite X; auto|]. right. destruct X as (t1 & l & dd1 & X1 & X2 & X3 & X4 & X5 & _). exists t1, dd1. rewrite X1. cbn [obind]. auto.
Qed.

(** ** against the association list *)
Lemma find_replace l k v x : find l k <> None -> find (replace l k v) x = if (x =? k)%N then Some v else find l x.
Proof.
  induction l as [|[y u] l IH]; cbn [find replace]; intros H; [congruence|]. destruct (N.eqb_spec y k) as [->|Hn].
  - cbn [find]. rewrite (N.eqb_sym k x). destruct (x =? k)%N; reflexivity.
  - cbn [find]. rewrite IH by auto. destruct (N.eqb_spec y x) as [->|]; [|reflexivity]. destruct (N.eqb_spec x k); [contradiction|reflexivity].
Qed.
Lemma replace_len l k v : length (replace l k v) = length l.
Proof. induction l as [|[y u] l IH]; cbn [replace length]; [reflexivity|]. destruct (y =? k)%N; cbn [length]; congruence. Qed.
Lemma find_step l o x : find (map_step l o) x = match o with
  | Ins k v _ => match find l k with Some _ => find l x | None => upd_map (find l) k v x end
  | Asg k v _ => upd_map (find l) k v x end.
Proof.
  unfold map_step, upd_map. destruct o as [k v w|k v w]; destruct (find l k) eqn:E; cbn [find]; try reflexivity.
  - rewrite (N.eqb_sym k x). reflexivity.
  - rewrite find_replace by congruence. reflexivity.
  - rewrite (N.eqb_sym k x). reflexivity.
Qed.
Definition step (t : tbl) (o : map_op) : option tbl := match o with Ins k v w => insert t k v w | Asg k v w => assign t k v w end.
Fixpoint run (ops : list map_op) (t : tbl) : option tbl := match ops with [] => Some t | o :: ops => do t <- step t o; run ops t end.

Definition big : nat := 2 ^ 16.
Lemma needs_log t : needs_capacity t = true -> t_size t + 1 < big -> 1 <= t_log t <= 17 -> t_log t < 17.
Proof.
  intros H Hs Hl. unfold needs_capacity in H. apply Nat.leb_le in H. destruct (Nat.eq_dec (t_log t) 17) as [E|]; [|lia]. exfalso. assert (X : cap t / 2 = big); [|lia].
  unfold cap, big. rewrite E. change 17 with (S 16). rewrite Nat.pow_succ_r', Nat.mul_comm. apply Nat.div_mul. lia.
Qed.
Lemma step_rep t dd l o : rep t dd (find l) -> t_size t = length l -> t_size t + 1 < big -> t_width t <= op_width o <= 64 -> (op_key o < 2 ^ N.of_nat (op_width o))%N -> (7 <= t_log t \/ is_ins o = true) ->
  step t o = None \/ exists t' dd', step t o = Some t' /\ rep t' dd' (find (map_step l o)) /\ t_size t' = length (map_step l o) /\ t_width t' = op_width o /\ t_log t <= t_log t'.
Proof.
  intros R Hsz Hb Hw Hk Hl. destruct (grow_rep t dd (find l) (op_width o) R Hw) as [X|(t1 & dd1 & X1 & X2 & X3 & X4 & X5 & X6)].
  { intros En. apply needs_log; auto. apply (r_log _ _ _ R). }
  { left. destruct o; cbn [step op_width] in *; unfold insert, assign, index; rewrite X; reflexivity. }
  assert (Hlog : t_log t <= t_log t1) by (rewrite X6; destruct (needs_capacity t); lia). assert (Hk1 : (op_key o < 2 ^ N.of_nat (real_width t1))%N) by (apply fits_rw; unfold fits; rewrite X4; auto).
  destruct o as [k v w|k v w]; cbn [step op_width op_key is_ins] in *.
  - unfold insert. rewrite X1. cbn [obind]. pose proof (core_insert t1 dd1 (find l) k v X2 X5 Hk1) as Y. cbv zeta in Y. unfold map_step. destruct (find l k) as [v0|] eqn:Ef.
    + right. exists t1, dd1. rewrite Y. split; [auto|]. split; [auto|]. split; [congruence|]. auto.
    + destruct Y as [Y|(t2 & dd2 & Y1 & Y2 & Y3 & Y4 & Y5)]; [left; auto|]. right. exists t2, dd2. split; [auto|]. split.
      * apply (rep_ext _ _ _ _) with (2 := Y2). intros x. cbn [find]. unfold upd_map. rewrite (N.eqb_sym k x). reflexivity.
      * cbn [length]. split; [congruence|]. split; [congruence|lia].
  - unfold assign, index. rewrite X1. cbn [obind]. destruct Hl as [Hl|Hl]; [|discriminate]. pose proof (core_assign t1 dd1 (find l) k v X2 X5 Hk1 ltac:(left; lia)) as Y. cbv zeta in Y.
    destruct Y as [[Y _]|(t2 & dd2 & Y1 & Y2 & Y3 & Y4 & Y5)]; [left; auto|]. right. exists t2, dd2. split; [auto|]. split; [|split; [|split; [congruence|lia]]].
    + apply (rep_ext _ _ _ _) with (2 := Y2). intros x. rewrite find_step. reflexivity.
    + unfold map_step. rewrite Y3. destruct (find l k); [rewrite replace_len|cbn [length]]; congruence.
Qed.
Lemma step_len l o : length (map_step l o) <= S (length l).
Proof. unfold map_step. destruct o as [k v w|k v w]; destruct (find l k); cbn [length]; rewrite ?replace_len; lia. Qed.
Lemma run_rep ops : forall t dd l t', rep t dd (find l) -> t_size t = length l -> length l + length ops < big -> widths_ok (t_width t) ops -> (7 <= t_log t \/ forallb is_ins ops = true) ->
  run ops t = Some t' -> exists dd', rep t' dd' (find (map_run ops l)) /\ t_size t' = length (map_run ops l) /\ t_width t' = last_width (t_width t) ops /\ t_log t <= t_log t'.
Proof.
  induction ops as [|o ops IH]; intros t dd l t' R Hsz Hb Hw Hl Hr; cbn [run map_run fold_left last_width widths_ok forallb length] in *.
  - injection Hr as <-. exists dd. auto.
  - destruct Hw as (W1 & W2 & W3). assert (Hl1 : 7 <= t_log t \/ is_ins o = true) by (destruct Hl as [|Hl]; [auto|apply andb_true_iff in Hl; tauto]).
    destruct (step_rep t dd l o R Hsz ltac:(lia) W1 W2 Hl1) as [X|(t1 & dd1 & X1 & X2 & X3 & X4 & X5)]; [rewrite X in Hr; discriminate|]. rewrite X1 in Hr. cbn [obind] in Hr. pose proof (step_len l o).
    destruct (IH t1 dd1 (map_step l o) t' X2 X3) as (dd2 & Y1 & Y2 & Y3 & Y4); auto.
    + lia.
    + rewrite X4. auto.
    + destruct Hl as [|Hl]; [left; lia|right; apply andb_true_iff in Hl; tauto].
    + exists dd2. split; [exact Y1|]. split; [exact Y2|]. split; [congruence|lia].
Qed.
(** ** where an insertion fails *)
Lemma crash_where t dd m k v : rep t dd m -> t_size t + 1 < cap t / 2 -> (k < 2 ^ N.of_nat (real_width t))%N -> insert_core t k v = None ->
  m k = None /\ slot (t_bs t) 0 = None /\ forall p, fst (decompose t k) <= p < cap t -> slot (t_bs t) p <> None.
Proof.
  intros R Hs Hk Hn. pose proof (insert_core_rep t dd m k v R Hs Hk) as X. destruct (m k) as [v0|]; [destruct X as (l & d & X & _); congruence|]. split; [auto|].
  destruct X as (ge & term & (R1 & R2 & R3 & R4 & _) & X). destruct ((ge <? term) && (term mod cap t =? 0)) eqn:E; [|destruct X as (t1 & l & dd1 & X & _); congruence].
  apply andb_true_iff in E. destruct E as [E1 E2]. apply Nat.ltb_lt in E1. apply Nat.eqb_eq in E2. set (a := fst (decompose t k)) in *. assert (Ha : a < cap t) by (apply dec_lt, rep_rw; apply R).
  assert (Et : term = 2 * cap t). { rewrite (mod_two (cap t) term) in E2 by lia. destruct (Nat.ltb_spec term (2 * cap t)); lia. }
  split.
  - unfold tsl in R4. rewrite E2 in R4. exact R4.
  - intros p Hp. specialize (R3 (p + cap t) ltac:(lia)). rewrite (per_sl t p) in R3. unfold tsl in R3. rewrite Nat.mod_small in R3 by lia. exact R3.
Qed.
