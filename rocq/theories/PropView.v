(** Property C46: views behave like lists. *)
From Verif Require Import Base View.
Local Open Scope N_scope.

(** The usual strict lexicographic order on lists. *)
Inductive lex_lt : list N -> list N -> Prop :=
| lex_nil : forall y b, lex_lt [] (y :: b)
| lex_hd : forall x y a b, x < y -> lex_lt (x :: a) (y :: b)
| lex_tl : forall x a b, lex_lt a b -> lex_lt (x :: a) (x :: b).

(** the elements from position [from] up to, not including, [to] *)
Definition range {A} (l : list A) (from to : N) : list A :=
  firstn (N.to_nat to - N.to_nat from) (skipn (N.to_nat from) l).

Lemma szsub_small a b : b <= a -> a < SZ -> szsub a b = a - b.
Proof.
  intros H1 H2. unfold szsub. assert (b < SZ) by lia. rewrite (N.mod_small b) by auto.
  replace (a + SZ - b) with ((a - b) + 1 * SZ) by lia. rewrite N.mod_add by (unfold SZ; lia). apply N.mod_small. lia.
Qed.
Lemma szadd_small a b : a + b < SZ -> szadd a b = a + b.
Proof. intros. apply N.mod_small. auto. Qed.
Lemma npos_SZ : npos + 1 = SZ. Proof. reflexivity. Qed.
Lemma elems_length v : v_live v -> length (v_elems v) = N.to_nat (v_size v).
Proof. intros [H _]. unfold v_elems. rewrite firstn_length, skipn_length. lia. Qed.
Lemma deref_elems v n : v_live v -> n < v_size v -> v_deref v n = nth_error (v_elems v) (N.to_nat n).
Proof.
  intros [H _] Hn. unfold v_deref, v_elems.
  assert (E : forall (l : list N) k i, (i < k)%nat -> nth_error (firstn k l) i = nth_error l i).
  { induction l as [|x l IH]; intros [|k] [|i] Hi; simpl; auto; try lia. apply IH. lia. }
  rewrite E by lia.
  assert (F : forall (l : list N) k i, nth_error (skipn k l) i = nth_error l (k + i)%nat).
  { induction l as [|x l IH]; intros [|k] i; simpl; auto. destruct i; auto. }
  rewrite F. f_equal. lia.
Qed.
Lemma size_len v : v_live v -> v_size v = N.of_nat (length (v_elems v)).
Proof. intros H. rewrite elems_length by auto. lia. Qed.

Lemma firstn_sub {A} (l : list A) a b k : (a + b <= k)%nat -> firstn b (skipn a (firstn k l)) = firstn b (skipn a l).
Proof.
  intros H. rewrite <- (firstn_skipn k l) at 2. rewrite skipn_app, firstn_app.
  destruct (le_lt_dec (length l) k).
  - rewrite (skipn_all2 l) by auto. rewrite skipn_nil, firstn_nil, app_nil_r. reflexivity.
  - rewrite skipn_length, firstn_length. replace (b - (Nat.min k (length l) - a))%nat with 0%nat by lia.
    rewrite firstn_O, app_nil_r. reflexivity.
Qed.
Lemma skipn_add {A} (l : list A) a b : skipn a (skipn b l) = skipn (b + a) l.
Proof. revert b; induction l as [|x l IH]; intros [|b]; simpl; auto. destruct a; auto. Qed.

Lemma sub_view v from to : v_live v -> from <= to -> to <= v_size v ->
  let w := mk_view (v_mem v) (v_off v + from) (szsub to from) in
  v_live w /\ v_elems w = range (v_elems v) from to /\ v_size w = to - from.
Proof.
  intros [H1 H2] H3 H4 w. subst w. unfold npos in H2. rewrite szsub_small by lia. unfold v_live, v_elems, range. cbn [v_mem v_off v_size].
  split; [unfold npos; lia|]. split; [|reflexivity]. rewrite firstn_sub by lia. rewrite skipn_add.
  f_equal; [lia|f_equal; lia].
Qed.

(** C46, slices: inside the bounds every build yields exactly that range of elements;
    outside them a debug build rejects the call. [npos] means "to the end". *)
Theorem slice_is_range : forall dbg v from to, v_live v -> to < SZ ->
  let e := if to =? npos then v_size v else to in
  (from <= e -> e <= v_size v ->
    exists w, v_slice dbg v from to = Some w /\ v_live w /\ v_elems w = range (v_elems v) from e) /\
  (~ (from <= e /\ e <= v_size v) -> v_slice true v from to = None).
Proof.
  intros dbg v from to L Hto e. unfold v_slice. fold e. split.
  - intros H1 H2. replace ((from <=? e) && (from <=? v_size v) && (e <=? v_size v)) with true.
    2: { symmetry. rewrite !andb_true_iff, !N.leb_le. lia. }
    unfold guard. rewrite andb_false_r. eexists. split; [reflexivity|].
    destruct (sub_view v from e L H1 H2) as (A & B & _). auto.
  - intros H. replace ((from <=? e) && (from <=? v_size v) && (e <=? v_size v)) with false; [reflexivity|].
    symmetry. rewrite !andb_false_iff, !N.leb_gt. lia.
Qed.
Print Assumptions slice_is_range.

(** C46, substr: a position and a length; the only call outside the bounds that a debug
    build lets through is the one whose end happens to be the sentinel 2^64-1, which
    yields the rest of the view. *)
Theorem substr_is_range : forall dbg v pos len, v_live v -> pos < SZ -> len < SZ ->
  (len = npos -> pos <= v_size v ->
    exists w, v_substr dbg v pos len = Some w /\ v_live w /\ v_elems w = range (v_elems v) pos (v_size v)) /\
  (len <> npos -> pos + len <= v_size v ->
    exists w, v_substr dbg v pos len = Some w /\ v_live w /\ v_elems w = range (v_elems v) pos (pos + len)) /\
  (len = npos -> v_size v < pos -> v_substr true v pos len = None) /\
  (len <> npos -> v_size v < pos + len -> pos + len <> npos -> v_substr true v pos len = None) /\
  (len <> npos -> pos <= v_size v -> pos + len = npos ->
    exists w, v_substr dbg v pos len = Some w /\ v_elems w = range (v_elems v) pos (v_size v)).
Proof.
  intros dbg v pos len L Hp Hl. pose proof L as [L1 L2]. pose proof npos_SZ as NS. unfold v_substr.
  assert (S1 : pos <= v_size v -> szadd pos (szsub (v_size v) pos) = v_size v).
  { intros. rewrite szsub_small by lia. rewrite szadd_small; lia. }
  repeat split; intros.
  - subst len. rewrite N.eqb_refl, S1 by auto.
    destruct (slice_is_range dbg v pos (v_size v) L) as [A _]; [lia|].
    replace (v_size v =? npos) with false in A by (symmetry; apply N.eqb_neq; lia). apply A; lia.
  - replace (len =? npos) with false by (symmetry; apply N.eqb_neq; auto). rewrite szadd_small by lia.
    destruct (slice_is_range dbg v pos (pos + len) L) as [A _]; [lia|].
    replace (pos + len =? npos) with false in A by (symmetry; apply N.eqb_neq; lia). apply A; lia.
  - subst len. rewrite N.eqb_refl. destruct (slice_is_range true v pos (v_size v) L) as [_ A]; [lia|].
    replace (v_size v =? npos) with false in A by (symmetry; apply N.eqb_neq; lia).
    assert (E : szadd pos (szsub (v_size v) pos) = v_size v).
    { unfold szadd, szsub. rewrite (N.mod_small pos) by lia.
      rewrite (N.mod_small (v_size v + SZ - pos)) by lia.
      replace (pos + (v_size v + SZ - pos)) with (v_size v + 1 * SZ) by lia.
      rewrite N.mod_add by lia. apply N.mod_small. lia. }
    rewrite E. apply A. lia.
  - replace (len =? npos) with false by (symmetry; apply N.eqb_neq; auto).
    assert (Hs : szadd pos len < SZ) by (apply N.mod_upper_bound; lia).
    destruct (slice_is_range true v pos (szadd pos len) L Hs) as [_ A].
    destruct (N.lt_ge_cases (pos + len) SZ).
    + rewrite szadd_small in * by auto. replace (pos + len =? npos) with false in A by (symmetry; apply N.eqb_neq; lia).
      apply A. lia.
    + assert (E : szadd pos len = pos + len - SZ).
      { unfold szadd. replace (pos + len) with ((pos + len - SZ) + 1 * SZ) by lia. rewrite N.mod_add by lia.
        rewrite N.mod_small by lia. lia. }
      rewrite E in *. replace (pos + len - SZ =? npos) with false in A by (symmetry; apply N.eqb_neq; lia).
      apply A. lia.
  - replace (len =? npos) with false by (symmetry; apply N.eqb_neq; auto). rewrite szadd_small by lia.
    rewrite H1. destruct (slice_is_range dbg v pos npos L) as [A _]; [lia|].
    rewrite N.eqb_refl in A. destruct A as (w & W1 & _ & W3); [auto|lia|]. eauto.
Qed.
Print Assumptions substr_is_range.

(** C46, shrinking.  remove_suffix on one element more than the view has is the one
    call out of bounds that is not rejected: it silently keeps the whole view. *)
Theorem remove_is_range : forall dbg v n, v_live v -> n < SZ ->
  (n <= v_size v -> exists w, v_remove_prefix dbg v n = Some w /\ v_live w /\ v_elems w = range (v_elems v) n (v_size v)) /\
  (v_size v < n -> v_remove_prefix true v n = None) /\
  (n <= v_size v -> exists w, v_remove_suffix dbg v n = Some w /\ v_live w /\ v_elems w = range (v_elems v) 0 (v_size v - n)) /\
  (v_size v + 1 < n -> v_remove_suffix true v n = None) /\
  (n = v_size v + 1 -> exists w, v_remove_suffix dbg v n = Some w /\ v_elems w = v_elems v).
Proof.
  intros dbg v n L Hn. pose proof L as [L1 L2]. pose proof npos_SZ as NS. unfold v_remove_prefix, v_remove_suffix.
  assert (W : v_size v < n -> szsub (v_size v) n = v_size v + SZ - n).
  { intros. unfold szsub. rewrite (N.mod_small n) by auto. apply N.mod_small. lia. }
  split; [|split; [|split; [|split]]].
  - intros. destruct (slice_is_range dbg v n npos L) as [A _]; [lia|]. rewrite N.eqb_refl in A. apply A; lia.
  - intros. destruct (slice_is_range dbg v n npos L) as [_ A]; [lia|]. rewrite N.eqb_refl in A. apply A; lia.
  - intros. rewrite szsub_small by lia. destruct (slice_is_range dbg v 0 (v_size v - n) L) as [A _]; [lia|].
    replace (v_size v - n =? npos) with false in A by (symmetry; apply N.eqb_neq; lia). apply A; lia.
  - intros. rewrite W by lia. destruct (slice_is_range dbg v 0 (v_size v + SZ - n) L) as [_ A]; [lia|].
    replace (v_size v + SZ - n =? npos) with false in A by (symmetry; apply N.eqb_neq; lia). apply A; lia.
  - intros. rewrite W by lia. replace (v_size v + SZ - n) with npos by lia.
    destruct (slice_is_range dbg v 0 npos L) as [A _]; [lia|]. rewrite N.eqb_refl in A.
    destruct A as (w & A1 & _ & A3); try lia. exists w. split; auto. rewrite A3. unfold range.
    rewrite skipn_O. replace (N.to_nat (v_size v) - N.to_nat 0)%nat with (length (v_elems v)); [apply firstn_all|].
    rewrite elems_length by auto. lia.
Qed.
Print Assumptions remove_is_range.

(** C46, element access: [at] is checked in every build, the others in debug builds. *)
Theorem access_is_list : forall dbg v n, v_live v ->
  v_at v n = nth_error (v_elems v) (N.to_nat n) /\
  v_index true v n = nth_error (v_elems v) (N.to_nat n) /\
  (n < v_size v -> v_index dbg v n = nth_error (v_elems v) (N.to_nat n)) /\
  (v_elems v <> [] -> v_front dbg v = hd_error (v_elems v) /\ v_back dbg v = hd_error (rev (v_elems v)) /\
     (exists w, v_pop_front dbg v = Some w /\ v_live w /\ v_elems w = tl (v_elems v)) /\
     (exists w, v_pop_back dbg v = Some w /\ v_live w /\ v_elems w = removelast (v_elems v))) /\
  (v_elems v = [] -> v_front true v = None /\ v_back true v = None /\
     v_pop_front true v = None /\ v_pop_back true v = None) /\
  v_live (v_clear v) /\ v_elems (v_clear v) = [] /\
  v_size v = N.of_nat (length (v_elems v)) /\ (v_empty v = true <-> v_elems v = []).
Proof.
  intros dbg v n L. pose proof L as [L1 L2]. pose proof (elems_length v L) as EL. unfold v_at, v_index, guard, bound_ok.
  assert (G : forall c, (if c && negb (n <? v_size v) then None else v_deref v n) =
     if c && negb (n <? v_size v) then None else
     (if n <? v_size v then nth_error (v_elems v) (N.to_nat n) else v_deref v n)).
  { intros c. destruct (N.ltb_spec n (v_size v)); [rewrite deref_elems by auto; reflexivity|reflexivity]. }
  assert (O : v_size v <= n -> nth_error (v_elems v) (N.to_nat n) = None) by (intros; apply nth_error_None; lia).
  assert (EE : v_empty v = true <-> v_elems v = []).
  { unfold v_empty. rewrite N.eqb_eq. split; intros H; [apply length_zero_iff_nil; lia|rewrite H in EL; simpl in EL; lia]. }
  repeat apply conj; auto.
  - destruct (N.ltb_spec n (v_size v)); cbn [andb negb]; [apply deref_elems; auto|rewrite O by auto; reflexivity].
  - destruct (N.ltb_spec n (v_size v)); cbn [andb negb]; [apply deref_elems; auto|rewrite O by auto; reflexivity].
  - intros H. apply N.ltb_lt in H. rewrite H. rewrite andb_false_r. apply deref_elems; auto. apply N.ltb_lt; auto.
  - intros Hne. assert (Hs : 0 < v_size v) by (destruct (v_elems v); [congruence|simpl in EL; lia]).
    assert (Hv : v_empty v = false) by (unfold v_empty; apply N.eqb_neq; lia).
    unfold v_front, v_back, v_pop_front, v_pop_back, guard. rewrite Hv. cbn [negb]. rewrite andb_false_r.
    rewrite szsub_small by (unfold npos, SZ in *; lia). repeat apply conj.
    + rewrite deref_elems by auto. destruct (v_elems v); reflexivity.
    + rewrite deref_elems by (auto; lia).
      destruct (exists_last Hne) as (l' & x & E). rewrite E, rev_app_distr. cbn [rev app hd_error].
      rewrite E, app_length in EL. cbn [length] in EL.
      rewrite nth_error_app2 by lia. replace (N.to_nat (v_size v - 1) - length l')%nat with 0%nat by lia. reflexivity.
    + eexists. split; [reflexivity|]. split; [split; cbn [v_mem v_off v_size]; lia|].
      unfold v_elems. cbn [v_mem v_off v_size]. replace (N.to_nat (v_off v + 1)) with (N.to_nat (v_off v) + 1)%nat by lia.
      rewrite <- skipn_add. unfold v_elems in Hne.
      destruct (skipn (N.to_nat (v_off v)) (v_mem v)) as [|x l]; [rewrite firstn_nil in Hne; congruence|].
      replace (N.to_nat (v_size v)) with (S (N.to_nat (v_size v - 1))) by lia. reflexivity.
    + eexists. split; [reflexivity|]. split; [split; cbn [v_mem v_off v_size]; lia|].
      rewrite removelast_firstn_len, EL. unfold v_elems. cbn [v_mem v_off v_size]. rewrite firstn_firstn.
      f_equal. lia.
  - intros H. apply EE in H. unfold v_front, v_back, v_pop_front, v_pop_back, guard. rewrite H. repeat split; reflexivity.
  - cbn [v_clear v_mem v_off v_size]. lia.
  - cbn [v_clear v_size]. reflexivity.
  - lia.
  - apply EE.
  - apply EE.
Qed.
Print Assumptions access_is_list.

Lemma eq_loop_ok v w k i : v_live v -> v_live w -> v_size v = v_size w -> (N.to_nat i + k = N.to_nat (v_size v))%nat ->
  exists b, eq_loop v w k i = Some b /\ (b = true <-> skipn (N.to_nat i) (v_elems v) = skipn (N.to_nat i) (v_elems w)).
Proof.
  intros Lv Lw Hs. pose proof (elems_length v Lv) as E1. pose proof (elems_length w Lw) as E2.
  revert i; induction k as [|k IH]; intros i Hi; cbn [eq_loop].
  - exists true. split; auto. rewrite !skipn_all2 by lia. tauto.
  - rewrite (deref_elems v), (deref_elems w) by (auto; lia).
    destruct (nth_error (v_elems v) (N.to_nat i)) as [a|] eqn:A; [|apply nth_error_None in A; lia].
    destruct (nth_error (v_elems w) (N.to_nat i)) as [b|] eqn:B; [|apply nth_error_None in B; lia]. cbn [obind].
    rewrite (skipn_cons_nth (v_elems v) (N.to_nat i) 0) by lia. rewrite (skipn_cons_nth (v_elems w) (N.to_nat i) 0) by lia.
    apply (nth_error_nth _ _ 0) in A. apply (nth_error_nth _ _ 0) in B. rewrite A, B.
    destruct (N.eqb_spec a b) as [->|Hab].
    + destruct (IH (i + 1)) as (c & C1 & C2); [lia|]. exists c. split; auto. rewrite C2.
      replace (N.to_nat (i + 1)) with (S (N.to_nat i)) by lia. split; [intros ->; auto|intros H; injection H; auto].
    + exists false. split; auto. split; [discriminate|intros H; injection H; congruence].
Qed.
Lemma op_eq_ok v w : v_live v -> v_live w -> exists b, op_eq v w = Some b /\ (b = true <-> v_elems v = v_elems w).
Proof.
  intros Lv Lw. unfold op_eq. destruct (N.eqb_spec (v_size v) (v_size w)) as [E|E]; cbn [negb].
  - destruct (eq_loop_ok v w (N.to_nat (v_size v)) 0 Lv Lw E) as (b & B1 & B2); [lia|]. exists b. split; auto.
  - exists false. split; auto. split; [discriminate|]. intros H. rewrite (size_len v), (size_len w), H in E by auto. congruence.
Qed.
Lemma lex_lt_irrefl a : ~ lex_lt a a.
Proof. induction a; intros H; inversion H; subst; auto; lia. Qed.
Lemma lex_tl_inv x a b : lex_lt (x :: a) (x :: b) -> lex_lt a b.
Proof. intros H. inversion H; subst; auto. lia. Qed.
Lemma lex_loop_ok v w k i : v_live v -> v_live w -> (N.to_nat i + k = N.to_nat (v_size v))%nat -> i <= v_size w ->
  exists b, lex_loop v w k i = Some b /\ (b = true <-> lex_lt (skipn (N.to_nat i) (v_elems v)) (skipn (N.to_nat i) (v_elems w))).
Proof.
  intros Lv Lw. pose proof (elems_length v Lv) as E1. pose proof (elems_length w Lw) as E2.
  revert i; induction k as [|k IH]; intros i Hi Hw; cbn [lex_loop].
  - replace (i =? v_size v) with true by (symmetry; apply N.eqb_eq; lia).
    rewrite (skipn_all2 (v_elems v)) by lia. eexists. split; [reflexivity|].
    destruct (N.eqb_spec i (v_size w)); cbn [negb].
    + rewrite (skipn_all2 (v_elems w)) by lia. split; [discriminate|intros H; inversion H].
    + rewrite (skipn_cons_nth (v_elems w) (N.to_nat i) 0) by lia. split; [constructor|auto].
  - replace (i =? v_size v) with false by (symmetry; apply N.eqb_neq; lia).
    rewrite (skipn_cons_nth (v_elems v) (N.to_nat i) 0) by lia.
    destruct (N.eqb_spec i (v_size w)).
    + exists false. split; auto. rewrite (skipn_all2 (v_elems w)) by lia. split; [discriminate|intros H; inversion H].
    + rewrite (deref_elems v), (deref_elems w) by (auto; lia).
      destruct (nth_error (v_elems v) (N.to_nat i)) as [a|] eqn:A; [|apply nth_error_None in A; lia].
      destruct (nth_error (v_elems w) (N.to_nat i)) as [b|] eqn:B; [|apply nth_error_None in B; lia]. cbn [obind].
      rewrite (skipn_cons_nth (v_elems w) (N.to_nat i) 0) by lia.
      apply (nth_error_nth _ _ 0) in A. apply (nth_error_nth _ _ 0) in B. rewrite A, B.
      destruct (N.ltb_spec a b); [exists true; split; auto; split; auto; intros; apply lex_hd; auto|].
      destruct (N.ltb_spec b a).
      * exists false. split; auto. split; [discriminate|]. intros X. inversion X; subst; lia.
      * assert (a = b) by lia. subst. destruct (IH (i + 1)) as (c & C1 & C2); [lia|lia|]. exists c. split; auto.
        rewrite C2. replace (N.to_nat (i + 1)) with (S (N.to_nat i)) by lia.
        rewrite H1. split; [apply lex_tl|apply lex_tl_inv].
Qed.
Lemma lex_total a b : lex_lt a b \/ a = b \/ lex_lt b a.
Proof.
  revert b; induction a as [|x a IH]; intros [|y b].
  - auto.
  - left; constructor.
  - right; right; constructor.
  - destruct (N.lt_trichotomy x y) as [H|[->|H]]; [left; apply lex_hd; auto| |right; right; apply lex_hd; auto].
    destruct (IH b) as [H|[->|H]]; [left; apply lex_tl; auto|auto|right; right; apply lex_tl; auto].
Qed.
Lemma lex_asym a b : lex_lt a b -> ~ lex_lt b a.
Proof. intros H. induction H; intros X; inversion X; subst; auto; lia. Qed.

(** C46, comparisons: they never fail on live views and decide equality and the
    lexicographic order of the elements. *)
Theorem compare_is_lexicographic : forall v w, v_live v -> v_live w ->
  exists e n l le g ge,
    op_eq v w = Some e /\ op_not_eq v w = Some n /\ op_less v w = Some l /\ op_less_eq v w = Some le /\
    op_greater v w = Some g /\ op_greater_eq v w = Some ge /\
    (e = true <-> v_elems v = v_elems w) /\ (n = true <-> v_elems v <> v_elems w) /\
    (l = true <-> lex_lt (v_elems v) (v_elems w)) /\
    (le = true <-> lex_lt (v_elems v) (v_elems w) \/ v_elems v = v_elems w) /\
    (g = true <-> lex_lt (v_elems w) (v_elems v)) /\
    (ge = true <-> lex_lt (v_elems w) (v_elems v) \/ v_elems v = v_elems w).
Proof.
  intros v w Lv Lw. destruct (op_eq_ok v w Lv Lw) as (e & E1 & E2).
  destruct (lex_loop_ok v w (N.to_nat (v_size v)) 0 Lv Lw) as (l & A1 & A2); [lia|lia|].
  destruct (lex_loop_ok w v (N.to_nat (v_size w)) 0 Lw Lv) as (g & B1 & B2); [lia|lia|].
  change (N.to_nat 0) with 0%nat in A2, B2. rewrite !skipn_O in A2. rewrite !skipn_O in B2.
  fold (op_less v w) in A1. fold (op_greater v w) in B1.
  unfold op_not_eq, op_less_eq, op_greater_eq. rewrite E1, A1, B1. cbn [obind].
  exists e, (negb e), l, (negb g), g, (negb l).
  pose proof (lex_total (v_elems v) (v_elems w)) as T. pose proof (lex_asym (v_elems v) (v_elems w)) as AS.
  pose proof (lex_lt_irrefl (v_elems v)) as IR.
  assert (IR2 : v_elems v = v_elems w -> ~ lex_lt (v_elems v) (v_elems w) /\ ~ lex_lt (v_elems w) (v_elems v)).
  { intros E. rewrite <- E. auto. }
  repeat (split; [solve [auto]|]).
  split; [|split; [|split; [|split]]].
  - rewrite negb_true_iff, <- not_true_iff_false, E2. tauto.
  - exact A2.
  - rewrite negb_true_iff, <- not_true_iff_false, B2. tauto.
  - exact B2.
  - rewrite negb_true_iff, <- not_true_iff_false, A2. tauto.
Qed.
Print Assumptions compare_is_lexicographic.

(** C46, prefixes and suffixes. *)
Theorem starts_ends_with : forall dbg v x c, v_live v -> v_live x ->
  exists s e s1 e1,
    v_starts_with dbg v x = Some s /\ v_ends_with dbg v x = Some e /\
    v_starts_with1 dbg v c = Some s1 /\ v_ends_with1 dbg v c = Some e1 /\
    (s = true <-> exists r, v_elems v = v_elems x ++ r) /\
    (e = true <-> exists r, v_elems v = r ++ v_elems x) /\
    (s1 = true <-> exists r, v_elems v = c :: r) /\
    (e1 = true <-> exists r, v_elems v = r ++ [c]).
Proof.
  intros dbg v x c Lv Lx. pose proof (elems_length v Lv) as E1. pose proof (elems_length x Lx) as E2.
  pose proof Lv as [V1 V2]. pose proof Lx as [X1 X2]. pose proof npos_SZ as NS.
  assert (HS : exists s, v_starts_with dbg v x = Some s /\ (s = true <-> exists r, v_elems v = v_elems x ++ r)).
  { unfold v_starts_with. destruct (N.leb_spec (v_size x) (v_size v)) as [H|H].
    - destruct (slice_is_range dbg v 0 (v_size x) Lv) as [A _]; [lia|].
      replace (v_size x =? npos) with false in A by (symmetry; apply N.eqb_neq; lia).
      destruct A as (y & Y1 & Y2 & Y3); [lia|lia|]. rewrite Y1. cbn [obind].
      destruct (op_eq_ok y x Y2 Lx) as (b & B1 & B2). exists b. split; auto. rewrite B2, Y3. unfold range.
      change (N.to_nat 0) with 0%nat. rewrite skipn_O, Nat.sub_0_r, <- E2. split.
      + intros F. exists (skipn (length (v_elems x)) (v_elems v)). rewrite <- F at 1. rewrite firstn_skipn. auto.
      + intros [r F]. rewrite F, firstn_app, Nat.sub_diag, firstn_O, app_nil_r, firstn_all. auto.
    - exists false. split; auto. split; [discriminate|]. intros [r F]. rewrite F, app_length in E1. lia. }
  assert (HE : exists s, v_ends_with dbg v x = Some s /\ (s = true <-> exists r, v_elems v = r ++ v_elems x)).
  { unfold v_ends_with. destruct (N.leb_spec (v_size x) (v_size v)) as [H|H].
    - rewrite szsub_small by lia. destruct (slice_is_range dbg v (v_size v - v_size x) npos Lv) as [A _]; [lia|].
      rewrite N.eqb_refl in A.
      destruct A as (y & Y1 & Y2 & Y3); [lia|lia|]. rewrite Y1. cbn [obind].
      destruct (op_eq_ok y x Y2 Lx) as (b & B1 & B2). exists b. split; auto. rewrite B2, Y3. unfold range.
      rewrite firstn_all2 by (rewrite skipn_length; lia). split.
      + intros F. exists (firstn (N.to_nat (v_size v - v_size x)) (v_elems v)). rewrite <- F. rewrite firstn_skipn. auto.
      + intros [r F]. rewrite F, skipn_app. rewrite F, app_length in E1.
        rewrite skipn_all2 by lia. replace (N.to_nat (v_size v - v_size x) - length r)%nat with 0%nat by lia. reflexivity.
    - exists false. split; auto. split; [discriminate|]. intros [r F]. rewrite F, app_length in E1. lia. }
  destruct HS as (s & S1 & S2). destruct HE as (e & F1 & F2).
  destruct (access_is_list dbg v 0 Lv) as (_ & _ & _ & A & _ & _ & _ & _ & B).
  unfold v_starts_with1, v_ends_with1. destruct (v_empty v) eqn:Ev.
  - pose proof (proj1 B eq_refl) as N0. exists s, e, false, false.
    repeat (split; [solve [auto]|]). rewrite N0. split; split; try discriminate.
    + intros [r F]. discriminate.
    + intros [r F]. apply app_cons_not_nil in F. destruct F.
  - assert (N0 : v_elems v <> []) by (intros F; apply B in F; discriminate).
    destruct (A N0) as (A1 & A2 & _). rewrite A1, A2.
    destruct (exists_last N0) as (l' & z & Z).
    destruct (v_elems v) as [|a l] eqn:El; [congruence|].
    assert (RZ : hd_error (rev (a :: l)) = Some z) by (rewrite Z, rev_app_distr; reflexivity).
    rewrite RZ. cbn [hd_error obind].
    exists s, e, (a =? c), (z =? c). repeat (split; [solve [auto]|]). rewrite !N.eqb_eq. split.
    + split; [intros ->; eauto|intros [r F]; congruence].
    + rewrite Z. split; [intros ->; eauto|]. intros [r F]. apply app_inj_tail in F. tauto.
Qed.
Print Assumptions starts_ends_with.

Example view_ex : let v := mk_view [7; 1; 2; 3; 9] 1 3 in v_live v /\ v_elems v = [1; 2; 3] /\
  option_map v_elems (v_slice true v 1 3) = Some [2; 3] /\ v_slice true v 1 4 = None /\
  option_map v_elems (v_remove_suffix true v 4) = Some [1; 2; 3] /\
  op_less v (mk_view [1; 3] 0 2) = Some true /\ v_ends_with true v (mk_view [2; 3] 0 2) = Some true.
Proof. repeat split; vm_compute; congruence. Qed.
