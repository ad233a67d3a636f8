From Coq Require Import Permutation.
From Verif Require Import Base RigHash.
Local Open Scope nat_scope.

Definition dist (n a b : nat) : nat := if a <=? b then b - a else b + n - a.
Definition nxt (n i : nat) : nat := if i + 1 =? n then 0 else i + 1.

Lemma land_mask a j : Nat.land a (2 ^ j - 1) = a mod 2 ^ j.
Proof. rewrite <- Nat.land_ones, Nat.ones_equiv. f_equal. lia. Qed.

Ltac dl := unfold dist, nxt in *;
  repeat match goal with
  | |- context [?a <=? ?b] => destruct (Nat.leb_spec a b)
  | H : context [?a <=? ?b] |- _ => destruct (Nat.leb_spec a b)
  | |- context [?a =? ?b] => destruct (Nat.eqb_spec a b)
  | H : context [?a =? ?b] |- _ => destruct (Nat.eqb_spec a b)
  end; try lia.

Lemma nxt_land n i : (exists j, n = 2 ^ j) -> i < n -> Nat.land (i + 1) (n - 1) = nxt n i.
Proof.
  intros [j ->] Hi. rewrite land_mask. unfold nxt.
  destruct (Nat.eqb_spec (i + 1) (2 ^ j)) as [E | E].
  - rewrite E. apply Nat.mod_same. lia.
  - apply Nat.mod_small. lia.
Qed.
Lemma diff_land n a b : (exists j, n = 2 ^ j) -> a < n -> b < n -> Nat.land (n + a - b) (n - 1) = dist n b a.
Proof.
  intros [j ->] Ha Hb. rewrite land_mask. unfold dist.
  destruct (Nat.leb_spec b a) as [E | E].
  - replace (2 ^ j + a - b) with ((a - b) + 1 * 2 ^ j) by lia.
    rewrite Nat.mod_add by lia. apply Nat.mod_small. lia.
  - rewrite Nat.mod_small by lia. lia.
Qed.
Lemma land_lt n x : (exists j, n = 2 ^ j) -> Nat.land x (n - 1) < n.
Proof. intros [j ->]. rewrite land_mask. apply Nat.mod_upper_bound. pose proof (Nat.pow_nonzero 2 j). lia. Qed.
Lemma pow2_from_spec n : forall f p, (exists j, p = 2 ^ j) -> (exists j, pow2_from f p n = 2 ^ j) /\ (n <= p + f -> n <= pow2_from f p n).
Proof.
  induction f as [ | f IH]; intros p Hp; cbn [pow2_from].
  - split; [exact Hp | lia].
  - destruct (Nat.ltb_spec p n) as [Hl | Hl].
    + destruct (IH (2 * p)) as [A B].
      { destruct Hp as [j ->]. exists (S j). reflexivity. }
      split; [exact A | ]. intros Hn. apply B.
      assert (p <> 0). { destruct Hp as [j ->]. apply Nat.pow_nonzero. lia. } lia.
    + split; [exact Hp | lia].
Qed.

Section HMP.
  Context {K V : Type} (keq : K -> K -> bool) (hash : K -> nat) (dflt : V).
  Hypothesis keq_ok : forall a b, keq a b = true <-> a = b.
  Context (e : K).
  Lemma keq_spec a b : reflect (a = b) (keq a b).
  Proof. apply iff_reflect. symmetry. apply keq_ok. Qed.

  Definition kat (B : list (K * V)) (i : nat) : K := fst (nth i B (e, dflt)).
  Definition idl (n : nat) (k : K) : nat := Nat.land (hash k) (n - 1).
  Definition path (n : nat) (kf : nat -> K) : Prop :=
    forall i j, i < n -> j < n -> kf i <> e -> dist n (idl n (kf i)) j < dist n (idl n (kf i)) i -> kf j <> e.
  Definition uniq (n : nat) (kf : nat -> K) : Prop :=
    forall i j, i < n -> j < n -> kf i <> e -> kf i = kf j -> i = j.

  Lemma nth_error_kat B i : i < length B -> exists v, nth_error B i = Some (kat B i, v) /\ nth i B (e, dflt) = (kat B i, v).
  Proof.
    intros Hi. exists (snd (nth i B (e, dflt))). unfold kat.
    rewrite (nth_error_nth' _ (e, dflt) Hi). destruct (nth i B (e, dflt)); auto.
  Qed.
  Lemma kat_upd B t k v i : t < length B -> kat (upd B t (k, v)) i = if i =? t then k else kat B i.
  Proof.
    intros Ht. unfold kat. destruct (Nat.eqb_spec i t) as [-> | Hne].
    - rewrite nth_upd_eq by lia. reflexivity.
    - rewrite nth_upd_ne by lia. reflexivity.
  Qed.

  (** the stop of a scan *)
  Lemma scan_exists n (P : nat -> Prop) (Pd : forall i, {P i} + {~ P i}) : forall d s q, s < n -> q < n -> P q -> dist n s q = d ->
    exists t, t < n /\ P t /\ forall j, j < n -> dist n s j < dist n s t -> ~ P j.
  Proof.
    induction d as [ | d IH]; intros s q Hs Hq HP Hd.
    - exists q. split; [exact Hq | ]. split; [exact HP | ]. intros j Hj. lia.
    - destruct (Pd s) as [Y | N].
      + exists s. split; [exact Hs | ]. split; [exact Y | ]. intros j Hj Hl. exfalso. dl.
      + destruct (IH (nxt n s) q) as (t & Ht & Pt & Hm); [dl | exact Hq | exact HP | dl | ].
        exists t. split; [exact Ht | ]. split; [exact Pt | ]. intros j Hj Hl.
        destruct (Nat.eq_dec j s) as [-> | Hne]; [exact N | ].
        apply Hm; [exact Hj | ].
        assert (t <> s) by (intros ->; exact (N Pt)). dl.
  Qed.

  Definition stop B k i := kat B i = k \/ kat B i = e.
  Lemma stop_dec B k i : {stop B k i} + {~ stop B k i}.
  Proof.
    unfold stop. destruct (keq_spec (kat B i) k); [left; auto | ]. destruct (keq_spec (kat B i) e); [left; auto | ].
    right. tauto.
  Qed.

  Lemma find_loop_spec B sz k (Hp : exists j, length B = 2 ^ j) (Hk : k <> e) : forall fuel s t, s < length B -> t < length B -> stop B k t ->
    (forall j, j < length B -> dist (length B) s j < dist (length B) s t -> ~ stop B k j) -> dist (length B) s t < fuel ->
    find_loop keq (mk_hm e B sz) k fuel s = Some (if keq (kat B t) k then Some t else None).
  Proof.
    induction fuel as [ | f IH]; intros s t Hs Ht Pt Hm Hf; [lia | ].
    cbn [find_loop h_buckets h_empty]. destruct (nth_error_kat B s Hs) as (v & E & _). rewrite E. cbn [obind].
    destruct (Nat.eq_dec s t) as [-> | Hne].
    - destruct (keq_spec (kat B t) k); [reflexivity | ]. destruct (keq_spec (kat B t) e); [reflexivity | ].
      destruct Pt; contradiction.
    - assert (Hn : ~ stop B k s) by (apply Hm; [exact Hs | dl]).
      destruct (keq_spec (kat B s) k) as [A | _]; [exfalso; apply Hn; left; exact A | ].
      destruct (keq_spec (kat B s) e) as [A | _]; [exfalso; apply Hn; right; exact A | ].
      unfold probe_next. cbn [h_buckets]. rewrite nxt_land by assumption.
      apply IH; [dl | exact Ht | exact Pt | | dl].
      intros j Hj Hl. destruct (Nat.eq_dec j s) as [-> | Hjs]; [exact Hn | ]. apply Hm; [exact Hj | dl].
  Qed.
  Lemma emplace_loop_spec B sz k v (Hp : exists j, length B = 2 ^ j) : forall fuel s t, s < length B -> t < length B -> stop B k t ->
    (forall j, j < length B -> dist (length B) s j < dist (length B) s t -> ~ stop B k j) -> dist (length B) s t < fuel ->
    emplace_loop keq (mk_hm e B sz) k v fuel s =
      Some (if keq (kat B t) e then (mk_hm e (upd B t (k, v)) (sz + 1), t, true) else (mk_hm e B sz, t, false)).
  Proof.
    induction fuel as [ | f IH]; intros s t Hs Ht Pt Hm Hf; [lia | ].
    cbn [emplace_loop h_buckets h_empty h_size]. destruct (nth_error_kat B s Hs) as (w & E & _). rewrite E. cbn [obind].
    destruct (Nat.eq_dec s t) as [-> | Hne].
    - destruct (keq_spec (kat B t) e); [reflexivity | ]. destruct (keq_spec (kat B t) k); [reflexivity | ].
      destruct Pt; contradiction.
    - assert (Hn : ~ stop B k s) by (apply Hm; [exact Hs | dl]).
      destruct (keq_spec (kat B s) e) as [A | _]; [exfalso; apply Hn; right; exact A | ].
      destruct (keq_spec (kat B s) k) as [A | _]; [exfalso; apply Hn; left; exact A | ].
      unfold probe_next. cbn [h_buckets]. rewrite nxt_land by assumption.
      apply IH; [dl | exact Ht | exact Pt | | dl].
      intros j Hj Hl. destruct (Nat.eq_dec j s) as [-> | Hjs]; [exact Hn | ]. apply Hm; [exact Hj | dl].
  Qed.

  (** ** contents *)
  Definition ent (B : list (K * V)) : list (K * V) := filter (fun x => negb (keq (fst x) e)) B.
  Definition occ (x : K * V) : list (K * V) := if keq (fst x) e then [] else [x].
  Lemma ent_app a b : ent (a ++ b) = ent a ++ ent b.
  Proof. apply filter_app. Qed.
  Lemma ent_cons x b : ent (x :: b) = occ x ++ ent b.
  Proof. unfold ent, occ. cbn [filter]. destruct (keq (fst x) e); reflexivity. Qed.
  Lemma upd_split {A} (l : list A) (d : A) t x : t < length l ->
    l = firstn t l ++ nth t l d :: skipn (S t) l /\ upd l t x = firstn t l ++ x :: skipn (S t) l.
  Proof.
    revert t. induction l as [ | y l IH]; intros t Ht; [inversion Ht | ].
    destruct t as [ | t]; [split; reflexivity | ].
    cbn [length] in Ht. destruct (IH t ltac:(lia)) as [A1 A2]. cbn [firstn skipn nth app upd].
    split; [f_equal; exact A1 | ]. cbn. f_equal. exact A2.
  Qed.
  Lemma ent_upd B t x : t < length B -> Permutation (occ (nth t B (e, dflt)) ++ ent (upd B t x)) (occ x ++ ent B).
  Proof.
    intros Ht. destruct (upd_split B (e, dflt) t x Ht) as [A1 A2]. rewrite A2.
    replace (ent B) with (ent (firstn t B ++ nth t B (e, dflt) :: skipn (S t) B)) by (rewrite <- A1; reflexivity).
    rewrite !ent_app, !ent_cons.
    set (a := ent (firstn t B)). set (b := ent (skipn (S t) B)). set (o := occ _). set (p := occ x).
    rewrite (Permutation_app_swap_app a p b), (Permutation_app_swap_app a o b).
    apply Permutation_app_swap_app.
  Qed.
  Lemma ent_in B k v : In (k, v) (ent B) <-> k <> e /\ exists i, i < length B /\ nth i B (e, dflt) = (k, v).
  Proof.
    unfold ent. rewrite filter_In. cbn [fst]. rewrite negb_true_iff. split.
    - intros [Hi Hn]. split; [destruct (keq_spec k e); congruence | ]. apply In_nth. exact Hi.
    - intros [Hn (i & Hi & E)]. split; [rewrite <- E; apply nth_In; exact Hi | destruct (keq_spec k e); congruence].
  Qed.
  Lemma ent_key B k : In k (map fst (ent B)) <-> k <> e /\ exists i, i < length B /\ kat B i = k.
  Proof.
    rewrite in_map_iff. split.
    - intros ([k' v] & E & Hi). cbn in E. subst k'. apply ent_in in Hi. destruct Hi as [Hn (i & Hi & E)].
      split; [exact Hn | ]. exists i. split; [exact Hi | ]. unfold kat. rewrite E. reflexivity.
    - intros [Hn (i & Hi & E)]. destruct (nth_error_kat B i Hi) as (v & _ & E2). exists (k, v). split; [reflexivity | ].
      apply ent_in. split; [exact Hn | ]. exists i. split; [exact Hi | ]. rewrite E2, E. reflexivity.
  Qed.
  Lemma ent_nodup B : uniq (length B) (kat B) -> NoDup (map fst (ent B)).
  Proof.
    induction B as [ | [k v] B IH]; intros U; [constructor | ].
    assert (UB : uniq (length B) (kat B)).
    { intros i j Hi Hj Hn E. specialize (U (S i) (S j)). cbn [length] in U.
      assert (S i = S j); [ | lia]. apply U; [lia | lia | exact Hn | exact E]. }
    rewrite ent_cons. unfold occ. cbn [fst]. destruct (keq_spec k e) as [-> | Hn]; cbn [app map fst]; [exact (IH UB) | ].
    constructor; [ | exact (IH UB)]. intros Hi. apply ent_key in Hi. destruct Hi as [_ (i & Hi & E)].
    specialize (U 0 (S i)). cbn [length] in U. discriminate U; [lia | lia | exact Hn | ].
    unfold kat in *. cbn. symmetry. exact E.
  Qed.
  Lemma ent_len_empty B : length (ent B) < length B -> exists q, q < length B /\ kat B q = e.
  Proof.
    induction B as [ | [k v] B IH]; intros H; [inversion H | ].
    rewrite ent_cons in H. unfold occ in H. cbn [fst] in H. destruct (keq_spec k e) as [-> | Hn].
    - exists 0. split; [cbn; lia | reflexivity].
    - cbn [app length] in H. destruct IH as (q & Hq & E); [lia | ]. exists (S q). split; [cbn; lia | exact E].
  Qed.

  (** ** the invariant *)
  Record okb (B : list (K * V)) (sz : nat) : Prop := {
    ok_pow : exists j, length B = 2 ^ j;
    ok_path : path (length B) (kat B);
    ok_uniq : uniq (length B) (kat B);
    ok_len : length (ent B) <= sz;
    ok_load : 2 * sz <= length B }.

  Lemma pow_pos (B : list (K * V)) : (exists j, length B = 2 ^ j) -> 0 < length B.
  Proof. intros [j ->]. pose proof (Nat.pow_nonzero 2 j). lia. Qed.
  Lemma idl_lt (B : list (K * V)) k : (exists j, length B = 2 ^ j) -> idl (length B) k < length B.
  Proof. apply land_lt. Qed.

  Lemma scan_of B k : (exists j, length B = 2 ^ j) -> (exists q, q < length B /\ kat B q = e) ->
    exists t, t < length B /\ stop B k t /\ forall j, j < length B -> dist (length B) (idl (length B) k) j < dist (length B) (idl (length B) k) t -> ~ stop B k j.
  Proof.
    intros Hp (q & Hq & E). eapply (scan_exists (length B) (stop B k) (stop_dec B k)); [apply idl_lt; exact Hp | exact Hq | right; exact E | reflexivity].
  Qed.
  Lemma scan_found B k t i : path (length B) (kat B) -> uniq (length B) (kat B) -> (exists j, length B = 2 ^ j) -> k <> e -> t < length B -> stop B k t ->
    (forall j, j < length B -> dist (length B) (idl (length B) k) j < dist (length B) (idl (length B) k) t -> ~ stop B k j) ->
    i < length B -> kat B i = k -> t = i.
  Proof.
    intros P U Hp Hk Ht St Hm Hi E.
    destruct St as [St | St].
    - apply U; [exact Ht | exact Hi | congruence | congruence].
    - exfalso. pose proof (idl_lt B k Hp) as Hs.
      destruct (lt_dec (dist (length B) (idl (length B) k) i) (dist (length B) (idl (length B) k) t)) as [Hl | Hl].
      + apply (Hm i Hi Hl). left. exact E.
      + assert (dist (length B) (idl (length B) k) t < dist (length B) (idl (length B) k) i \/ t = i) as [Hl2 | ->].
        { destruct (Nat.eq_dec t i); [right; assumption | left]. set (x := idl _ _) in *. dl. }
        * apply (P i t Hi Ht); [congruence | rewrite E; exact Hl2 | exact St].
        * congruence.
  Qed.
  Lemma dist_lt n a b : a < n -> b < n -> dist n a b < n.
  Proof. intros. dl. Qed.

  (** [hm_find] on a well-formed table *)
  Lemma find_ok B sz k : okb B sz -> k <> e ->
    exists r, hm_find keq hash (mk_hm e B sz) k = Some r /\
      match r with Some i => i < length B /\ kat B i = k | None => forall i, i < length B -> kat B i <> k end.
  Proof.
    intros H Hk. destruct H as [Hp P U L1 L2]. pose proof (pow_pos B Hp).
    destruct (scan_of B k Hp) as (t & Ht & St & Hm); [apply ent_len_empty; lia | ].
    exists (if keq (kat B t) k then Some t else None). split.
    - unfold hm_find, key_to_idx. cbn [h_buckets]. apply find_loop_spec; try assumption; [apply idl_lt; exact Hp | apply dist_lt; [apply idl_lt; exact Hp | exact Ht]].
    - destruct (keq_spec (kat B t) k) as [E | N]; [auto | ]. intros i Hi E.
      rewrite (scan_found B k t i P U Hp Hk Ht St Hm Hi E) in N. contradiction.
  Qed.

  (** the insertion loop on a table with room *)
  Lemma emplace_room B sz k v : okb B sz -> 2 * (sz + 1) <= length B -> k <> e ->
    exists B' sz' i b, emplace_loop keq (mk_hm e B sz) k v (length B) (key_to_idx hash (mk_hm e B sz) k) = Some (mk_hm e B' sz', i, b) /\
      okb B' sz' /\ length B' = length B /\ i < length B' /\ kat B' i = k /\
      (if b then sz' = sz + 1 /\ nth i B' (e, dflt) = (k, v) /\ ~ In k (map fst (ent B)) /\ Permutation (ent B') ((k, v) :: ent B)
       else sz' = sz /\ B' = B).
  Proof.
    intros H HL Hk. destruct H as [Hp P U L1 L2]. pose proof (pow_pos B Hp).
    destruct (scan_of B k Hp) as (t & Ht & St & Hm); [apply ent_len_empty; lia | ].
    pose proof (emplace_loop_spec B sz k v Hp (length B) (idl (length B) k) t (idl_lt B k Hp) Ht St Hm (dist_lt _ _ _ (idl_lt B k Hp) Ht)) as E.
    destruct (keq_spec (kat B t) e) as [Ee | Ne].
    - exists (upd B t (k, v)), (sz + 1), t, true.
      assert (NI : forall i, i < length B -> kat B i <> k).
      { intros i Hi Ei. pose proof (scan_found B k t i P U Hp Hk Ht St Hm Hi Ei). subst i. congruence. }
      assert (PM : Permutation (ent (upd B t (k, v))) ((k, v) :: ent B)).
      { pose proof (ent_upd B t (k, v) Ht) as X. unfold occ in X. cbn [fst] in X.
        destruct (keq_spec k e); [contradiction | ]. unfold kat in Ee. rewrite Ee in X.
        destruct (keq_spec e e); [ | contradiction]. exact X. }
      split; [exact E | ]. rewrite upd_length. split; [ | split; [reflexivity | split; [exact Ht | split; [ | split; [reflexivity | split; [ | split; [ | exact PM]]]]]]].
      + split.
        * rewrite upd_length. exact Hp.
        * rewrite upd_length. intros i j Hi Hj. rewrite !kat_upd by exact Ht.
          destruct (Nat.eqb_spec j t) as [-> | Hjt]; [intros; exact Hk | ].
          destruct (Nat.eqb_spec i t) as [-> | Hit].
          -- intros _ Hl Hj2. apply (Hm j Hj Hl). right. exact Hj2.
          -- intros Hn Hl. exact (P i j Hi Hj Hn Hl).
        * rewrite upd_length. intros i j Hi Hj. rewrite !kat_upd by exact Ht.
          destruct (Nat.eqb_spec j t) as [-> | Hjt]; destruct (Nat.eqb_spec i t) as [-> | Hit]; intros Hn Hq.
          -- reflexivity.
          -- exfalso. exact (NI i Hi Hq).
          -- exfalso. exact (NI j Hj (eq_sym Hq)).
          -- apply U; assumption.
        * rewrite (Permutation_length PM). cbn [length]. lia.
        * rewrite upd_length. lia.
      + rewrite kat_upd by exact Ht. rewrite Nat.eqb_refl. reflexivity.
      + apply nth_upd_eq. exact Ht.
      + intros Hi. apply ent_key in Hi. destruct Hi as [_ (i & Hi & Ei)]. exact (NI i Hi Ei).
    - exists B, sz, t, false. split; [exact E | ]. repeat split; try assumption. destruct St; [assumption | contradiction].
  Qed.

  (** a slot for the empty key: the contents stay *)
  Lemma emplace_empty B sz v : okb B sz -> 2 * (sz + 1) <= length B ->
    exists B' i, emplace_loop keq (mk_hm e B sz) e v (length B) (key_to_idx hash (mk_hm e B sz) e) = Some (mk_hm e B' (sz + 1), i, true) /\
      okb B' (sz + 1) /\ length B' = length B /\ i < length B' /\ nth i B' (e, dflt) = (e, v) /\ Permutation (ent B') (ent B).
  Proof.
    intros H HL. destruct H as [Hp P U L1 L2]. pose proof (pow_pos B Hp).
    destruct (scan_of B e Hp) as (t & Ht & St & Hm); [apply ent_len_empty; lia | ].
    pose proof (emplace_loop_spec B sz e v Hp (length B) (idl (length B) e) t (idl_lt B e Hp) Ht St Hm (dist_lt _ _ _ (idl_lt B e Hp) Ht)) as E.
    assert (Ee : kat B t = e) by (destruct St; assumption).
    destruct (keq_spec (kat B t) e) as [_ | Ne]; [ | contradiction].
    exists (upd B t (e, v)), t.
    assert (PM : Permutation (ent (upd B t (e, v))) (ent B)).
    { pose proof (ent_upd B t (e, v) Ht) as X. unfold occ in X. cbn [fst] in X. unfold kat in Ee. rewrite Ee in X.
      destruct (keq_spec e e); [ | contradiction]. exact X. }
    assert (KE : forall i, kat (upd B t (e, v)) i = kat B i).
    { intros i. rewrite kat_upd by exact Ht. destruct (Nat.eqb_spec i t); subst; congruence. }
    split; [exact E | ]. rewrite upd_length. split; [ | split; [reflexivity | split; [exact Ht | split; [apply nth_upd_eq; exact Ht | exact PM]]]].
    split.
    - rewrite upd_length. exact Hp.
    - rewrite upd_length. intros i j. rewrite !KE. apply P.
    - rewrite upd_length. intros i j. rewrite !KE. apply U.
    - rewrite (Permutation_length PM). lia.
    - rewrite upd_length. lia.
  Qed.

  (** ** new tables and rehashing *)
  Lemma kat_repeat n i : kat (repeat (e, dflt) n) i = e.
  Proof. unfold kat. revert i. induction n; intros [ | i]; cbn; auto. Qed.
  Lemma ent_repeat n : ent (repeat (e, dflt) n) = [].
  Proof.
    unfold ent. induction n as [ | n IH]; [reflexivity | ]. cbn [repeat filter fst].
    destruct (keq_spec e e) as [_ | N]; [exact IH | contradiction].
  Qed.
  Lemma new_ok count : exists B, hm_new dflt count e = mk_hm e B 0 /\ okb B 0 /\ ent B = [] /\ count <= length B.
  Proof.
    exists (repeat (e, dflt) (pow2_from count 1 count)). split; [reflexivity | ].
    destruct (pow2_from_spec count count 1) as [A1 A2]; [exists 0; reflexivity | ].
    rewrite repeat_length. split; [ | split; [apply ent_repeat | apply A2; lia]].
    split.
    - rewrite repeat_length. exact A1.
    - intros i j _ _ Hn. rewrite kat_repeat in Hn. contradiction.
    - intros i j _ _ Hn. rewrite kat_repeat in Hn. contradiction.
    - rewrite ent_repeat. cbn. lia.
    - lia.
  Qed.
  Lemma emplace_impl_room d B sz k v : 2 * (sz + 1) <= length B ->
    emplace_impl keq hash dflt d (mk_hm e B sz) k v = emplace_loop keq (mk_hm e B sz) k v (length B) (key_to_idx hash (mk_hm e B sz) k).
  Proof.
    intros H. destruct d; cbn [emplace_impl h_size h_buckets]; (destruct (Nat.ltb_spec (length B) ((sz + 1) * 2)); [lia | ]); reflexivity.
  Qed.
  Lemma fill_ok d : forall L B sz, okb B sz -> NoDup (map fst (L ++ ent B)) -> (forall k v, In (k, v) L -> k <> e) -> 2 * (sz + length L) <= length B ->
    exists B', fold_left (fun o x => do o <- o; do (o', _, _) <- emplace_impl keq hash dflt d o (fst x) (snd x); Some o') L (Some (mk_hm e B sz)) =
        Some (mk_hm e B' (sz + length L)) /\ okb B' (sz + length L) /\ length B' = length B /\ Permutation (ent B') (L ++ ent B).
  Proof.
    induction L as [ | [k v] L IH]; intros B sz H ND Hne Hl; cbn [length] in *.
    - exists B. cbn [fold_left]. rewrite Nat.add_0_r. repeat split; auto; apply H.
    - cbn [fold_left obind fst snd]. rewrite emplace_impl_room by lia.
      destruct (emplace_room B sz k v H) as (B1 & sz1 & i & b & E & H1 & HL1 & Hi & Ki & C); [lia | apply (Hne k v); left; reflexivity | ].
      rewrite E. cbn [obind].
      cbn [app map fst] in ND. assert (N1 : ~ In k (map fst (L ++ ent B))) by (inversion ND; assumption).
      destruct b.
      + destruct C as (-> & _ & _ & PM).
        destruct (IH B1 (sz + 1) H1) as (B2 & E2 & H2 & HL2 & PM2).
        { eapply (Permutation_NoDup (l := map fst (((k, v) :: L) ++ ent B))); [ | cbn [app map fst]; exact ND].
          apply Permutation_map. rewrite PM. cbn [app]. apply Permutation_middle. }
        { intros k' v' Hi'. apply (Hne k' v'). right. exact Hi'. }
        { lia. }
        exists B2. replace (sz + S (length L)) with (sz + 1 + length L) by lia.
        split; [exact E2 | ]. split; [exact H2 | ]. split; [lia | ].
        rewrite PM2, PM. cbn [app]. symmetry. apply Permutation_middle.
      + destruct C as (-> & ->). exfalso. apply N1. rewrite map_app, in_app_iff. right. apply ent_key.
        split; [apply (Hne k v); left; reflexivity | ]. exists i. auto.
  Qed.
  Lemma ent_ne B k v : In (k, v) (ent B) -> k <> e.
  Proof. intros H. apply ent_in in H. tauto. Qed.
  Lemma hm_all_ent B sz : hm_all keq (mk_hm e B sz) = ent B.
  Proof. reflexivity. Qed.

  Lemma rehash_gen d B sz count : okb B sz -> count >= sz * 2 ->
    exists B' sz', fold_left (fun o x => do o <- o; do (o', _, _) <- emplace_impl keq hash dflt d o (fst x) (snd x); Some o')
        (hm_all keq (mk_hm e B sz)) (Some (hm_new dflt count e)) = Some (mk_hm e B' sz') /\
      okb B' sz' /\ count <= length B' /\ sz' = length (ent B) /\ Permutation (ent B') (ent B).
  Proof.
    intros H Hc. destruct (new_ok count) as (B0 & E0 & H0 & EN & HL). rewrite E0, hm_all_ent.
    destruct (fill_ok d (ent B) B0 0 H0) as (B1 & E1 & H1 & L1 & PM).
    - rewrite EN, app_nil_r. apply ent_nodup. apply H.
    - apply ent_ne.
    - pose proof (ok_len _ _ H). lia.
    - exists B1, (length (ent B)). rewrite E1. split; [reflexivity | ]. split; [exact H1 | ]. split; [lia | ]. split; [reflexivity | ].
      rewrite PM, EN, app_nil_r. reflexivity.
  Qed.
  (** reserve and the loop of emplace *)
  Lemma emplace_reserve d B sz k v : okb B sz ->
    exists B1 sz1, okb B1 sz1 /\ 2 * (sz1 + 1) <= length B1 /\ Permutation (ent B1) (ent B) /\ sz1 <= sz /\ (length (ent B) = sz -> sz1 = sz) /\
      emplace_impl keq hash dflt (S d) (mk_hm e B sz) k v = emplace_loop keq (mk_hm e B1 sz1) k v (length B1) (key_to_idx hash (mk_hm e B1 sz1) k).
  Proof.
    intros H. cbn [emplace_impl h_size h_buckets h_empty].
    destruct (Nat.ltb_spec (length B) ((sz + 1) * 2)) as [Hl | Hl].
    - destruct (rehash_gen d B sz (Nat.max ((sz + 1) * 2) (sz * 2)) H) as (B1 & sz1 & E1 & H1 & HL & -> & PM); [lia | ].
      exists B1, (length (ent B)). rewrite E1. cbn [obind h_buckets]. pose proof (ok_len _ _ H).
      repeat split; try apply H1; auto; lia.
    - exists B, sz. repeat split; try apply H; auto; lia.
  Qed.
  Lemma emplace_ok d B sz k v : okb B sz -> k <> e ->
    exists B' sz' i b, emplace_impl keq hash dflt (S d) (mk_hm e B sz) k v = Some (mk_hm e B' sz', i, b) /\
      okb B' sz' /\ i < length B' /\ kat B' i = k /\ (length (ent B) = sz -> length (ent B') = sz') /\
      (if b then nth i B' (e, dflt) = (k, v) /\ ~ In k (map fst (ent B)) /\ Permutation (ent B') ((k, v) :: ent B)
       else In k (map fst (ent B)) /\ Permutation (ent B') (ent B)).
  Proof.
    intros H Hk. destruct (emplace_reserve d B sz k v H) as (B1 & sz1 & H1 & HL & PM & Hs & Hse & E). rewrite E. clear E.
    destruct (emplace_room B1 sz1 k v H1 HL Hk) as (B2 & sz2 & i & b & E & H2 & L2 & Hi & Ki & C).
    exists B2, sz2, i, b. split; [exact E | ]. split; [exact H2 | ]. split; [exact Hi | ]. split; [exact Ki | ].
    destruct b.
    - destruct C as (-> & Hn & NI & PM2). split; [ | split; [exact Hn | split]].
      + intros X. rewrite (Permutation_length PM2). cbn [length]. rewrite (Permutation_length PM). rewrite (Hse X). lia.
      + intros Hin. apply NI. eapply Permutation_in; [apply Permutation_map, Permutation_sym, PM | exact Hin].
      + rewrite PM2, PM. reflexivity.
    - destruct C as (-> & ->). split; [ | split; [ | exact PM]].
      + intros X. rewrite (Permutation_length PM), (Hse X). exact X.
      + eapply Permutation_in; [apply Permutation_map, PM | ]. apply ent_key. split; [exact Hk | ]. exists i. auto.
  Qed.

  (** ** deletion *)
  Definition hole (h : nat) (B : list (K * V)) (i : nat) : K := if i =? h then e else kat B i.
  Record einv (B : list (K * V)) (h idx q : nat) : Prop := {
    ei_h : h < length B; ei_idx : idx < length B; ei_q : q < length B;
    ei_qe : kat B q = e; ei_hq : h <> q; ei_ne : h <> idx; ei_he : kat B h <> e;
    ei_btw : dist (length B) h idx <= dist (length B) h q;
    ei_uniq : uniq (length B) (hole h B);
    ei_path : forall i j, i < length B -> j < length B -> hole h B i <> e ->
      dist (length B) (idl (length B) (hole h B i)) j < dist (length B) (idl (length B) (hole h B i)) i -> j = h \/ hole h B j <> e;
    ei_occ : forall i, i < length B -> i <> h -> dist (length B) h i < dist (length B) h idx ->
      kat B i <> e /\ ~ dist (length B) (idl (length B) (kat B i)) h < dist (length B) (idl (length B) (kat B i)) i }.

  Definition rest (h : nat) (B : list (K * V)) : list (K * V) := ent (upd B h (e, dflt)).
  Lemma rest_any h B w : h < length B -> ent (upd B h (e, w)) = rest h B.
  Proof.
    intros Hh. unfold rest. rewrite (proj2 (upd_split B (e, dflt) h (e, w) Hh)), (proj2 (upd_split B (e, dflt) h (e, dflt) Hh)).
    rewrite !ent_app, !ent_cons. unfold occ. cbn [fst]. destruct (keq_spec e e); [reflexivity | contradiction].
  Qed.
  Lemma hole_upd h B w i : h < length B -> kat (upd B h (e, w)) i = hole h B i.
  Proof. intros Hh. rewrite kat_upd by exact Hh. reflexivity. Qed.
  Lemma rest_perm h B : h < length B -> kat B h <> e -> Permutation (ent B) (nth h B (e, dflt) :: rest h B).
  Proof.
    intros Hh Hn. pose proof (ent_upd B h (e, dflt) Hh) as X. unfold occ in X. cbn [fst] in X.
    destruct (keq_spec e e); [ | contradiction]. unfold kat in Hn. destruct (keq_spec (fst (nth h B (e, dflt))) e); [contradiction | ].
    symmetry. exact X.
  Qed.

  Lemma erase_loop_ok sz : forall fuel B h idx q, (exists j, length B = 2 ^ j) -> einv B h idx q -> dist (length B) idx q < fuel ->
    exists B', erase_loop keq hash (mk_hm e B sz) fuel h idx = Some (mk_hm e B' (sz - 1)) /\ length B' = length B /\
      path (length B') (kat B') /\ uniq (length B') (kat B') /\ Permutation (ent B') (rest h B).
  Proof.
    induction fuel as [ | f IH]; intros B h idx q Hp I Hf; [lia | ].
    cbn [erase_loop h_buckets h_empty h_size].
    pose proof (ei_h _ _ _ _ I) as Hh. pose proof (ei_idx _ _ _ _ I) as Hidx. pose proof (ei_q _ _ _ _ I) as Hq.
    destruct (nth_error_kat B idx Hidx) as (v & E & E'). rewrite E. cbn [obind].
    destruct (keq_spec (kat B idx) e) as [Ee | Ne].
    - destruct (nth_error_kat B h Hh) as (w & Ew & _). rewrite Ew. cbn [obind].
      exists (upd B h (e, w)). split; [reflexivity | ]. rewrite upd_length. split; [reflexivity | ].
      assert (KE : forall i, kat (upd B h (e, w)) i = hole h B i) by (intros; apply hole_upd; exact Hh).
      split; [ | split].
      + intros i j Hi Hj. rewrite !KE. intros Hn Hl.
        destruct (ei_path _ _ _ _ I i j Hi Hj Hn Hl) as [-> | X]; [exfalso | exact X].
        assert (Hih : i <> h). { intros ->. unfold hole in Hn. rewrite Nat.eqb_refl in Hn. contradiction. }
        assert (Hhi : hole h B i = kat B i). { unfold hole. destruct (Nat.eqb_spec i h); [contradiction | reflexivity]. }
        pose proof (ei_ne _ _ _ _ I) as Hne.
        assert (Hid : hole h B idx = e). { unfold hole. destruct (Nat.eqb_spec idx h); [reflexivity | exact Ee]. }
        assert (i <> idx) by (intros ->; congruence).
        destruct (lt_dec (dist (length B) h i) (dist (length B) h idx)) as [Hb | Hb].
        * destruct (ei_occ _ _ _ _ I i Hi Hih Hb) as [_ X]. rewrite Hhi in Hl. contradiction.
        * destruct (ei_path _ _ _ _ I i idx Hi Hidx Hn) as [X | X]; [ | congruence | congruence].
          pose proof (idl_lt B (hole h B i) Hp) as Hx. set (x := idl (length B) (hole h B i)) in *. clearbody x. clear - Hl Hb Hx Hh Hidx Hi H Hne Hih. dl.
      + intros i j Hi Hj. rewrite !KE. apply (ei_uniq _ _ _ _ I); assumption.
      + rewrite rest_any by exact Hh. reflexivity.
    - assert (Hiq : idx <> q). { intros ->. apply Ne. exact (ei_qe _ _ _ _ I). }
      pose proof (ei_ne _ _ _ _ I) as Hne. pose proof (ei_btw _ _ _ _ I) as Hbt. pose proof (ei_hq _ _ _ _ I) as Hhq.
      pose proof (idl_lt B (kat B idx) Hp) as Hx.
      unfold diff, probe_next, key_to_idx. cbn [h_buckets]. fold (idl (length B) (kat B idx)).
      rewrite !diff_land by assumption. rewrite !nxt_land by assumption.
      assert (Hix : hole h B idx = kat B idx). { unfold hole. destruct (Nat.eqb_spec idx h); [congruence | reflexivity]. }
      destruct (Nat.ltb_spec (dist (length B) (idl (length B) (kat B idx)) h) (dist (length B) (idl (length B) (kat B idx)) idx)) as [Hl | Hl].
      + set (k := kat B idx) in *. set (B1 := upd B h (k, v)).
        assert (HL1 : length B1 = length B) by (unfold B1; apply upd_length).
        assert (K1 : forall i, kat B1 i = if i =? h then k else kat B i) by (intros; apply kat_upd; exact Hh).
        assert (H1 : forall i, hole idx B1 i = if i =? idx then e else if i =? h then k else hole h B i).
        { intros i. unfold hole at 1. rewrite K1. destruct (Nat.eqb_spec i idx); [reflexivity | ]. destruct (Nat.eqb_spec i h) as [-> | N]; [reflexivity | ].
          unfold hole. destruct (Nat.eqb_spec i h); [contradiction | reflexivity]. }
        destruct (IH B1 idx (nxt (length B1) idx) q) as (B2 & E2 & L2 & P2 & U2 & PM).
        * rewrite HL1. exact Hp.
        * split; rewrite ?HL1; try assumption.
          -- clear - Hidx. dl.
          -- rewrite K1. destruct (Nat.eqb_spec q h); [congruence | exact (ei_qe _ _ _ _ I)].
          -- clear - Hidx Hh Hne. dl.
          -- rewrite K1. destruct (Nat.eqb_spec idx h); [congruence | exact Ne].
          -- clear - Hidx Hiq Hq. dl.
          -- intros i j Hi Hj. rewrite !H1.
             destruct (Nat.eqb_spec i idx) as [-> | Hii]; [contradiction | ].
             destruct (Nat.eqb_spec j idx) as [-> | Hjj].
             { destruct (Nat.eqb_spec i h); congruence. }
             destruct (Nat.eqb_spec i h) as [-> | Hih]; destruct (Nat.eqb_spec j h) as [-> | Hjh]; intros Hn Hq2.
             ++ reflexivity.
             ++ exfalso. apply Hjj. symmetry. apply (ei_uniq _ _ _ _ I idx j Hidx Hj); [rewrite Hix; exact Ne | rewrite Hix; exact Hq2].
             ++ exfalso. apply Hii. apply (ei_uniq _ _ _ _ I i idx Hi Hidx Hn). rewrite Hix. exact Hq2.
             ++ apply (ei_uniq _ _ _ _ I i j Hi Hj Hn Hq2).
          -- intros i j Hi Hj. rewrite !H1.
             destruct (Nat.eqb_spec j idx) as [-> | Hjj]; [intros; left; reflexivity | ].
             destruct (Nat.eqb_spec i idx) as [-> | Hii]; [contradiction | ].
             destruct (Nat.eqb_spec j h) as [-> | Hjh]; [intros; right; exact Ne | ].
             destruct (Nat.eqb_spec i h) as [-> | Hih]; intros Hn Hl2; right.
             ++ destruct (ei_path _ _ _ _ I idx j Hidx Hj) as [X | X]; [rewrite Hix; exact Ne | rewrite Hix; lia | contradiction | exact X].
             ++ destruct (ei_path _ _ _ _ I i j Hi Hj Hn Hl2) as [X | X]; [contradiction | exact X].
          -- intros i Hi Hii Hb. exfalso. clear - Hidx Hi Hii Hb. dl.
        * rewrite HL1. clear - Hf Hiq Hidx Hq. dl.
        * exists B2. rewrite HL1 in E2. split; [exact E2 | ]. split; [lia | ]. split; [exact P2 | ]. split; [exact U2 | ].
          rewrite PM. unfold rest.
          assert (Hidx1 : idx < length B1) by (rewrite HL1; exact Hidx).
          pose proof (rest_perm idx B1 Hidx1) as R1. rewrite K1 in R1. destruct (Nat.eqb_spec idx h); [congruence | ].
          specialize (R1 Ne).
          assert (N1 : nth idx B1 (e, dflt) = (k, v)). { unfold B1. rewrite nth_upd_ne by lia. exact E'. }
          rewrite N1 in R1.
          pose proof (ent_upd B h (k, v) Hh) as X. fold B1 in X. unfold occ in X. cbn [fst] in X.
          destruct (keq_spec k e); [contradiction | ].
          destruct (keq_spec (fst (nth h B (e, dflt))) e) as [Ehh | Nhh].
          { exfalso. apply (ei_he _ _ _ _ I). exact Ehh. }
          cbn [app] in X. pose proof (rest_perm h B Hh Nhh) as R2. rewrite R1, R2 in X.
          unfold rest in *. apply Permutation_cons_inv with (a := nth h B (e, dflt)).
          apply Permutation_cons_inv with (a := (k, v)). rewrite perm_swap. exact X.
      + destruct (IH B h (nxt (length B) idx) q) as (B2 & E2 & L2 & P2 & U2 & PM); [exact Hp | | clear - Hf Hiq Hidx Hq; dl | exists B2; auto].
        split; try assumption; try apply I.
        * clear - Hidx. dl.
        * clear - Hidx Hh Hne Hhq Hbt Hiq Hq. dl.
        * clear - Hidx Hh Hne Hhq Hbt Hiq Hq. dl.
        * intros i Hi Hih Hb. destruct (Nat.eq_dec i idx) as [-> | Hii]; [split; [exact Ne | lia] | ].
          apply (ei_occ _ _ _ _ I i Hi Hih). clear - Hidx Hh Hne Hhq Hbt Hiq Hq Hb Hi Hih Hii. dl.
  Qed.
  Lemma erase_at B sz h : okb B sz -> h < length B -> kat B h <> e ->
    exists B', erase_loop keq hash (mk_hm e B sz) (length B) h (probe_next (mk_hm e B sz) h) = Some (mk_hm e B' (sz - 1)) /\
      okb B' (sz - 1) /\ Permutation (ent B') (rest h B).
  Proof.
    intros H Hh Hn. destruct H as [Hp P U L1 L2].
    destruct (ent_len_empty B) as (q & Hq & Eq); [pose proof (pow_pos B Hp); lia | ].
    assert (Hhq : h <> q) by congruence.
    unfold probe_next. cbn [h_buckets]. rewrite nxt_land by assumption.
    assert (HE : forall i, hole h B i <> e -> i <> h /\ hole h B i = kat B i).
    { intros i. unfold hole. destruct (Nat.eqb_spec i h); [contradiction | auto]. }
    destruct (erase_loop_ok sz (length B) B h (nxt (length B) h) q) as (B' & E & L' & P' & U' & PM).
    - exact Hp.
    - split; try assumption.
      + clear - Hh. dl.
      + clear - Hh Hq Hhq. dl.
      + clear - Hh Hq Hhq. dl.
      + intros i j Hi Hj Hi2 Hj2. destruct (HE i Hi2) as [X1 X2]. assert (Hj3 : hole h B j <> e) by congruence. destruct (HE j Hj3) as [Y1 Y2].
        apply U; [exact Hi | exact Hj | congruence | congruence].
      + intros i j Hi Hj Hi2 Hl. destruct (HE i Hi2) as [X1 X2]. destruct (Nat.eq_dec j h); [left; assumption | right].
        unfold hole. destruct (Nat.eqb_spec j h); [contradiction | ]. apply (P i j Hi Hj); [congruence | rewrite X2 in Hl; exact Hl].
      + intros i Hi Hih Hb. exfalso. clear - Hh Hi Hih Hb. dl.
    - clear - Hh Hq Hhq. dl.
    - exists B'. split; [exact E | ]. split; [ | exact PM].
      pose proof (Permutation_length (rest_perm h B Hh Hn)) as X. cbn [length] in X. pose proof (Permutation_length PM) as Y.
      split; [rewrite L'; exact Hp | exact P' | exact U' | lia | lia].
  Qed.
End HMP.

From Verif Require Import RigHashSpec.
Section MAPL.
  Context {K V : Type} (keq : K -> K -> bool).
  Hypothesis keq_ok : forall a b, keq a b = true <-> a = b.
  Let kspec := keq_spec keq keq_ok.

  Lemma m_get_in (l : list (K * V)) k v : NoDup (map fst l) -> (m_get keq l k = Some v <-> In (k, v) l).
  Proof.
    induction l as [ | [k' v'] l IH]; cbn [m_get map fst]; intros ND.
    - split; [discriminate | intros []].
    - inversion ND as [ | x y N1 N2]; subst. destruct (kspec k' k) as [-> | Hn].
      + split.
        * intros [= ->]. left. reflexivity.
        * intros [[= ->] | Hi]; [reflexivity | ]. exfalso. apply N1. apply in_map_iff. exists (k, v). auto.
      + rewrite (IH N2). split; [right; assumption | ]. intros [[= -> ->] | Hi]; [contradiction | exact Hi].
  Qed.
  Lemma m_get_none (l : list (K * V)) k : m_get keq l k = None <-> ~ In k (map fst l).
  Proof.
    induction l as [ | [k' v'] l IH]; cbn [m_get map fst]; [split; auto | ].
    destruct (kspec k' k) as [-> | Hn].
    - split; [discriminate | ]. intros H. exfalso. apply H. left. reflexivity.
    - rewrite IH. cbn [In]. split; intros H; [intros [X | X]; auto | auto].
  Qed.
  Lemma m_del_in (l : list (K * V)) k k' v : In (k', v) (m_del keq l k) <-> k' <> k /\ In (k', v) l.
  Proof.
    unfold m_del. rewrite filter_In. cbn [fst]. rewrite negb_true_iff. destruct (kspec k' k); split; intuition congruence.
  Qed.
  Lemma m_del_id (l : list (K * V)) k : ~ In k (map fst l) -> m_del keq l k = l.
  Proof.
    induction l as [ | [k' v] l IH]; intros H; [reflexivity | ]. cbn [m_del filter fst] in *. cbn [map fst In] in H.
    destruct (kspec k' k); [exfalso; auto | ]. cbn [negb]. f_equal. apply IH. auto.
  Qed.
  Lemma m_del_perm (l : list (K * V)) k v : NoDup (map fst l) -> In (k, v) l -> Permutation l ((k, v) :: m_del keq l k).
  Proof.
    induction l as [ | [k' v'] l IH]; intros ND Hi; [inversion Hi | ]. cbn [map fst] in ND. inversion ND as [ | x y N1 N2]; subst.
    unfold m_del. cbn [filter fst]. destruct (kspec k' k) as [-> | Hn]; cbn [negb].
    - destruct Hi as [[= ->] | Hi]; [ | exfalso; apply N1; apply in_map_iff; exists (k, v); auto].
      fold (m_del keq l k). rewrite m_del_id by assumption. reflexivity.
    - destruct Hi as [[= -> ->] | Hi]; [contradiction | ]. fold (m_del keq l k). rewrite perm_swap. apply perm_skip. exact (IH N2 Hi).
  Qed.
  Lemma m_del_nodup (l : list (K * V)) k : NoDup (map fst l) -> NoDup (map fst (m_del keq l k)).
  Proof.
    induction l as [ | [k' v] l IH]; intros ND; [constructor | ]. cbn [map fst] in ND. inversion ND as [ | x y N1 N2]; subst.
    unfold m_del. cbn [filter fst]. destruct (kspec k' k); cbn [negb]; [exact (IH N2) | ]. cbn [map fst]. constructor; [ | exact (IH N2)].
    intros Hi. apply N1. apply in_map_iff in Hi. destruct Hi as ([k2 v2] & E & Hi). cbn in E. subst k2. apply m_del_in in Hi.
    apply in_map_iff. exists (k', v2). tauto.
  Qed.
  Lemma m_del_perm2 (l l' : list (K * V)) k : Permutation l l' -> Permutation (m_del keq l k) (m_del keq l' k).
  Proof.
    unfold m_del. induction 1 as [ | x l l' H IH | x y l | l l' l'' H IH H' IH'].
    - constructor.
    - cbn [filter]. destruct (negb _); [apply perm_skip | ]; exact IH.
    - cbn [filter]. destruct (negb (keq (fst x) k)), (negb (keq (fst y) k)); try apply perm_swap; reflexivity.
    - etransitivity; eassumption.
  Qed.

  Lemma m_get_perm (l l' : list (K * V)) k : NoDup (map fst l) -> Permutation l l' -> m_get keq l k = m_get keq l' k.
  Proof.
    intros ND PM. assert (ND' : NoDup (map fst l')) by (eapply Permutation_NoDup; [apply Permutation_map, PM | exact ND]).
    destruct (m_get keq l k) as [v | ] eqn:E.
    - symmetry. apply (m_get_in l' k v ND'). eapply Permutation_in; [exact PM | ]. apply m_get_in; assumption.
    - symmetry. apply m_get_none. apply m_get_none in E. intros Hi. apply E. eapply Permutation_in; [apply Permutation_map, Permutation_sym, PM | exact Hi].
  Qed.
End MAPL.

Section RUNP.
  Context {K V : Type} (keq : K -> K -> bool) (hash : K -> nat) (dflt : V).
  Hypothesis keq_ok : forall a b, keq a b = true <-> a = b.
  Context (e : K).
  Let kspec := keq_spec keq keq_ok.

  (** set the value of an occupied slot *)
  Lemma setval_ok B sz i k v v' : okb keq hash dflt e B sz -> k <> e -> i < length B -> nth i B (e, dflt) = (k, v) ->
    okb keq hash dflt e (upd B i (k, v')) sz /\ Permutation ((k, v) :: ent keq e (upd B i (k, v'))) ((k, v') :: ent keq e B).
  Proof.
    intros H Hk Hi E.
    assert (PM : Permutation ((k, v) :: ent keq e (upd B i (k, v'))) ((k, v') :: ent keq e B)).
    { pose proof (ent_upd keq hash dflt keq_ok e B i (k, v') Hi) as X. rewrite E in X. unfold occ in X. cbn [fst] in X.
      destruct (kspec k e); [contradiction | ]. exact X. }
    split; [ | exact PM].
    assert (KE : forall j, kat dflt e (upd B i (k, v')) j = kat dflt e B j).
    { intros j. rewrite (kat_upd keq hash dflt keq_ok e) by exact Hi. destruct (Nat.eqb_spec j i) as [-> | N]; [ | reflexivity]. unfold kat. rewrite E. reflexivity. }
    destruct H as [Hp P U L1 L2]. split.
    - rewrite upd_length. exact Hp.
    - rewrite upd_length. intros a b. rewrite !KE. apply P.
    - rewrite upd_length. intros a b. rewrite !KE. apply U.
    - pose proof (Permutation_length PM) as X. cbn [length] in X. lia.
    - rewrite upd_length. exact L2.
  Qed.

  (** [operator[]] *)
  Lemma access_ok {S} (f : S -> V -> S * V) s k B sz : okb keq hash dflt e B sz -> k <> e ->
    let v := match m_get keq (ent keq e B) k with Some v => v | None => dflt end in
    exists B' sz', hm_access keq hash dflt f s k (mk_hm e B sz) = Some (fst (f s v), snd (f s v), mk_hm e B' sz') /\
      okb keq hash dflt e B' sz' /\ (length (ent keq e B) = sz -> length (ent keq e B') = sz') /\
      Permutation (ent keq e B') ((k, snd (f s v)) :: m_del keq (ent keq e B) k).
  Proof.
    intros H Hk v. pose proof (ent_nodup keq hash dflt keq_ok e B (ok_uniq _ _ _ _ _ _ H)) as ND.
    destruct (emplace_ok keq hash dflt keq_ok e 0 B sz k dflt H Hk) as (B1 & sz1 & i & b & E & H1 & Hi & Ki & HS & C).
    destruct (nth_error_kat dflt e B1 i Hi) as (w & N1 & N2). rewrite Ki in N1, N2.
    pose proof (ent_nodup keq hash dflt keq_ok e B1 (ok_uniq _ _ _ _ _ _ H1)) as ND1.
    assert (W : w = v /\ Permutation (ent keq e B1) ((k, v) :: m_del keq (ent keq e B) k)).
    { destruct b.
      - destruct C as (N3 & NI & PM). rewrite N2 in N3. injection N3 as ->. unfold v.
        rewrite (proj2 (m_get_none keq keq_ok _ _) NI). rewrite (m_del_id keq keq_ok) by exact NI. auto.
      - destruct C as (HI & PM).
        assert (In (k, w) (ent keq e B)).
        { eapply Permutation_in; [exact PM | ]. apply (ent_in keq dflt keq_ok). split; [exact Hk | ]. exists i. auto. }
        unfold v. rewrite (proj2 (m_get_in keq keq_ok _ _ w ND) H0). split; [reflexivity | ]. rewrite PM. apply (m_del_perm keq keq_ok); assumption. }
    destruct W as [-> PM].
    unfold hm_access. rewrite E. cbn [obind h_buckets h_empty h_size]. rewrite N1. cbn [obind].
    destruct (f s v) as [s' v'] eqn:Ef. cbn [fst snd].
    destruct (setval_ok B1 sz1 i k v v' H1 Hk Hi N2) as [H2 PM2].
    exists (upd B1 i (k, v')), sz1. split; [reflexivity | ]. split; [exact H2 | ]. split.
    - intros X. pose proof (Permutation_length PM2) as Y. cbn [length] in Y. specialize (HS X). lia.
    - rewrite PM in PM2. apply (Permutation_cons_inv (a := (k, v))). rewrite PM2. apply perm_swap.
  Qed.
  (** the same with the empty key: the value is the default value, the contents stay *)
  Lemma access_empty {S} (f : S -> V -> S * V) s B sz : okb keq hash dflt e B sz ->
    exists B' sz', hm_access keq hash dflt f s e (mk_hm e B sz) = Some (fst (f s dflt), snd (f s dflt), mk_hm e B' sz') /\
      okb keq hash dflt e B' sz' /\ Permutation (ent keq e B') (ent keq e B).
  Proof.
    intros H. unfold hm_access.
    destruct (emplace_reserve keq hash dflt keq_ok e 0 B sz e dflt H) as (B1 & sz1 & H1 & HL & PM & Hs & Hse & E). rewrite E. clear E.
    destruct (emplace_empty keq hash dflt keq_ok e B1 sz1 dflt H1 HL) as (B2 & i & E & H2 & L2 & Hi & N2 & PM2). rewrite E.
    cbn [obind h_buckets h_empty h_size]. rewrite (nth_error_nth' _ (e, dflt) Hi), N2. cbn [obind].
    destruct (f s dflt) as [s' v'] eqn:Ef. cbn [fst snd].
    exists (upd B2 i (e, v')), (sz1 + 1). split; [reflexivity | ].
    assert (PM3 : Permutation (ent keq e (upd B2 i (e, v'))) (ent keq e B2)).
    { pose proof (ent_upd keq hash dflt keq_ok e B2 i (e, v') Hi) as X. rewrite N2 in X. unfold occ in X. cbn [fst] in X.
      destruct (kspec e e); [ | contradiction]. exact X. }
    assert (KE : forall j, kat dflt e (upd B2 i (e, v')) j = kat dflt e B2 j).
    { intros j. rewrite (kat_upd keq hash dflt keq_ok e) by exact Hi. destruct (Nat.eqb_spec j i) as [-> | N]; [ | reflexivity]. unfold kat. rewrite N2. reflexivity. }
    split; [ | rewrite PM3, PM2; exact PM].
    destruct H2 as [Hp P U L1 L3]. split.
    - rewrite upd_length. exact Hp.
    - rewrite upd_length. intros a b. rewrite !KE. apply P.
    - rewrite upd_length. intros a b. rewrite !KE. apply U.
    - rewrite (Permutation_length PM3). exact L1.
    - rewrite upd_length. exact L3.
  Qed.

  Definition rep (m : hm K V) (l : list (K * V)) : Prop :=
    exists B sz, m = mk_hm e B sz /\ okb keq hash dflt e B sz /\ length (ent keq e B) = sz /\ Permutation (ent keq e B) l.

  Lemma rep_nodup m l : rep m l -> NoDup (map fst l).
  Proof.
    intros (B & sz & _ & H & _ & PM). eapply Permutation_NoDup; [apply Permutation_map, PM | ].
    eapply (ent_nodup keq hash dflt keq_ok). apply H.
  Qed.
  Lemma rep_new count : rep (hm_new dflt count e) [].
  Proof.
    destruct (new_ok keq hash dflt keq_ok e count) as (B & E & H & EN & _). exists B, 0.
    split; [exact E | ]. split; [exact H | ]. rewrite EN. split; reflexivity.
  Qed.
  Lemma rep_find m l k : rep m l -> k <> e -> exists r, hm_find keq hash m k = Some r /\
    match r with
    | Some i => exists B sz v, m = mk_hm e B sz /\ i < length B /\ nth i B (e, dflt) = (k, v) /\ m_get keq l k = Some v
    | None => m_get keq l k = None end.
  Proof.
    intros R Hk. pose proof (rep_nodup _ _ R) as ND. destruct R as (B & sz & -> & H & HS & PM).
    destruct (find_ok keq hash dflt keq_ok e B sz k H Hk) as (r & E & C). exists r. split; [exact E | ].
    destruct r as [i | ].
    - destruct C as [Hi Ki]. destruct (nth_error_kat dflt e B i Hi) as (v & _ & N). rewrite Ki in N.
      exists B, sz, v. split; [reflexivity | ]. split; [exact Hi | ]. split; [exact N | ].
      apply (m_get_in keq keq_ok); [exact ND | ]. eapply Permutation_in; [exact PM | ]. apply (ent_in keq dflt keq_ok). split; [exact Hk | ]. exists i. auto.
    - apply (m_get_none keq keq_ok). intros Hi. assert (Hi2 : In k (map fst (ent keq e B))) by (eapply Permutation_in; [apply Permutation_map, Permutation_sym, PM | exact Hi]).
      apply (ent_key keq dflt keq_ok) in Hi2. destruct Hi2 as [_ (i & Hi2 & Ki)]. exact (C i Hi2 Ki).
  Qed.

  Lemma rep_op m l o : rep m l -> (forall k, op_key o = Some k -> k <> e) ->
    exists m' l' a, hm_op keq hash dflt m o = Some (m', a) /\ rep m' l' /\ m_step keq dflt l o = (l', a).
  Proof.
    intros R HK. pose proof (rep_nodup _ _ R) as ND. destruct o; cbn [op_key] in HK; try specialize (HK k eq_refl); cbn [hm_op m_step].
    - (* insert *)
      destruct R as (B & sz & -> & H & HS & PM). unfold hm_insert.
      destruct (emplace_ok keq hash dflt keq_ok e 0 B sz k v H HK) as (B1 & sz1 & i & b & E & H1 & Hi & Ki & HS1 & C). rewrite E. cbn [obind].
      destruct b.
      + destruct C as (N2 & NI & PM1).
        assert (G : m_get keq l k = None). { apply (m_get_none keq keq_ok). intros X. apply NI. eapply Permutation_in; [apply Permutation_map, Permutation_sym, PM | exact X]. }
        rewrite G. eexists _, _, _. split; [reflexivity | ]. split; [ | reflexivity].
        exists B1, sz1. split; [reflexivity | ]. split; [exact H1 | ]. split; [exact (HS1 HS) | ]. rewrite PM1, PM. reflexivity.
      + destruct C as (HI & PM1).
        destruct (m_get keq l k) as [w | ] eqn:G.
        * eexists _, _, _. split; [reflexivity | ]. split; [ | reflexivity].
          exists B1, sz1. split; [reflexivity | ]. split; [exact H1 | ]. split; [exact (HS1 HS) | ]. rewrite PM1, PM. reflexivity.
        * exfalso. apply (m_get_none keq keq_ok) in G. apply G. eapply Permutation_in; [apply Permutation_map, PM | exact HI].
    - (* update *)
      destruct R as (B & sz & -> & H & HS & PM).
      destruct (access_ok (fun (s : unit) v => (s, g v)) tt k B sz H HK) as (B1 & sz1 & E & H1 & HS1 & PM1). cbn [fst snd] in *.
      rewrite E. cbn [obind].
      rewrite (m_get_perm keq keq_ok (ent keq e B) l k (ent_nodup keq hash dflt keq_ok e B (ok_uniq _ _ _ _ _ _ H)) PM) in *.
      eexists _, _, _. split; [reflexivity | ]. split; [ | reflexivity].
      exists B1, sz1. split; [reflexivity | ]. split; [exact H1 | ]. split; [exact (HS1 HS) | ]. rewrite PM1. apply perm_skip. apply m_del_perm2. exact PM.
    - (* erase *)
      destruct (rep_find m l k R HK) as (r & E & C). unfold hm_erase. rewrite E. cbn [obind]. destruct r as [i | ].
      + destruct C as (B & sz & v & -> & Hi & N & G). rewrite G.
        destruct R as (B0 & sz0 & [= <- <-] & H & HS & PM).
        assert (Kn : kat dflt e B i <> e) by (unfold kat; rewrite N; exact HK).
        destruct (erase_at keq hash dflt keq_ok e B sz i H Hi Kn) as (B' & E' & H' & PM').
        cbn [h_buckets]. rewrite E'. cbn [obind]. eexists _, _, _. split; [reflexivity | ]. split; [ | reflexivity].
        pose proof (rest_perm keq hash dflt keq_ok e i B Hi Kn) as RP. rewrite N in RP.
        exists B', (sz - 1). split; [reflexivity | ]. split; [exact H' | ].
        assert (X : Permutation (ent keq e B') (m_del keq l k)).
        { rewrite PM'. apply (Permutation_cons_inv (a := (k, v))). rewrite <- RP, PM. apply (m_del_perm keq keq_ok); [exact ND | ].
          apply (m_get_in keq keq_ok); assumption. }
        split; [ | exact X]. pose proof (Permutation_length PM'). pose proof (Permutation_length RP) as Y. cbn [length] in Y. lia.
      + rewrite C. eexists _, _, _. split; [reflexivity | ]. split; [ | reflexivity].
        rewrite (m_del_id keq keq_ok); [exact R | ]. apply (m_get_none keq keq_ok). exact C.
    - (* clear *)
      eexists _, _, _. split; [reflexivity | ]. split; [ | reflexivity].
      destruct R as (B & sz & -> & _). unfold hm_clear. cbn [h_buckets h_empty]. apply rep_new.
    - (* rehash *)
      destruct R as (B & sz & -> & H & HS & PM). unfold hm_rehash. cbn [h_size h_empty].
      destruct (rehash_gen keq hash dflt keq_ok e 1 B sz (Nat.max n (sz * 2)) H) as (B1 & sz1 & E1 & H1 & HL & Hz & PM1); [lia | ].
      rewrite E1. cbn [obind]. eexists _, _, _. split; [reflexivity | ]. split; [ | reflexivity].
      exists B1, sz1. split; [reflexivity | ]. split; [exact H1 | ]. rewrite (Permutation_length PM1). split; [auto | rewrite PM1; exact PM].
    - (* reserve *)
      destruct R as (B & sz & -> & H & HS & PM). unfold hm_reserve, hm_rehash. cbn [h_size h_empty h_buckets].
      destruct (_ <? _).
      + destruct (rehash_gen keq hash dflt keq_ok e 1 B sz (Nat.max (n * 2) (sz * 2)) H) as (B1 & sz1 & E1 & H1 & HL & Hz & PM1); [lia | ].
        rewrite E1. cbn [obind]. eexists _, _, _. split; [reflexivity | ]. split; [ | reflexivity].
        exists B1, sz1. split; [reflexivity | ]. split; [exact H1 | ]. rewrite (Permutation_length PM1). split; [auto | rewrite PM1; exact PM].
      + cbn [obind]. eexists _, _, _. split; [reflexivity | ]. split; [ | reflexivity].
        exists B, sz. auto.
    - (* at *)
      destruct (rep_find m l k R HK) as (r & E & C). unfold hm_at. rewrite E. cbn [obind]. destruct r as [i | ].
      + destruct C as (B & sz & v & -> & Hi & N & G). rewrite G. cbn [h_buckets]. rewrite (nth_error_nth' _ (e, dflt) Hi), N. cbn [obind].
        eexists _, _, _. split; [reflexivity | ]. split; [exact R | reflexivity].
      + rewrite C. cbn [obind]. eexists _, _, _. split; [reflexivity | ]. split; [exact R | reflexivity].
    - (* count *)
      destruct (rep_find m l k R HK) as (r & E & C). unfold hm_count. rewrite E. cbn [obind]. destruct r as [i | ].
      + destruct C as (B & sz & v & -> & Hi & N & G). rewrite G. eexists _, _, _. split; [reflexivity | ]. split; [exact R | reflexivity].
      + rewrite C. eexists _, _, _. split; [reflexivity | ]. split; [exact R | reflexivity].
    - (* size *)
      eexists _, _, _. split; [reflexivity | ]. split; [exact R | ].
      destruct R as (B & sz & -> & H & HS & PM). cbn [h_size]. rewrite <- (Permutation_length PM), HS. reflexivity.
  Qed.
  Lemma rep_run : forall os m l, rep m l -> (forall o k, In o os -> op_key o = Some k -> k <> e) ->
    exists m' l' a, hm_run keq hash dflt m os = Some (m', a) /\ rep m' l' /\ m_run keq dflt l os = (l', a).
  Proof.
    induction os as [ | o os IH]; intros m l R HK; cbn [hm_run m_run].
    - exists m, l, []. auto.
    - destruct (rep_op m l o R) as (m1 & l1 & a1 & E1 & R1 & S1); [intros k; apply HK; left; reflexivity | ].
      destruct (IH m1 l1 R1) as (m2 & l2 & a2 & E2 & R2 & S2); [intros o' k Hi; apply HK; right; exact Hi | ].
      rewrite E1, S1. cbn [obind]. rewrite E2, S2. cbn [obind]. eexists _, _, _. split; [reflexivity | ]. split; [exact R2 | reflexivity].
  Qed.
End RUNP.
