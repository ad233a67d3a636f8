(** Looking up, iterating and growing. *)
From Verif Require Import Base CompactHash CompactSparseProofs CompactGroupProofs CompactInsertProofs CompactTableProofs CompactCoreProofs CompactKeyProofs.

Lemma A_mod t a : a < cap t -> (a + cap t) mod cap t = a.
Proof. intros H. replace (a + cap t) with (a + 1 * cap t) by lia. rewrite Nat.mod_add by lia. apply Nat.mod_small. auto. Qed.
Lemma lookup_ok t dd key a q : tinv t dd -> t_size t < cap t -> decompose t key = (a, q) -> a < cap t ->
  (exists v, lookup t key = Some (Some v) /\ hasq (tsl t) dd a q v) \/ (lookup t key = Some None /\ forall v, ~ hasq (tsl t) dd a q v).
Proof.
  intros H Hs Hd Ha. set (A := a + cap t). assert (HA : cap t <= A) by (unfold A; lia). pose proof (A_mod t a Ha) as EA. fold A in EA.
  pose proof (ti_g _ _ H) as G. pose proof (ti_shp _ _ H) as Sh. assert (Hx : forall q' v', hasq (tsl t) dd a q' v' <-> hasq (tsl t) dd A q' v').
  { intros q' v'. apply (hasq_cong (cap t)); [apply cap_pos|apply per_sl|apply (g_pd _ _ _ _ _ G)|]. rewrite EA. apply Nat.mod_small. auto. }
  destruct (term_ex t dd A H Hs) as (k & Hk & He & Ho). set (term := A + k) in *.
  unfold lookup, search. rewrite Hd. cbv beta iota. pose proof (get_v_ix t A Sh) as Hxv. rewrite EA in Hxv. rewrite Hxv. cbn [obind]. destruct (tvv t A) eqn:Ev.
  - assert (Hterm : A < term < A + cap t). { unfold term in *. destruct k; [exfalso; apply (v_full t dd A H HA Ev); rewrite Nat.add_0_r in He; auto|lia]. }
    destruct (search_group_ok t dd A term Sh (g0 _ _ _ _ _ G) (g1 _ _ _ _ _ G) (g2 _ _ _ _ _ G)) as (gs & ge & S1 & S2 & S3 & S4 & S5 & S6); auto.
    { intros b _. apply (g3 _ _ _ _ _ G). }
    rewrite EA in S1. rewrite S1. cbn [obind g_start g_end].
    destruct (group_exact t dd A term gs ge (g0 _ _ _ _ _ G) (g1 _ _ _ _ _ G) (g2 _ _ _ _ _ G) HA Hterm Ho He S2 S3 S4 S5 S6) as (Hgs & Hex); [apply (g3 _ _ _ _ _ G); auto|].
    pose proof S2 as (G1 & G2 & G3).
    destruct (search_in_ok t q Sh (ge - gs) gs (cap t)) as [(F1 & F2)|(j & v0 & F1 & F2 & F3)]; [lia|lia|intros; apply Ho; lia| |]; replace (gs + (ge - gs)) with ge in * by lia.
    + rewrite F1. cbn [obind]. right. split; [reflexivity|]. intros v0 X. apply Hx in X. destruct X as (d & D1 & D2). assert (gs <= A + d < ge) by (apply Hex; split; [congruence|auto]). apply (F2 (A + d) v0); auto.
    + rewrite F3. cbn [obind]. left. exists v0. rewrite (get_loc _ _ _ F2). cbn [obind snd]. split; [reflexivity|]. apply Hx.
      assert (Hj : tsl t (A + (j - A)) <> None /\ dd (A + (j - A)) = j - A) by (apply Hex; lia). exists (j - A). replace (A + (j - A)) with j in * by lia. tauto.
  - right. split; [reflexivity|]. intros v0 X. apply Hx in X. destruct X as (d & D1 & D2). rewrite (v_home t dd A d q v0 H D1 D2) in Ev. discriminate.
Qed.

(** ** the iterator *)
(** between the homes of neighbouring elements there is no other home *)
Lemma no_v_between t dd i b : tinv t dd -> cap t <= i -> tsl t i <> None -> tsl t (S i) <> None -> i - dd i < b < S i - dd (S i) -> tvv t b = false.
Proof.
  intros H Hi O1 O2 Hb. pose proof (ti_g _ _ H) as G. destruct (tvv t b) eqn:E; [|auto]. exfalso. apply (g3 _ _ _ _ _ G) in E. destruct E as (d & D1 & D2).
  pose proof (g0 _ _ _ _ _ G i) as L1. pose proof (g0 _ _ _ _ _ G (S i)) as L2. pose proof (g0 _ _ _ _ _ G (b + d)) as L3.
  assert (B1 : forall j, i - dd i <= j <= i -> tsl t j <> None).
  { intros j Hj. destruct (run_back (cap t) (tsl t) (tcc t) (tvv t) dd (g0 _ _ _ _ _ G) (g1 _ _ _ _ _ G) (i - j) i) as [X _]; [lia|auto|lia|]. replace (i - (i - j)) with j in X by lia. auto. }
  assert (B2 : cap t <= b + d -> forall j, b <= j <= b + d -> tsl t j <> None).
  { intros Hbd j Hj. destruct (run_back (cap t) (tsl t) (tcc t) (tvv t) dd (g0 _ _ _ _ _ G) (g1 _ _ _ _ _ G) (b + d - j) (b + d)) as [X _]; [lia|auto|lia|]. replace (b + d - (b + d - j)) with j in X by lia. auto. }
  destruct (Nat.le_gt_cases (b + d) i) as [Hc|Hc].
  - pose proof (hh_le (cap t) (tsl t) (tcc t) (tvv t) dd (i - dd i) (S i) (g0 _ _ _ _ _ G) (g1 _ _ _ _ _ G) (g2 _ _ _ _ _ G) ltac:(intros j Hj; apply B1; lia) (b + d) i ltac:(lia) Hc ltac:(lia)). lia.
  - pose proof (hh_le (cap t) (tsl t) (tcc t) (tvv t) dd (S i) (S (b + d)) (g0 _ _ _ _ _ G) (g1 _ _ _ _ _ G) (g2 _ _ _ _ _ G) ltac:(intros j Hj; apply B2; lia) (S i) (b + d) ltac:(lia) ltac:(lia) ltac:(lia)). lia.
Qed.

(** a table in the middle of growing: the same flags, and the buckets ahead are still there *)
Definition ahead (t tc : tbl) (i j : nat) : Prop :=
  t_log tc = t_log t /\ t_cv tc = t_cv t /\ t_width tc = t_width t /\ (forall x, i <= x <= j -> sparse_exists (t_bs tc) (x mod cap t) = Some (occb (tsl t) x)).
Lemma ahead_cap t tc i j : ahead t tc i j -> cap tc = cap t.
Proof. intros (H & _). unfold cap. rewrite H. reflexivity. Qed.
Lemma ahead_c t tc i j x : shp t -> ahead t tc i j -> get_c tc (x mod cap t) = Some (tcc t x).
Proof. intros Sh (_ & H & _). rewrite <- get_c_ix by auto. unfold get_c. rewrite H. reflexivity. Qed.
Lemma ahead_v t tc i j x : shp t -> ahead t tc i j -> get_v tc (x mod cap t) = Some (tvv t x).
Proof. intros Sh (_ & H & _). rewrite <- get_v_ix by auto. unfold get_v. rewrite H. reflexivity. Qed.
Lemma ahead_add t tc i j x : ahead t tc i j -> mod_add tc (x mod cap t) = S x mod cap t.
Proof. intros H. rewrite <- (ahead_cap _ _ _ _ H). apply mod_add_ix. Qed.
Lemma ahead_sub t tc i j x : ahead t tc i j -> mod_sub tc (S x mod cap t) = x mod cap t.
Proof. intros H. rewrite <- (ahead_cap _ _ _ _ H). apply mod_sub_ix. Qed.

Lemma skip_empty_ok t tc st lo : ahead t tc lo (st + 2 * cap t) -> shp t -> st < cap t -> tsl t st = None -> forall k i fuel home full, lo <= i -> st + cap t < i -> i + k <= st + 2 * cap t -> (forall x, i <= x < i + k -> tsl t x = None) ->
  (tsl t (i + k) <> None \/ i + k = st + 2 * cap t) -> k < fuel ->
  exists full', skip_empty fuel tc (mk_iter (i mod cap t) st home full) = Some (if occb (tsl t) (i + k) then mk_iter ((i + k) mod cap t) st ((i + k - 1) mod cap t) true else mk_iter ((i + k) mod cap t) st home full', occb (tsl t) (i + k)).
Proof.
  intros Ha Sh Hst Est. assert (Hend : tsl t (st + 2 * cap t) = None).
  { replace (st + 2 * cap t) with (st + cap t + cap t) by lia. rewrite !(per_sl t). auto. }
  induction k as [|k IH]; intros i fuel home full Hlo Hi Hk Hem Hstop Hf; (destruct fuel as [|fuel]; [lia|]); cbn [skip_empty i_i i_start i_home].
  - rewrite !Nat.add_0_r in *. rewrite (proj2 (proj2 (proj2 Ha)) i) by lia. cbn [obind]. unfold occb. destruct (tsl t i) as [e|] eqn:E.
    + exists full. destruct i as [|i]; [lia|]. rewrite (ahead_sub _ _ _ _ _ Ha). replace (S i - 1) with i by lia. reflexivity.
    + exists full. destruct Hstop as [X|X]; [congruence|]. replace (i mod cap t =? st) with true; [reflexivity|]. symmetry. apply Nat.eqb_eq. rewrite X. rewrite Nat.mod_add by (pose proof (cap_pos t); lia). apply Nat.mod_small. auto.
  - rewrite (proj2 (proj2 (proj2 Ha)) i) by lia. cbn [obind]. unfold occb at 1. rewrite (Hem i) by lia.
    replace (i mod cap t =? st) with false.
    2: { symmetry. apply Nat.eqb_neq. intros E. assert (X : i = st + 2 * cap t); [|lia]. eapply (win_inj (cap t) (st + cap t + 1)); [lia|lia|]. rewrite E. rewrite Nat.mod_add by lia. symmetry. apply Nat.mod_small. auto. }
    rewrite (ahead_add _ _ _ _ _ Ha). destruct (IH (S i) fuel home false) as (f & F); [lia|lia|lia|intros; apply Hem; lia|replace (S i + k) with (i + S k) by lia; auto|lia|].
    replace (S i + k) with (i + S k) in F by lia. exists f. exact F.
Qed.
Lemma next_v_ok t tc lo hi : ahead t tc lo hi -> shp t -> forall k b fuel, (forall x, b <= x < b + k -> tvv t x = false) -> tvv t (b + k) = true -> k < fuel -> next_v fuel tc (b mod cap t) = Some ((b + k) mod cap t).
Proof.
  intros Ha Sh. induction k as [|k IH]; intros b fuel Hn Hv Hf; (destruct fuel as [|fuel]; [lia|]); cbn [next_v]; rewrite (ahead_v _ _ _ _ _ Sh Ha); cbn [obind].
  - rewrite Nat.add_0_r in *. rewrite Hv. reflexivity.
  - rewrite (Hn b) by lia. rewrite (ahead_add _ _ _ _ _ Ha). rewrite IH; [do 2 f_equal; lia|intros; apply Hn; lia|replace (S b + k) with (b + S k) by lia; auto|lia].
Qed.
Definition it_state (t : tbl) (dd : nat -> nat) (st i : nat) (it : iter) : Prop :=
  i_i it = i mod cap t /\ i_start it = st /\ (i_full it = true -> tsl t (i - 1) <> None /\ i_home it = (i - 1 - dd (i - 1)) mod cap t) /\ (i_full it = false -> tsl t (i - 1) = None).
Lemma iter_next_ok t tc dd st i k it : tinv t dd -> st < cap t -> tsl t st = None -> it_state t dd st i it -> ahead t tc i (st + 2 * cap t) ->
  st + cap t < i -> i + k <= st + 2 * cap t -> (forall x, i <= x < i + k -> tsl t x = None) -> (tsl t (i + k) <> None \/ i + k = st + 2 * cap t) ->
  exists it', iter_next tc it = Some (it', if occb (tsl t) (i + k) then Some ((i + k - dd (i + k)) mod cap t, (i + k) mod cap t) else None) /\
    (occb (tsl t) (i + k) = true -> it_state t dd st (S (i + k)) it').
Proof.
  intros H Hst Est (I1 & I2 & I3 & I4) Ha Hi Hk Hem Hstop. pose proof (ti_g _ _ H) as G. pose proof (ti_shp _ _ H) as Sh. pose proof (cap_pos t) as Hn.
  assert (HC : cap tc = cap t) by (apply (ahead_cap _ _ _ _ Ha)).
  assert (V : forall x, st + cap t < x -> tsl t x <> None -> tvv t (x - dd x) = true).
  { intros x Hx Ho. apply (g3 _ _ _ _ _ G). exists (dd x). pose proof (g0 _ _ _ _ _ G x). replace (x - dd x + dd x) with x by lia. auto. }
  destruct it as [ii is ih fl]. cbn [i_i i_start i_home i_full] in *. subst ii is. unfold iter_next. cbn [i_full i_i].
  (* the two ways to a full slot *)
  assert (After : forall home, occb (tsl t) (i + k) = true -> tsl t (i + k - 1) = None -> home = (i + k - 1) mod cap t ->
    (do c <- get_c tc ((i + k) mod cap t);
     do h <- (if c then next_v (S (cap tc)) tc (mod_add tc home) else Some home);
     Some (mk_iter (mod_add tc ((i + k) mod cap t)) st h true, Some (h, (i + k) mod cap t))) =
    Some (mk_iter (S (i + k) mod cap t) st ((i + k - dd (i + k)) mod cap t) true, Some ((i + k - dd (i + k)) mod cap t, (i + k) mod cap t))).
  { intros home Ho Hp ->. set (x := i + k) in *. assert (Hx1 : st + cap t < x) by (unfold x; lia). clearbody x. clear Hem Hstop Hk. assert (Hx : tsl t x <> None) by (unfold occb in Ho; destruct (tsl t x); [discriminate|discriminate]).
    assert (Hd : dd x = 0). { destruct x as [|y]; [lia|]. replace (S y - 1) with y in Hp by lia. destruct (Nat.eq_dec (dd (S y)) 0) as [|Hz]; [auto|]. destruct (g1 _ _ _ _ _ G y Hx ltac:(lia)). contradiction. }
    assert (Hc : tcc t x = true). { destruct x as [|y]; [lia|]. apply (g2 _ _ _ _ _ G). split; [auto|]. lia. }
    rewrite (ahead_c _ _ _ _ _ Sh Ha), Hc. cbn [obind]. assert (Ex : S (x - 1) = x) by lia. rewrite (ahead_add _ _ _ _ _ Ha), Ex.
    rewrite (next_v_ok t tc _ _ Ha Sh 0 x); [|intros; lia|rewrite Nat.add_0_r; pose proof (V x ltac:(lia) Hx) as V'; rewrite Hd, Nat.sub_0_r in V'; auto|lia]. cbn [obind]. rewrite Nat.add_0_r, (ahead_add _ _ _ _ _ Ha), Hd, Nat.sub_0_r. reflexivity. }
  assert (Skip : forall home, (occb (tsl t) (i + k) = true -> tsl t (i + k - 1) = None) -> exists it',
     (do (it, found) <- skip_empty (S (cap tc)) tc (mk_iter (i mod cap t) st home fl);
      if found then
        do c <- get_c tc (i_i it);
        do home <- (if c then next_v (S (cap tc)) tc (mod_add tc (i_home it)) else Some (i_home it));
        Some (mk_iter (mod_add tc (i_i it)) (i_start it) home true, Some (home, i_i it))
      else Some (it, None)) = Some (it', if occb (tsl t) (i + k) then Some ((i + k - dd (i + k)) mod cap t, (i + k) mod cap t) else None) /\
      (occb (tsl t) (i + k) = true -> it_state t dd st (S (i + k)) it')).
  { intros home Hpe. destruct (skip_empty_ok t tc st i Ha Sh Hst Est k i (S (cap tc)) home fl) as (f & F); auto; [lia|]. rewrite F. cbn [obind]. destruct (occb (tsl t) (i + k)) eqn:Eo.
    - cbn [i_i i_home i_start]. rewrite (After _ eq_refl (Hpe eq_refl) eq_refl).
      eexists. split; [reflexivity|]. intros _. split; [reflexivity|]. split; [reflexivity|]. cbn [i_home i_full]. replace (S (i + k) - 1) with (i + k) by lia. split; [|discriminate]. intros _. split; [|reflexivity]. unfold occb in Eo. destruct (tsl t (i + k)); discriminate.
    - eexists. split; [reflexivity|]. discriminate. }
  destruct fl.
  - destruct (I3 eq_refl) as [P1 P2]. rewrite (proj2 (proj2 (proj2 Ha)) i) by lia. cbn [obind]. destruct (occb (tsl t) i) eqn:Eo.
    + assert (k = 0). { destruct k; [auto|]. unfold occb in Eo. rewrite (Hem i) in Eo by lia. discriminate. } subst k. rewrite Nat.add_0_r in *. rewrite Eo. cbn [obind i_i i_home i_start].
      assert (Hx : tsl t i <> None) by (unfold occb in Eo; destruct (tsl t i); [discriminate|discriminate]). rewrite (ahead_c _ _ _ _ _ Sh Ha). cbn [obind].
      destruct i as [|y]; [lia|]. replace (S y - 1) with y in * by lia. pose proof (g0 _ _ _ _ _ G y). pose proof (g0 _ _ _ _ _ G (S y)).
      assert (X : (if tcc t (S y) then next_v (S (cap tc)) tc (mod_add tc ih) else Some ih) = Some ((S y - dd (S y)) mod cap t)).
      { destruct (tcc t (S y)) eqn:Ec.
        - apply (g2 _ _ _ _ _ G) in Ec. destruct Ec as [_ Ec]. assert (Hle : dd (S y) <= S (dd y)). { destruct (Nat.eq_dec (dd (S y)) 0) as [->|Hz]; [lia|]. destruct (g1 _ _ _ _ _ G y Hx ltac:(lia)). auto. }
          rewrite P2, (ahead_add _ _ _ _ _ Ha). rewrite (next_v_ok t tc _ _ Ha Sh (S y - dd (S y) - S (y - dd y))).
          + do 2 f_equal. lia.
          + intros b Hb. apply (no_v_between t dd y b H); auto; lia.
          + replace (S (y - dd y) + (S y - dd (S y) - S (y - dd y))) with (S y - dd (S y)) by lia. apply V; auto; lia.
          + lia.
        - rewrite P2. do 2 f_equal. destruct (Nat.eq_dec (dd (S y)) (S (dd y))) as [->|Hz]; [lia|]. assert (tcc t (S y) = true) by (apply (g2 _ _ _ _ _ G); auto). congruence. }
      rewrite X. cbn [obind]. rewrite (ahead_add _ _ _ _ _ Ha). eexists. split; [reflexivity|]. intros _. split; [reflexivity|]. split; [reflexivity|]. cbn [i_home i_full]. replace (S (S y) - 1) with (S y) by lia. split; [auto|discriminate].
    + apply Skip. intros Hx. destruct k; [rewrite Nat.add_0_r in Hx; congruence|]. apply Hem. lia.
  - cbn [obind]. apply Skip. intros Hx. destruct k; [rewrite Nat.add_0_r; auto|]. apply Hem. lia.
Qed.

(** ** the re-insertion *)
Fixpoint elems (t : tbl) (dd : nat -> nat) (i k : nat) : list (N * N) :=
  match k with
  | O => []
  | S k => match tsl t i with
           | Some (q, v) => (compose t ((i - dd i) mod cap t) q, v) :: elems t dd (S i) k
           | None => elems t dd (S i) k
           end
  end.
Fixpoint reins (l : list (N * N)) (nt : tbl) : option tbl :=
  match l with
  | [] => Some nt
  | (k, v) :: l => if needs_realloc nt (t_width nt) then None else do (nt, _) <- insert_core nt k v; reins l nt
  end.
Lemma elems_skip t dd : forall k i m, (forall x, i <= x < i + k -> tsl t x = None) -> elems t dd i (k + m) = elems t dd (i + k) m.
Proof.
  induction k as [|k IH]; intros i m H; [rewrite Nat.add_0_r; reflexivity|]. cbn [plus elems]. rewrite (H i) by lia. rewrite IH; [f_equal; lia|]. intros x Hx. apply H. lia.
Qed.
Lemma first_some (sl : nat -> option (N * N)) i : forall m, exists k, k <= m /\ (forall x, i <= x < i + k -> sl x = None) /\ (sl (i + k) <> None \/ k = m).
Proof.
  induction m as [|m IH]; [exists 0; split; [auto|]; split; [intros; lia|auto]|]. destruct IH as (k & K1 & K2 & K3). destruct K3 as [K3| ->].
  - exists k. split; [lia|]. split; [auto|auto].
  - destruct (sl (i + m)) eqn:E; [exists m; split; [lia|]; split; [auto|]; left; congruence|]. exists (S m). split; [lia|]. split; [|auto]. intros x Hx. destruct (Nat.eq_dec x (i + m)) as [->|]; [auto|apply K2; lia].
Qed.
Lemma off_zero bs p p' : wf_bs bs -> slot bs p' <> None -> p' / 64 = p / 64 -> snd (loc_of bs p) = 0 -> p <= p'.
Proof.
  intros W Hs Hb Ho. destruct (Nat.le_gt_cases p p') as [|Hc]; [auto|exfalso]. destruct (nth_error bs (p / 64)) as [bk|] eqn:E.
  - unfold loc_of in Ho. rewrite E in Ho. cbn [snd] in Ho. rewrite <- Hb in E. rewrite (slot_pos bs p' bk E) in Hs. destruct (N.testbit (fst bk) (N.of_nat (p' mod 64))) eqn:Et; [|congruence].
    pose proof (bits_below_lt (fst bk) (p' mod 64) (p mod 64)) as X. pose proof (Nat.div_mod p 64). pose proof (Nat.div_mod p' 64). rewrite Hb in *. assert (p' mod 64 < p mod 64) by lia. specialize (X H1 Et). lia.
  - unfold slot, sparse_pos in Hs. rewrite Hb, E in Hs. apply Hs. reflexivity.
Qed.
Definition kept (t : tbl) (bs : list bucket) (i j : nat) : Prop :=
  length bs = length (t_bs t) /\ forall b, nth_error bs b = nth_error (t_bs t) b \/ (nth_error bs b = Some (0%N, []) /\ forall x, i <= x < j -> tsl t x <> None -> (x mod cap t) / 64 <> b).
Lemma kept_weaken t bs i i' j : kept t bs i j -> i <= i' -> kept t bs i' j.
Proof. intros [H1 H2] Hi. split; [auto|]. intros b. destruct (H2 b) as [X|[X Y]]; [auto|]. right. split; [auto|]. intros x Hx. apply Y. lia. Qed.
Lemma sparse_exists_same bs bs' p : nth_error bs' (p / 64) = nth_error bs (p / 64) -> sparse_exists bs' p = sparse_exists bs p.
Proof. intros H. unfold sparse_exists, sparse_pos. rewrite H. destruct (nth_error bs (p / 64)); reflexivity. Qed.
Lemma kept_ahead t bs i st : shp t -> st < cap t -> tsl t st = None -> kept t bs i (st + 2 * cap t) -> ahead t (set_bs t bs) i (st + 2 * cap t).
Proof.
  intros Sh Hst Est [H1 H2]. split; [reflexivity|]. split; [reflexivity|]. split; [reflexivity|]. intros x Hx. cbn [set_bs t_bs].
  assert (X0 : sparse_exists (t_bs t) (x mod cap t) = Some (occb (tsl t) x)).
  { destruct (exists_ix t x Sh) as (b & B1 & B2). rewrite B1. f_equal. unfold occb. destruct (tsl t x) eqn:E; [apply B2; discriminate|]. destruct b; [|auto]. exfalso. apply (proj1 B2); auto. }
  destruct (H2 ((x mod cap t) / 64)) as [X|[X Y]]; [rewrite (sparse_exists_same _ _ _ X); auto|].
  assert (E : tsl t x = None).
  { destruct (Nat.eq_dec x (st + 2 * cap t)) as [->|Hn]; [replace (st + 2 * cap t) with (st + cap t + cap t) by lia; rewrite !(per_sl t); auto|].
    destruct (tsl t x) eqn:E; [|auto]. exfalso. apply (Y x); [lia|congruence|auto]. }
  unfold sparse_exists, sparse_pos. rewrite X. cbn [obind sp_exists fst]. rewrite N.bits_0. unfold occb. rewrite E. reflexivity.
Qed.
Definition drop_ok (t : tbl) (st i : nat) (drop : option nat) : Prop :=
  forall b, drop = Some b -> exists f, st + cap t < f < i /\ tsl t f <> None /\ (f mod cap t) / 64 = b /\ forall x, tsl t x <> None -> (x mod cap t) / 64 = b -> f mod cap t <= x mod cap t.
Lemma mod_two n x : n <= x < 3 * n -> x mod n = if x <? 2 * n then x - n else x - 2 * n.
Proof. intros H. destruct (Nat.ltb_spec x (2 * n)); symmetry; [apply (Nat.mod_unique _ _ 1)|apply (Nat.mod_unique _ _ 2)]; lia. Qed.

Lemma grow_loop_ok t dd st : tinv t dd -> st < cap t -> tsl t st = None -> forall m i fuel bs it drop nt, i + m = st + 2 * cap t -> st + cap t < i -> m < fuel ->
  it_state t dd st i it -> kept t bs i (st + 2 * cap t) -> drop_ok t st i drop -> grow_loop fuel (set_bs t bs) it drop nt = reins (elems t dd i m) nt.
Proof.
  intros H Hst Est. pose proof (ti_g _ _ H) as G. pose proof (ti_shp _ _ H) as Sh. pose proof Sh as (W & L & B). pose proof (cap_pos t) as Hn.
  assert (Hend : tsl t (st + 2 * cap t) = None) by (replace (st + 2 * cap t) with (st + cap t + cap t) by lia; rewrite !(per_sl t); auto).
  induction m as [m IH] using lt_wf_ind. intros i fuel bs it drop nt Hm Hi Hf Hit Hk Hdr. destruct fuel as [|fuel]; [lia|]. cbn [grow_loop].
  destruct (first_some (tsl t) i m) as (k & K1 & K2 & K3).
  destruct (iter_next_ok t (set_bs t bs) dd st i k it H Hst Est Hit (kept_ahead t bs i st Sh Hst Est Hk) Hi ltac:(lia) K2) as (it' & N1 & N2); [destruct K3 as [K3| ->]; auto|].
  rewrite N1. cbn [obind]. unfold occb in N2 |- *. destruct (tsl t (i + k)) as [e|] eqn:E.
  2: { destruct K3 as [K3| ->]; [congruence|]. replace m with (m + 0) by lia. rewrite elems_skip by auto. reflexivity. }
  set (x := i + k) in *. assert (Hkm : k < m). { destruct (Nat.eq_dec k m) as [->|]; [|lia]. unfold x in E. rewrite Hm in E. congruence. }
  assert (Hx : i <= x < st + 2 * cap t) by (unfold x; lia). pose proof (ix_lt t x) as Hxp. set (p := x mod cap t) in *.
  assert (Hsl : slot (t_bs t) p = Some e) by exact E.
  assert (Hb : nth_error bs (p / 64) = nth_error (t_bs t) (p / 64)). { destruct (proj2 Hk (p / 64)) as [X|[_ Y]]; [auto|]. exfalso. apply (Y x); auto. congruence. }
  assert (Hsp : sparse_pos (t_bs (set_bs t bs)) p = sparse_pos (t_bs t) p) by (unfold sparse_pos; cbn [set_bs t_bs]; rewrite Hb; reflexivity). rewrite Hsp. clear Hsp.
  destruct (sparse_pos_ok (t_bs t) p W ltac:(lia)) as (sp & P1 & P2 & P3 & P4 & P5 & P6). rewrite P1. cbn [obind].
  assert (Hoff : sp_off sp = snd (loc_of (t_bs t) p)) by (rewrite <- P4; reflexivity).
  set (td := if sp_off sp =? 0 then (match drop with Some b => set_bs (set_bs t bs) (upd (t_bs (set_bs t bs)) b (0%N, [])) | None => set_bs t bs end, Some (sp_b sp)) else (set_bs t bs, drop)).
  assert (Htd : exists bs', fst td = set_bs t bs' /\ kept t bs' (S x) (st + 2 * cap t) /\ nth_error bs' (p / 64) = nth_error (t_bs t) (p / 64) /\ drop_ok t st (S x) (snd td)).
  { unfold td. rewrite Hoff. destruct (Nat.eqb_spec (snd (loc_of (t_bs t) p)) 0) as [Ez|Ez]; cbn [fst snd].
    - assert (Hlow : forall y, tsl t y <> None -> (y mod cap t) / 64 = p / 64 -> p <= y mod cap t) by (intros y Hy Hyb; apply (off_zero (t_bs t)); auto).
      assert (Hdn : drop_ok t st (S x) (Some (sp_b sp))). { intros b Eb. injection Eb as <-. exists x. split; [lia|]. split; [congruence|]. split; [symmetry; auto|]. rewrite P2. exact Hlow. }
      destruct drop as [b'|].
      + destruct (Hdr b' eq_refl) as (f & F1 & F2 & F3 & F4).
        assert (Hbx : p / 64 <> b'). { intros Eb. assert (p <= f mod cap t) by (apply Hlow; [auto|congruence]). assert (f mod cap t <= p) by (apply F4; [congruence|auto]). assert (f = x); [|lia]. eapply (win_inj (cap t) (st + cap t)); [lia|lia|]. fold p. lia. }
        exists (upd bs b' (0%N, [])). split; [reflexivity|]. split; [|split; [rewrite nth_error_upd_ne by auto; auto|auto]].
        destruct Hk as [Hk1 Hk2]. split; [rewrite upd_length; auto|]. intros b. destruct (Nat.eq_dec b' b) as [<-|Hne].
        * destruct (Nat.lt_ge_cases b' (length bs)) as [Hl|Hl].
          -- right. split; [apply nth_error_upd_eq; auto|]. intros y Hy Hoy Eb.
             assert (F4' : f mod cap t <= y mod cap t) by auto. rewrite (mod_two (cap t) f), (mod_two (cap t) y) in F4' by lia. 
             assert (Exm : p = if x <? 2 * cap t then x - cap t else x - 2 * cap t) by (unfold p; apply mod_two; lia).
             assert (Efm : f mod cap t = if f <? 2 * cap t then f - cap t else f - 2 * cap t) by (apply mod_two; lia). assert (Eym : y mod cap t = if y <? 2 * cap t then y - cap t else y - 2 * cap t) by (apply mod_two; lia).
             destruct (Nat.ltb_spec f (2 * cap t)), (Nat.ltb_spec y (2 * cap t)), (Nat.ltb_spec x (2 * cap t)); try lia;
             (pose proof (Nat.div_le_mono (f mod cap t) p 64 ltac:(lia) ltac:(lia)); pose proof (Nat.div_le_mono p (y mod cap t) 64 ltac:(lia) ltac:(lia)); apply Hbx; lia).
          -- left. transitivity (@None bucket); [|symmetry]; apply nth_error_None; [rewrite upd_length; auto|lia].
        * rewrite nth_error_upd_ne by auto. destruct (Hk2 b) as [X|[X Y]]; [auto|]. right. split; [auto|]. intros y Hy. apply Y. lia.
      + exists bs. split; [reflexivity|]. split; [apply (kept_weaken t bs i); auto; lia|]. auto.
    - exists bs. split; [reflexivity|]. split; [apply (kept_weaken t bs i); auto; lia|]. split; [auto|]. intros b Eb. destruct (Hdr b Eb) as (f & F1 & F2 & F3 & F4). exists f. split; [lia|auto]. }
  destruct Htd as (bs' & D1 & D2 & D3 & D4). destruct td as [t1 drop1]. cbn [fst snd] in D1, D4. subst t1.
  assert (Hg : get_at (t_bs (set_bs t bs')) (sp_loc sp) = Some e).
  { rewrite P4. rewrite <- (get_loc (t_bs t) p e Hsl). unfold get_at. rewrite loc_fst. cbn [set_bs t_bs]. rewrite D3. reflexivity. }
  rewrite Hg. cbn [obind]. assert (El : elems t dd i m = (compose t ((x - dd x) mod cap t) (fst e), snd e) :: elems t dd (S x) (m - k - 1)).
  { replace m with (k + S (m - k - 1)) at 1 by lia. rewrite elems_skip by auto. fold x. cbn [elems]. rewrite E. destruct e. reflexivity. }
  rewrite El. cbn [reins]. destruct (needs_realloc nt (t_width nt)); [reflexivity|]. replace (compose (set_bs t bs') ((x - dd x) mod cap t) (fst e)) with (compose t ((x - dd x) mod cap t) (fst e)) by reflexivity.
  destruct (insert_core nt (compose t ((x - dd x) mod cap t) (fst e)) (snd e)) as [[nt1 l]|]; [|reflexivity]. cbn [obind].
  apply IH; auto; lia.
Qed.

Lemma first_empty_ok t : shp t -> forall k i fuel, i + k < cap t -> (forall x, i <= x < i + k -> tsl t x <> None) -> tsl t (i + k) = None -> k < fuel -> first_empty fuel (t_bs t) i = Some (i + k).
Proof.
  intros Sh. induction k as [|k IH]; intros i fuel Hi Ho He Hf; (destruct fuel as [|fuel]; [lia|]); cbn [first_empty].
  - rewrite Nat.add_0_r in *. pose proof (exists_empty t i Sh He) as X. rewrite Nat.mod_small in X by lia. rewrite X. reflexivity.
  - pose proof (exists_full t i Sh (Ho i ltac:(lia))) as X. rewrite Nat.mod_small in X by lia. rewrite X. cbn [obind]. rewrite IH; [f_equal; lia|lia|intros; apply Ho; lia|replace (S i + k) with (i + S k) by lia; auto|lia].
Qed.
Theorem grow_eq t dd w : tinv t dd -> t_size t < cap t ->
  exists st, st < cap t /\ tsl t st = None /\ grow t w =
    if needs_realloc t w then reins (elems t dd (st + cap t + 1) (cap t - 1)) (new_tbl (if needs_capacity t then S (t_log t) else t_log t) w) else Some t.
Proof.
  intros H Hs. pose proof (ti_shp _ _ H) as Sh. destruct (term_ex t dd 0 H Hs) as (st & S1 & S2 & S3). cbn [plus] in *. exists st. split; [auto|]. split; [auto|]. unfold grow. destruct (needs_realloc t w); [|reflexivity].
  unfold iter_begin. rewrite (first_empty_ok t Sh st 0) by (auto; lia). cbn [obind plus]. pose proof (mod_add_ix t st) as Ma. rewrite Nat.mod_small in Ma by auto. rewrite Ma.
  replace t with (set_bs t (t_bs t)) at 2 by (destruct t; reflexivity). pose proof (cap_pos t).
  rewrite (grow_loop_ok t dd st H S1 S2 (cap t - 1) (st + cap t + 1)); [reflexivity|lia|lia|lia| | |].
  - split; [|split; [reflexivity|split; [discriminate|]]].
    + cbn [i_i]. replace (st + cap t + 1) with (S st + 1 * cap t) by lia. rewrite Nat.mod_add by lia. reflexivity.
    + intros _. replace (st + cap t + 1 - 1) with (st + cap t) by lia. rewrite (per_sl t). auto.
  - split; [reflexivity|]. auto.
  - intros b Eb. discriminate.
Qed.
