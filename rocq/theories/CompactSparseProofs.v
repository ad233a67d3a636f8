(** The sparse buckets behave like an array of optional elements. *)
From Verif Require Import Base CompactHash.

Definition slot (bs : list bucket) (p : nat) : option (N * N) :=
  match sparse_pos bs p with
  | Some s => if sp_exists s then get_at bs (sp_loc s) else None
  | None => None
  end.
Definition wf_bucket (bk : bucket) : Prop := length (snd bk) = bits_below (fst bk) 64 /\ (forall j, 64 <= j -> N.testbit (fst bk) (N.of_nat j) = false).
Definition wf_bs (bs : list bucket) : Prop := Forall wf_bucket bs.

(** ** counting bits *)
Lemma bits_below_S bv i : bits_below bv (S i) = bits_below bv i + Nat.b2n (N.testbit bv (N.of_nat i)).
Proof. unfold bits_below. rewrite seq_S, filter_app, app_length. cbn [filter plus]. destruct (N.testbit bv (N.of_nat i)); reflexivity. Qed.
Lemma bits_below_le bv : forall i j, i <= j -> bits_below bv i <= bits_below bv j.
Proof. intros i j H. induction H; [auto|]. rewrite bits_below_S. lia. Qed.
Lemma bits_below_lt bv i j : i < j -> N.testbit bv (N.of_nat i) = true -> bits_below bv i < bits_below bv j.
Proof. intros H Hb. pose proof (bits_below_le bv (S i) j H). rewrite bits_below_S, Hb in H0. cbn in H0. lia. Qed.
Lemma testbit_set bv i j : N.testbit (N.lor bv (2 ^ N.of_nat i)) (N.of_nat j) = N.testbit bv (N.of_nat j) || (i =? j).
Proof.
  rewrite N.lor_spec. f_equal. destruct (Nat.eqb_spec i j) as [->|H]; [apply N.pow2_bits_true|]. apply N.pow2_bits_false. lia.
Qed.
Lemma bits_below_set bv i : N.testbit bv (N.of_nat i) = false -> forall j, bits_below (N.lor bv (2 ^ N.of_nat i)) j = bits_below bv j + Nat.b2n (i <? j).
Proof.
  intros Hi. induction j as [|j IH]; [reflexivity|]. rewrite !bits_below_S, IH, testbit_set.
  destruct (Nat.eqb_spec i j) as [->|Hn].
  - rewrite Hi. replace (j <? j) with false by (symmetry; apply Nat.ltb_ge; lia). replace (j <? S j) with true by (symmetry; apply Nat.ltb_lt; lia). cbn. lia.
  - rewrite orb_false_r. destruct (Nat.ltb_spec i j), (Nat.ltb_spec i (S j)); cbn; lia.
Qed.
Lemma bits_zero i : bits_below 0 i = 0.
Proof. induction i; [reflexivity|]. rewrite bits_below_S, IHi. reflexivity. Qed.

(** ** positions *)
Lemma slot_pos bs p bk : nth_error bs (p / 64) = Some bk ->
  slot bs p = if N.testbit (fst bk) (N.of_nat (p mod 64)) then nth_error (snd bk) (bits_below (fst bk) (p mod 64)) else None.
Proof. intros H. unfold slot, sparse_pos. rewrite H. cbn [obind sp_exists]. unfold get_at, sp_loc. cbn [fst snd sp_b sp_off]. rewrite H. reflexivity. Qed.
Lemma pm p : p mod 64 < 64.
Proof. apply Nat.mod_upper_bound. lia. Qed.
Lemma pos_split p p' : p / 64 = p' / 64 -> p mod 64 = p' mod 64 -> p = p'.
Proof. intros H1 H2. rewrite (Nat.div_mod p 64), (Nat.div_mod p' 64) by lia. congruence. Qed.
Lemma bs_at (bs : list bucket) p : p < 64 * length bs -> exists bk, nth_error bs (p / 64) = Some bk.
Proof.
  intros H. destruct (nth_error bs (p / 64)) as [bk|] eqn:E; [eauto|]. apply nth_error_None in E. pose proof (Nat.div_lt_upper_bound p 64 (length bs)). lia.
Qed.
Lemma wf_at (bs : list bucket) i bk : wf_bs bs -> nth_error bs i = Some bk -> wf_bucket bk.
Proof. intros H E. apply nth_error_In in E. eapply Forall_forall in H; eauto. Qed.
(** the iterator that stands for a position *)
Definition loc_of (bs : list bucket) (p : nat) : loc :=
  (p / 64, match nth_error bs (p / 64) with Some bk => bits_below (fst bk) (p mod 64) | None => 0 end).
Lemma sparse_pos_ok bs p : wf_bs bs -> p < 64 * length bs ->
  exists s, sparse_pos bs p = Some s /\ sp_b s = p / 64 /\ sp_bit s = p mod 64 /\ sp_loc s = loc_of bs p /\
    (sp_exists s = true <-> slot bs p <> None) /\ (sp_exists s = true -> exists e, get_at bs (sp_loc s) = Some e /\ slot bs p = Some e).
Proof.
  intros Hwf H. destruct (bs_at bs p H) as (bk & E). unfold sparse_pos. rewrite E. cbn [obind]. eexists. split; [reflexivity|]. cbn [sp_b sp_bit sp_exists]. unfold sp_loc, loc_of. cbn [sp_b sp_off]. rewrite E.
  split; [auto|]. split; [auto|]. split; [auto|]. rewrite (slot_pos bs p bk E). unfold get_at. cbn [fst snd]. rewrite E. cbn [obind].
  destruct (N.testbit (fst bk) (N.of_nat (p mod 64))) eqn:Et.
  - destruct (nth_error (snd bk) (bits_below (fst bk) (p mod 64))) as [e|] eqn:En.
    + split; [split; [discriminate|auto]|eauto].
    + exfalso. apply nth_error_None in En. destruct (wf_at bs _ bk Hwf E) as [W _]. pose proof (bits_below_lt _ _ 64 (pm p) Et). lia.
  - split; [split; [discriminate|congruence]|discriminate].
Qed.
Lemma sparse_exists_ok bs p : wf_bs bs -> p < 64 * length bs -> exists b, sparse_exists bs p = Some b /\ (b = true <-> slot bs p <> None).
Proof. intros Hwf H. destruct (sparse_pos_ok bs p Hwf H) as (s & E & _ & _ & _ & H1 & _). unfold sparse_exists. rewrite E. cbn [obind]. eauto. Qed.

(** ** inserting at an empty position *)
Lemma nth_error_ins {A} (l : list A) o x j : o <= length l ->
  nth_error (firstn o l ++ x :: skipn o l) j = if j <? o then nth_error l j else if j =? o then Some x else nth_error l (j - 1).
Proof.
  intros Ho. assert (Lf : length (firstn o l) = o) by (rewrite firstn_length; lia). destruct (Nat.ltb_spec j o) as [H|H].
  - rewrite nth_error_app1 by lia. clear - H. revert l j H. induction o as [|o IH]; intros l j H; [lia|]. destruct l; [destruct j; reflexivity|]. destruct j; [reflexivity|]. cbn. apply IH. lia.
  - rewrite nth_error_app2 by lia. rewrite Lf. destruct (Nat.eqb_spec j o) as [->|Hn]; [rewrite Nat.sub_diag; reflexivity|].
    replace (j - o) with (S (j - o - 1)) by lia. cbn [nth_error]. rewrite <- (firstn_skipn o l) at 2. rewrite nth_error_app2 by lia. f_equal. lia.
Qed.
Lemma set_at_empty_ok qw bs p q v : wf_bs bs -> p < 64 * length bs -> slot bs p = None ->
  exists bs', set_at_empty qw bs p q v = Some (bs', loc_of bs p) /\ wf_bs bs' /\ length bs' = length bs /\
    (forall p', slot bs' p' = if p' =? p then Some (trunc_q qw q, v) else slot bs p') /\
    (forall p', loc_of bs' p' = (p' / 64, snd (loc_of bs p') + if (p' / 64 =? p / 64) && (p <? p') then 1 else 0)).
Proof.
  intros Hwf H Hs. destruct (bs_at bs p H) as (bk & E). unfold set_at_empty. destruct (sparse_pos_ok bs p Hwf H) as (s & Es & S1 & S2 & S3 & S4 & _). rewrite Es. cbn [obind].
  destruct (sp_exists s) eqn:Ex; [exfalso; apply (proj1 S4); auto|]. rewrite S1, S2, S3, E. cbn [obind]. eexists. split; [reflexivity|].
  assert (So : sp_off s = bits_below (fst bk) (p mod 64)) by (unfold sp_loc, loc_of in S3; rewrite E in S3; congruence). rewrite So.
  set (bv := fst bk) in *. set (i := p mod 64) in *. assert (Hi : i < 64) by apply pm.
  assert (Hb : N.testbit bv (N.of_nat i) = false). { destruct (N.testbit bv (N.of_nat i)) eqn:Eb; [|auto]. exfalso. rewrite (slot_pos bs p bk E) in Hs. fold i bv in Hs. rewrite Eb in Hs.
    apply nth_error_None in Hs. destruct (wf_at bs _ bk Hwf E) as [W _]. fold bv in W. pose proof (bits_below_lt bv i 64 Hi Eb). lia. }
  assert (Hl : p / 64 < length bs) by (apply nth_error_Some; congruence).
  destruct (wf_at bs _ bk Hwf E) as [W1 W2]. fold bv in W1, W2.
  assert (Ho : bits_below bv i <= length (snd bk)) by (rewrite W1; apply bits_below_le; lia).
  set (bk' := (N.lor bv (2 ^ N.of_nat i), firstn (bits_below bv i) (snd bk) ++ (trunc_q qw q, v) :: skipn (bits_below bv i) (snd bk))).
  split; [|split; [apply upd_length|split]].
  - unfold wf_bs. apply Forall_forall. intros x Hx. apply In_nth_error in Hx. destruct Hx as (k & Hk). destruct (Nat.eq_dec (p / 64) k) as [<-|Hk'].
    + rewrite nth_error_upd_eq in Hk by auto. apply Some_inj in Hk || injection Hk as <-. subst x || idtac. unfold bk', wf_bucket. cbn [fst snd]. split.
      * rewrite app_length. cbn [length]. rewrite firstn_length, skipn_length. rewrite bits_below_set by auto. replace (i <? 64) with true by (symmetry; apply Nat.ltb_lt; auto). cbn [Nat.b2n]. lia.
      * intros j Hj. rewrite testbit_set, W2 by auto. replace (i =? j) with false by (symmetry; apply Nat.eqb_neq; lia). reflexivity.
    + rewrite nth_error_upd_ne in Hk by auto. eapply wf_at; eauto.
  - intros p'. destruct (Nat.eq_dec (p' / 64) (p / 64)) as [Eb|Nb].
    + assert (E1 : nth_error (upd bs (p / 64) bk') (p' / 64) = Some bk') by (rewrite Eb; apply nth_error_upd_eq; auto).
      rewrite (slot_pos _ _ _ E1). rewrite <- Eb in E. rewrite (slot_pos bs p' bk E). cbn [fst snd]. subst bk'. cbn [fst snd]. fold bv. rewrite testbit_set, bits_below_set by auto.
      rewrite nth_error_ins by auto. set (i' := p' mod 64) in *.
      destruct (Nat.eqb_spec p' p) as [->|Hp].
      * unfold i'. fold i. rewrite Hb. rewrite Nat.eqb_refl. cbn [orb]. replace (i <? i) with false by (symmetry; apply Nat.ltb_ge; lia). cbn [Nat.b2n]. rewrite Nat.add_0_r, Nat.ltb_irrefl, Nat.eqb_refl. reflexivity.
      * assert (i <> i') by (intros E2; apply Hp; apply pos_split; auto).
        replace (i =? i') with false by (symmetry; apply Nat.eqb_neq; auto). rewrite orb_false_r. destruct (N.testbit bv (N.of_nat i')) eqn:Et; [|auto].
        destruct (Nat.ltb_spec i i') as [Hlt|Hge].
        -- cbn [Nat.b2n]. pose proof (bits_below_le bv i i' ltac:(lia)). replace (bits_below bv i' + 1 <? bits_below bv i) with false by (symmetry; apply Nat.ltb_ge; lia).
           replace (bits_below bv i' + 1 =? bits_below bv i) with false by (symmetry; apply Nat.eqb_neq; lia). f_equal. lia.
        -- cbn [Nat.b2n]. pose proof (bits_below_lt bv i' i ltac:(lia) Et). rewrite Nat.add_0_r. replace (bits_below bv i' <? bits_below bv i) with true by (symmetry; apply Nat.ltb_lt; lia). reflexivity.
    + destruct (Nat.eqb_spec p' p) as [->|Hp]; [congruence|]. unfold slot, sparse_pos, get_at. rewrite nth_error_upd_ne by auto.
      destruct (nth_error bs (p' / 64)) as [bk2|] eqn:E2; [|auto]. cbn [obind sp_exists]. unfold sp_loc. cbn [fst snd sp_b sp_off]. rewrite nth_error_upd_ne, E2 by auto. reflexivity.
  - intros p'. unfold loc_of. cbn [snd]. destruct (Nat.eqb_spec (p' / 64) (p / 64)) as [Eb|Nb].
    + rewrite Eb, nth_error_upd_eq, E by auto. fold bv. subst bk'. cbn [fst andb]. rewrite bits_below_set by auto. f_equal. f_equal.
      assert (X : i < p' mod 64 <-> p < p'). { unfold i. pose proof (Nat.div_mod p' 64). pose proof (Nat.div_mod p 64). rewrite Eb in *. lia. }
      destruct (Nat.ltb_spec i (p' mod 64)), (Nat.ltb_spec p p'); cbn [Nat.b2n]; lia.
    + rewrite nth_error_upd_ne by auto. cbn [andb]. rewrite Nat.add_0_r. reflexivity.
Qed.

(** ** changing an element *)
Definition same_bits (bs bs' : list bucket) : Prop := length bs' = length bs /\ forall i, option_map fst (nth_error bs' i) = option_map fst (nth_error bs i).
Lemma same_bits_refl bs : same_bits bs bs.
Proof. split; auto. Qed.
Lemma same_bits_trans a b c : same_bits a b -> same_bits b c -> same_bits a c.
Proof. intros [H1 H2] [H3 H4]. split; [congruence|]. intros i. rewrite H4. auto. Qed.
Lemma same_bits_loc bs bs' p : same_bits bs bs' -> loc_of bs' p = loc_of bs p.
Proof. intros [_ H]. unfold loc_of. specialize (H (p / 64)). destruct (nth_error bs' (p / 64)), (nth_error bs (p / 64)); cbn in H; try discriminate; [|auto]. injection H as ->. reflexivity. Qed.
Lemma put_at_ok bs p e0 e : wf_bs bs -> slot bs p = Some e0 ->
  exists bs', put_at bs (loc_of bs p) e = Some bs' /\ wf_bs bs' /\ same_bits bs bs' /\ (forall p', slot bs' p' = if p' =? p then Some e else slot bs p').
Proof.
  intros Hwf Hs. destruct (nth_error bs (p / 64)) as [bk|] eqn:E; [|unfold slot, sparse_pos in Hs; rewrite E in Hs; discriminate].
  pose proof Hs as Hs'. rewrite (slot_pos bs p bk E) in Hs'. set (bv := fst bk) in *. set (i := p mod 64) in *. assert (Hi : i < 64) by apply pm.
  destruct (N.testbit bv (N.of_nat i)) eqn:Eb; [|discriminate]. unfold put_at, loc_of. rewrite E. cbn [fst snd]. rewrite E. cbn [obind]. fold bv i.
  assert (Hlt : bits_below bv i < length (snd bk)) by (apply nth_error_Some; congruence). replace (bits_below bv i <? length (snd bk)) with true by (symmetry; apply Nat.ltb_lt; auto).
  assert (Hl : p / 64 < length bs) by (apply nth_error_Some; congruence). destruct (wf_at bs _ bk Hwf E) as [W1 W2].
  eexists. split; [reflexivity|]. split; [|split; [split; [apply upd_length|]|]].
  - unfold wf_bs. apply Forall_forall. intros x Hx. apply In_nth_error in Hx. destruct Hx as (k & Hk). destruct (Nat.eq_dec (p / 64) k) as [<-|Hk'].
    + rewrite nth_error_upd_eq in Hk by auto. injection Hk as <-. unfold wf_bucket. cbn [fst snd]. rewrite upd_length. auto.
    + rewrite nth_error_upd_ne in Hk by auto. eapply wf_at; eauto.
  - intros k. destruct (Nat.eq_dec (p / 64) k) as [<-|Hk']; [rewrite nth_error_upd_eq, E by auto; reflexivity|rewrite nth_error_upd_ne; auto].
  - intros p'. destruct (Nat.eq_dec (p' / 64) (p / 64)) as [Ep|Np].
    + assert (E1 : nth_error (upd bs (p / 64) (bv, upd (snd bk) (bits_below bv i) e)) (p' / 64) = Some (bv, upd (snd bk) (bits_below bv i) e)) by (rewrite Ep; apply nth_error_upd_eq; auto).
      rewrite (slot_pos _ _ _ E1). rewrite <- Ep in E. rewrite (slot_pos bs p' bk E). cbn [fst snd]. fold bv. set (i' := p' mod 64) in *.
      destruct (Nat.eqb_spec p' p) as [->|Hp].
      * unfold i'. fold i. rewrite Eb. apply nth_error_upd_eq. auto.
      * assert (i <> i') by (intros E2; apply Hp; apply pos_split; auto). destruct (N.testbit bv (N.of_nat i')) eqn:Et; [|auto].
        apply nth_error_upd_ne. destruct (Nat.lt_ge_cases i i') as [Hc|Hc]; [pose proof (bits_below_lt bv i i' Hc Eb)|pose proof (bits_below_lt bv i' i ltac:(lia) Et)]; lia.
    + destruct (Nat.eqb_spec p' p) as [->|Hp]; [congruence|]. unfold slot, sparse_pos, get_at. rewrite nth_error_upd_ne by auto.
      destruct (nth_error bs (p' / 64)) as [bk2|] eqn:E2; [|auto]. cbn [obind sp_exists]. unfold sp_loc. cbn [fst snd sp_b sp_off]. rewrite nth_error_upd_ne, E2 by auto. reflexivity.
Qed.
Lemma get_loc bs p e : slot bs p = Some e -> get_at bs (loc_of bs p) = Some e.
Proof.
  intros Hs. destruct (nth_error bs (p / 64)) as [bk|] eqn:E; [|unfold slot, sparse_pos in Hs; rewrite E in Hs; discriminate].
  rewrite (slot_pos bs p bk E) in Hs. destruct (N.testbit (fst bk) (N.of_nat (p mod 64))); [|discriminate]. unfold get_at, loc_of. cbn [fst snd]. rewrite E. exact Hs.
Qed.
Lemma loc_inj bs p p' e e' : slot bs p = Some e -> slot bs p' = Some e' -> loc_of bs p = loc_of bs p' -> p = p'.
Proof.
  intros Hs Hs' He. destruct (nth_error bs (p / 64)) as [bk|] eqn:E; [|unfold slot, sparse_pos in Hs; rewrite E in Hs; discriminate].
  unfold loc_of in He. rewrite E in He. assert (Hb : p / 64 = p' / 64) by congruence. assert (Ho := f_equal snd He). cbn [snd] in Ho. rewrite <- Hb, E in Ho. rewrite Hb in E. rewrite (slot_pos bs p' bk E) in Hs'. rewrite <- Hb in E. rewrite (slot_pos bs p bk E) in Hs.
  apply pos_split; auto. destruct (N.testbit (fst bk) (N.of_nat (p mod 64))) eqn:E1; [|discriminate]. destruct (N.testbit (fst bk) (N.of_nat (p' mod 64))) eqn:E2; [|discriminate].
  destruct (Nat.lt_total (p mod 64) (p' mod 64)) as [H|[H|H]]; [|auto|].
  - pose proof (bits_below_lt (fst bk) _ _ H E1). lia.
  - pose proof (bits_below_lt (fst bk) _ _ H E2). lia.
Qed.

(** ** the iterator *)
Lemma it_dec_ok bs p : wf_bs bs -> S p < 64 * length bs -> slot bs p <> None -> it_dec bs (loc_of bs (S p)) = Some (loc_of bs p).
Proof.
  intros Hwf H Hs. destruct (bs_at bs (S p) H) as (bk & E). destruct (bs_at bs p ltac:(lia)) as (bk0 & E0).
  rewrite (slot_pos bs p bk0 E0) in Hs. destruct (N.testbit (fst bk0) (N.of_nat (p mod 64))) eqn:Eb; [|congruence].
  assert (Hd : (S p mod 64 = 0 /\ p mod 64 = 63 /\ S p / 64 = S (p / 64)) \/ (S p mod 64 = S (p mod 64) /\ S p / 64 = p / 64)).
  { pose proof (Nat.div_mod p 64). pose proof (pm p). destruct (Nat.eq_dec (p mod 64) 63) as [E1|E1].
    - left. assert (Ep : S p = S (p / 64) * 64) by lia. rewrite Ep, Nat.mod_mul, Nat.div_mul by lia. auto.
    - right. assert (Ep : S p = 64 * (p / 64) + S (p mod 64)) by lia. split.
      + symmetry. apply (Nat.mod_unique _ _ (p / 64)); lia.
      + symmetry. apply (Nat.div_unique _ _ _ (S (p mod 64))); lia. }
  unfold it_dec, loc_of. cbn [fst snd]. rewrite E, E0. destruct Hd as [(D1 & D2 & D3)|(D1 & D2)].
  - rewrite D1, D3, D2. replace (bits_below (fst bk) 0) with 0 by reflexivity. cbn [prev_bucket]. rewrite E0. cbn [obind]. rewrite D2 in Eb.
    destruct (N.eqb_spec (fst bk0) 0) as [Ez|_]; [rewrite Ez, N.bits_0 in Eb; discriminate|]. cbn [obind]. rewrite E0. cbn [obind].
    rewrite (bits_below_S _ 63), Eb. cbn [Nat.b2n]. f_equal. f_equal. lia.
  - rewrite D1, D2. rewrite D2 in E. rewrite E0 in E. injection E as <-. rewrite bits_below_S, Eb. cbn [Nat.b2n]. rewrite Nat.add_1_r. reflexivity.
Qed.
Lemma loc_eqb_spec a b : loc_eqb a b = true <-> a = b.
Proof. unfold loc_eqb. destruct a, b. cbn [fst snd]. rewrite andb_true_iff, !Nat.eqb_eq. split; [intros [-> ->]; auto|intros E; injection E; auto]. Qed.

Lemma shift_loop_ok from : forall k bs fuel, wf_bs bs -> from + k + 1 < 64 * length bs -> (forall p, from <= p <= from + k -> slot bs p <> None) -> k < fuel ->
  exists bs', shift_loop fuel bs (loc_of bs (from + k)) (loc_of bs (from + k + 1)) (loc_of bs from) = Some bs' /\ wf_bs bs' /\ same_bits bs bs' /\
    (forall p, slot bs' p = if (from <? p) && (p <=? from + k) then slot bs (p - 1) else slot bs p).
Proof.
  induction k as [|k IH]; intros bs fuel Hwf Hl Hs Hf; (destruct fuel as [|fuel]; [lia|]); cbn [shift_loop].
  - rewrite Nat.add_0_r. replace (loc_eqb (loc_of bs from) (loc_of bs from)) with true by (symmetry; apply loc_eqb_spec; auto). exists bs. split; [auto|]. split; [auto|]. split; [apply same_bits_refl|].
    intros p. destruct (Nat.ltb_spec from p), (Nat.leb_spec p from); cbn [andb]; auto; lia.
  - destruct (slot bs (from + S k)) as [e1|] eqn:E1; [|exfalso; apply (Hs (from + S k)); [lia|auto]]. destruct (slot bs from) as [e0|] eqn:E0; [|exfalso; apply (Hs from); [lia|auto]].
    replace (loc_eqb (loc_of bs (from + S k)) (loc_of bs from)) with false.
    2: { symmetry. destruct (loc_eqb _ _) eqn:El; [|auto]. apply loc_eqb_spec in El. eapply loc_inj in El; eauto. lia. }
    replace (from + S k) with (S (from + k)) in * by lia. rewrite it_dec_ok by (auto; try lia; apply Hs; lia). cbn [obind].
    replace (S (from + k) + 1) with (S (S (from + k))) in * by lia. rewrite it_dec_ok by (auto; try lia; congruence). cbn [obind].
    destruct (slot bs (from + k)) as [e|] eqn:Ek; [|exfalso; apply (Hs (from + k)); [lia|auto]]. rewrite (get_loc bs _ e Ek). cbn [obind].
    destruct (put_at_ok bs (S (from + k)) e1 e Hwf E1) as (bs1 & P1 & P2 & P3 & P4). rewrite P1. cbn [obind].
    destruct (IH bs1 fuel) as (bs2 & Q1 & Q2 & Q3 & Q4); auto.
    + destruct P3 as [P3 _]. lia.
    + intros p Hp. rewrite P4. destruct (Nat.eqb_spec p (S (from + k))); [discriminate|]. apply Hs. lia.
    + lia.
    + rewrite !(same_bits_loc bs bs1) in Q1 by auto. replace (from + k + 1) with (S (from + k)) in Q1 by lia. exists bs2. split; [auto|]. split; [auto|]. split; [eapply same_bits_trans; eauto|].
      intros p. rewrite Q4, !P4. destruct (Nat.ltb_spec from p), (Nat.leb_spec p (from + k)), (Nat.leb_spec p (S (from + k))); cbn [andb]; try lia.
      * destruct (Nat.eqb_spec (p - 1) (S (from + k))); [lia|auto].
      * destruct (Nat.eqb_spec p (S (from + k))) as [->|]; [|lia]. rewrite <- Ek. f_equal. lia.
      * destruct (Nat.eqb_spec p (S (from + k))); [lia|auto].
      * destruct (Nat.eqb_spec p (S (from + k))); [lia|auto].
Qed.
Lemma sparse_shift_ok fuel qw bs from to q v : wf_bs bs -> from < to -> to < 64 * length bs -> (forall p, from <= p < to -> slot bs p <> None) -> to - from < fuel ->
  exists bs' e, sparse_shift fuel qw bs from to q v = Some (bs', e, loc_of bs from) /\ slot bs (to - 1) = Some e /\ wf_bs bs' /\ same_bits bs bs' /\
    (forall p, slot bs' p = if p =? from then Some (trunc_q qw q, v) else if (from <? p) && (p <? to) then slot bs (p - 1) else slot bs p).
Proof.
  intros Hwf Hft Hto Hs Hf. unfold sparse_shift. destruct (sparse_pos_ok bs from Hwf ltac:(lia)) as (s1 & E1 & _ & _ & L1 & _). rewrite E1. cbn [obind].
  destruct (Nat.eqb_spec to 0) as [|_]; [lia|]. destruct (sparse_pos_ok bs (to - 1) Hwf ltac:(lia)) as (s2 & E2 & _ & _ & L2 & X2 & X2'). rewrite E2. cbn [obind].
  destruct (sparse_pos_ok bs to Hwf Hto) as (s3 & E3 & _ & _ & L3 & _). rewrite E3. cbn [obind]. rewrite L1, L2, L3.
  destruct (slot bs (to - 1)) as [e|] eqn:Ee; [|exfalso; apply (Hs (to - 1)); [lia|auto]]. rewrite (get_loc bs _ e Ee). cbn [obind].
  destruct (shift_loop_ok from (to - 1 - from) bs fuel) as (bs1 & P1 & P2 & P3 & P4); auto.
  - lia.
  - intros p Hp. apply Hs. lia.
  - lia.
  - replace (from + (to - 1 - from)) with (to - 1) in * by lia. replace (to - 1 + 1) with to in P1 by lia. rewrite P1. cbn [obind].
    destruct (slot bs from) as [e0|] eqn:E0; [|exfalso; apply (Hs from); [lia|auto]].
    destruct (put_at_ok bs1 from e0 (trunc_q qw q, v) P2) as (bs2 & Q1 & Q2 & Q3 & Q4).
    { rewrite P4. rewrite Nat.ltb_irrefl. auto. }
    rewrite (same_bits_loc bs bs1) in Q1 by auto. rewrite Q1. cbn [obind]. exists bs2, e. split; [auto|]. split; [auto|]. split; [auto|]. split; [eapply same_bits_trans; eauto|].
    intros p. rewrite Q4, P4. destruct (Nat.eqb_spec p from) as [->|Hp]; [auto|]. destruct (Nat.ltb_spec from p), (Nat.leb_spec p (to - 1)), (Nat.ltb_spec p to); cbn [andb]; auto; lia.
Qed.

Lemma loc_succ bs p : slot bs p <> None -> S p / 64 = p / 64 -> loc_of bs (S p) = (p / 64, S (snd (loc_of bs p))).
Proof.
  intros Hs Hd. destruct (nth_error bs (p / 64)) as [bk|] eqn:E; [|unfold slot, sparse_pos in Hs; rewrite E in Hs; exfalso; apply Hs; reflexivity].
  rewrite (slot_pos bs p bk E) in Hs. destruct (N.testbit (fst bk) (N.of_nat (p mod 64))) eqn:Et; [|exfalso; apply Hs; reflexivity].
  unfold loc_of. cbn [snd]. rewrite Hd, E. replace (S p mod 64) with (S (p mod 64)).
  - rewrite bits_below_S, Et. cbn [Nat.b2n]. rewrite Nat.add_1_r. reflexivity.
  - pose proof (Nat.div_mod p 64). pose proof (Nat.div_mod (S p) 64). lia.
Qed.
Lemma loc_fst bs p : fst (loc_of bs p) = p / 64.
Proof. reflexivity. Qed.
Lemma same_bits_slot bs bs' p : wf_bs bs -> wf_bs bs' -> same_bits bs bs' -> (slot bs' p = None <-> slot bs p = None).
Proof.
  intros W W' [Hl H]. destruct (Nat.lt_ge_cases p (64 * length bs)) as [Hp|Hp].
  - destruct (bs_at bs p Hp) as (bk & E). assert (Hp' : p < 64 * length bs') by lia. destruct (bs_at bs' p Hp') as (bk' & E'). specialize (H (p / 64)). rewrite E, E' in H. cbn in H. injection H as H.
    rewrite (slot_pos bs p bk E), (slot_pos bs' p bk' E'), H. destruct (N.testbit (fst bk) (N.of_nat (p mod 64))) eqn:Et; [|tauto].
    destruct (wf_at bs _ bk W E) as [W1 _]. destruct (wf_at bs' _ bk' W' E') as [W2 _]. pose proof (bits_below_lt _ _ 64 (pm p) Et). rewrite H in W2. rewrite !nth_error_None. lia.
  - assert (X : nth_error bs (p / 64) = None) by (apply nth_error_None; apply Nat.div_le_lower_bound; lia). assert (X' : nth_error bs' (p / 64) = None) by (apply nth_error_None; apply Nat.div_le_lower_bound; lia).
    unfold slot, sparse_pos. rewrite X, X'. tauto.
Qed.
