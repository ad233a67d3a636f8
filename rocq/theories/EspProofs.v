(** ESP: the grammar derives the text, and the plain coder gives it back. *)
From Verif Require Import Base BitIO BitIOProofs IntCodes IntCodesProofs Esp EspSpec EspBlockProofs EspAdjustProofs.
Local Open Scope N_scope.

(** ** What a rule number derives *)
Notation der := generates.

Lemma der_app R R' h r w : der R h r w -> der (R ++ R') h r w.
Proof.
  induction 1 as [h r Hr|h r a b x y Hr Hn Ha Hb D1 I1 D2 I2]; [constructor; auto|]. apply (gen_rule _ _ _ a b); auto.
  rewrite nth_error_app1; [auto|]. apply nth_error_Some. congruence.
Qed.
Lemma der_S R h r w : der R h r w -> der R (S h) r w.
Proof. induction 1 as [h r Hr|h r a b x y Hr Hn Ha Hb D1 I1 D2 I2]; [constructor; auto|]. apply (gen_rule _ _ _ a b); auto. Qed.
Lemma der_mono R h h' r w : (h <= h')%nat -> der R h r w -> der R h' r w.
Proof. induction 1; auto using der_S. Qed.
Lemma der_fuel R h r w : der R h r w -> forall fuel, (h <= fuel)%nat -> derive_rec fuel R r = Some w.
Proof.
  induction 1 as [h r Hr|h r a b x y Hr Hn Ha Hb D1 I1 D2 I2]; intros fuel Hf.
  - destruct fuel; cbn [derive_rec]; replace (r <? 256) with true by (symmetry; apply N.ltb_lt; lia); reflexivity.
  - destruct fuel as [|fuel]; [lia|]. cbn [derive_rec]. replace (r <? 256) with false by (symmetry; apply N.ltb_ge; lia).
    rewrite Hn. cbn [obind]. rewrite (I1 fuel) by lia. cbn [obind]. rewrite (I2 fuel) by lia. reflexivity.
Qed.
Lemma der_rec R h r w : der R h r w -> forall fuel, r < 256 + N.of_nat fuel -> derive_rec fuel R r = Some w.
Proof.
  induction 1 as [h r Hr|h r a b x y Hr Hn Ha Hb D1 I1 D2 I2]; intros fuel Hf.
  - destruct fuel; cbn [derive_rec]; replace (r <? 256) with true by (symmetry; apply N.ltb_lt; lia); reflexivity.
  - destruct fuel as [|fuel]; [lia|]. cbn [derive_rec]. replace (r <? 256) with false by (symmetry; apply N.ltb_ge; lia).
    rewrite Hn. cbn [obind]. rewrite (I1 fuel) by lia. cbn [obind]. rewrite (I2 fuel) by lia. reflexivity.
Qed.

Lemma Forall2_impl {A B} (P Q : A -> B -> Prop) l m : (forall a b, P a b -> Q a b) -> Forall2 P l m -> Forall2 Q l m.
Proof. induction 2; constructor; auto. Qed.

(** ** One layer *)
Definition shift (prev : N) (keys : list (N * N)) : list (N * N) := map (fun k => (fst k + prev, snd k + prev)) keys.
Definition keys_ok (start : N) (keys : list (N * N)) : Prop :=
  forall i a b, nth_error keys i = Some (a, b) -> a < start + N.of_nat i /\ b < start.

Lemma key_index_some k keys i : key_index k keys = Some i -> nth_error keys i = Some k.
Proof.
  revert i. induction keys as [|k' keys IH]; intros i H; [discriminate|]. cbn [key_index] in H.
  destruct ((fst k' =? fst k) && (snd k' =? snd k)) eqn:E.
  - apply Some_inj in H. subst i. apply andb_true_iff in E. destruct E as [E1 E2].
    apply N.eqb_eq in E1. apply N.eqb_eq in E2. destruct k, k'; cbn in *; subst. reflexivity.
  - destruct (key_index k keys) as [j|]; [|discriminate]. apply Some_inj in H. subst i. cbn. auto.
Qed.

Lemma gr_access_ok start keys a b : keys_ok start keys -> a < start + N.of_nat (length keys) -> b < start ->
  (forall i, a = start + N.of_nat i -> True) ->
  exists i keys', gr_access start keys (a, b) = (start + N.of_nat i, keys') /\ keys_ok start keys' /\
    nth_error keys' i = Some (a, b) /\ (exists e, keys' = keys ++ e /\ (length e <= 1)%nat).
Proof.
  intros Hk Ha Hb _. unfold gr_access. destruct (key_index (a, b) keys) as [i|] eqn:E.
  - exists i, keys. split; [f_equal; lia|]. split; [auto|]. split; [apply key_index_some; auto|].
    exists []. rewrite app_nil_r. split; [auto|cbn; lia].
  - exists (length keys), (keys ++ [(a, b)]). split; [f_equal; lia|]. split; [|split].
    + intros i x y Hi. destruct (Nat.lt_ge_cases i (length keys)) as [L|L].
      * rewrite nth_error_app1 in Hi by auto. eauto.
      * rewrite nth_error_app2 in Hi by auto. destruct (i - length keys)%nat as [|j] eqn:Ej; [|destruct j; discriminate].
        cbn in Hi. apply Some_inj in Hi. injection Hi as <- <-. assert (i = length keys) by lia. subst. auto.
    + rewrite nth_error_app2 by lia. rewrite Nat.sub_diag. reflexivity.
    + exists [(a, b)]. split; [auto|cbn; lia].
Qed.

Section Layer.
  Variables (rules : list (N * N)) (prev start : N).
  Hypothesis Hsize : 256 + N.of_nat (length rules) = prev + start.

  Definition D (h : nat) (keys : list (N * N)) (x : N) (w : list N) : Prop := der (rules ++ shift prev keys) h (x + prev) w.
  Lemma D_ext h keys e x w : D h keys x w -> D h (keys ++ e) x w.
  Proof. unfold D, shift. rewrite map_app, app_assoc. apply der_app. Qed.
  Lemma D_S h keys x w : D h keys x w -> D (S h) keys x w.
  Proof. apply der_S. Qed.
  Lemma D_key h keys i a b x y : keys_ok start keys -> nth_error keys i = Some (a, b) -> D h keys a x -> D h keys b y ->
    D (S h) keys (start + N.of_nat i) (x ++ y).
  Proof.
    intros Hk Hi Da Db. destruct (Hk i a b Hi) as [Ha Hb]. unfold D. apply (gen_rule _ _ _ (a + prev) (b + prev)); auto; try lia.
    replace (N.to_nat (start + N.of_nat i + prev - 256)) with (length rules + i)%nat by lia.
    rewrite nth_error_app2 by lia. replace (length rules + i - length rules)%nat with i by lia.
    unfold shift. rewrite nth_error_map, Hi. reflexivity.
  Qed.

  Lemma gr_add_ok h keys v ws : keys_ok start keys -> (2 <= length v <= 3)%nat -> Forall (fun x => x < start) v ->
    Forall2 (D h keys) v ws ->
    exists i keys', gr_add start keys v = Some (start + N.of_nat i, keys') /\ keys_ok start keys' /\ (i < length keys')%nat /\
      D (S (S h)) keys' (start + N.of_nat i) (concat ws) /\ (exists e, keys' = keys ++ e /\ (length e <= length v - 1)%nat).
  Proof.
    intros Hk Hl HF H2. destruct v as [|a [|b [|c [|d v]]]]; cbn [length] in Hl; try lia.
    - inversion H2 as [|? wa ? ? Da H2']; subst. inversion H2' as [|? wb ? ? Db H2'']; subst. inversion H2''; subst.
      inversion HF as [|? ? Fa HF']; subst. inversion HF' as [|? ? Fb _]; subst.
      destruct (gr_access_ok start keys a b Hk) as (i & keys' & E & Hk' & Hn & e & -> & He); auto; [lia|].
      exists i, (keys ++ e). cbn [gr_add]. rewrite E. split; [auto|]. split; [auto|]. split; [apply nth_error_Some; congruence|]. split.
      + cbn [concat]. rewrite app_nil_r. apply D_S. eapply D_key; eauto; apply D_ext; auto.
      + exists e. split; [auto|cbn; lia].
    - inversion H2 as [|? wa ? ? Da H2']; subst. inversion H2' as [|? wb ? ? Db H2'']; subst.
      inversion H2'' as [|? wc ? ? Dc H2x]; subst. inversion H2x; subst.
      inversion HF as [|? ? Fa HF']; subst. inversion HF' as [|? ? Fb HF'']; subst. inversion HF'' as [|? ? Fc _]; subst.
      destruct (gr_access_ok start keys a b Hk) as (i & k1 & E & Hk1 & Hn & e & -> & He); auto; [lia|].
      cbn [gr_add]. rewrite E.
      assert (Hi : (i < length (keys ++ e))%nat) by (apply nth_error_Some; congruence).
      destruct (gr_access_ok start (keys ++ e) (start + N.of_nat i) c Hk1) as (j & k2 & E2 & Hk2 & Hn2 & e2 & -> & He2); auto; [lia|].
      exists j, ((keys ++ e) ++ e2). rewrite E2. split; [auto|]. split; [auto|]. split; [apply nth_error_Some; congruence|]. split.
      + cbn [concat]. rewrite app_nil_r, app_assoc. eapply D_key; eauto; [|apply D_S, D_ext, D_ext; auto].
        apply D_ext. eapply D_key; eauto; apply D_ext; auto.
      + exists (e ++ e2). rewrite app_assoc. split; [auto|]. rewrite app_length. cbn. lia.
  Qed.

  Lemma Forall2_firstn {A B} (P : A -> B -> Prop) k : forall l m, Forall2 P l m -> Forall2 P (firstn k l) (firstn k m).
  Proof. induction k; intros l m H; [constructor|]. destruct H; cbn; constructor; auto. Qed.
  Lemma Forall2_skipn {A B} (P : A -> B -> Prop) k : forall l m, Forall2 P l m -> Forall2 P (skipn k l) (skipn k m).
  Proof. induction k; intros l m H; [auto|]. destruct H; cbn; auto. Qed.
  Lemma Forall_firstn' {A} (P : A -> Prop) k : forall l, Forall P l -> Forall P (firstn k l).
  Proof. induction k; intros l H; [constructor|]. destruct H; cbn; constructor; auto. Qed.
  Lemma Forall_skipn' {A} (P : A -> Prop) k : forall l, Forall P l -> Forall P (skipn k l).
  Proof. induction k; intros l H; [auto|]. destruct H; cbn; auto. Qed.

  Lemma layer_ok h width : forall bs keys s ws, keys_ok start keys -> lens bs = length s -> Forall (fun b => 2 <= fst b <= 3)%nat bs ->
    Forall (fun x => x < start) s -> Forall2 (D h keys) s ws ->
    N.of_nat (length keys + (length s - length bs)) <= 2 ^ width ->
    exists l keys' ws', layer start width keys s bs = Some (l, keys') /\ keys_ok start keys' /\ length l = length bs /\
      Forall (fun x => x < N.of_nat (length keys')) l /\ Forall2 (fun x w => D (S (S h)) keys' (start + x) w) l ws' /\ concat ws' = concat ws /\
      (exists e, keys' = keys ++ e /\ (length e <= length s - length bs)%nat) /\ (2 * length bs <= length s)%nat.
  Proof.
    induction bs as [|[len t] bs IH]; intros keys s ws Hk Hl HB HF H2 Hw.
    - cbn in Hl. destruct s; [|discriminate]. inversion H2; subst. exists [], keys, []. cbn [layer]. split; [reflexivity|].
      split; [auto|]. split; [reflexivity|]. split; [constructor|]. split; [constructor|]. split; [reflexivity|]. split; [|cbn; lia].
      exists []. rewrite app_nil_r. split; [auto|cbn; lia].
    - inversion HB as [|? ? Hlen HB']; subst. cbn [fst] in Hlen. rewrite lens_cons in Hl. cbn [fst] in Hl.
      cbn [layer]. cbn [length] in Hw |- *.
      destruct (gr_add_ok h keys (firstn len s) (firstn len ws)) as (i & k1 & E & Hk1 & Hi & Di & e & -> & He); auto.
      { rewrite firstn_length. lia. } { apply Forall_firstn'; auto. } { apply Forall2_firstn; auto. }
      rewrite E. cbn [obind]. rewrite firstn_length in He.
      destruct (IH (keys ++ e) (skipn len s) (skipn len ws)) as (l & k2 & ws' & E2 & Hk2 & Ll & Fl & Dl & Cl & (e2 & -> & He2) & H2l); auto.
      { rewrite skipn_length. lia. } { apply Forall_skipn'; auto. }
      { apply Forall2_skipn. eapply Forall2_impl; [|exact H2]. intros; apply D_ext; auto. }
      { assert (length bs <= lens bs)%nat.
        { clear -HB'. induction HB' as [|b bs Hb HB IH]; [cbn; lia|]. rewrite lens_cons. cbn [length]. lia. }
        rewrite skipn_length, app_length in *. lia. }
      rewrite skipn_length in *. assert (2 * length bs <= lens bs)%nat.
      { lia. }
      rewrite E2. cbn [obind]. eexists _, _, (concat (firstn len ws) :: ws'). split; [reflexivity|]. split; [auto|].
      split; [cbn [length]; lia|].
      assert (Hmod : (start + N.of_nat i - start) mod 2 ^ width = N.of_nat i).
      { replace (start + N.of_nat i - start) with (N.of_nat i) by lia. apply N.mod_small. rewrite app_length in Hi. lia. }
      rewrite Hmod. split; [|split; [|split; [|split]]].
      + constructor; auto. rewrite app_length. lia.
      + constructor; auto. apply D_ext; auto.
      + cbn [concat]. rewrite Cl, <- concat_app, firstn_skipn. reflexivity.
      + exists (e ++ e2). rewrite app_assoc. split; [auto|]. rewrite app_length. lia.
      + lia.
  Qed.
End Layer.

(** ** The rounds *)
Definition ordered (rules : list (N * N)) : Prop :=
  forall i a b, nth_error rules i = Some (a, b) -> a < 256 + N.of_nat i /\ b < 256 + N.of_nat i.
Definition slp_ok (g : slp) (text : list N) : Prop :=
  ordered (s_rules g) /\ N.of_nat (length (s_rules g)) + 256 <= 2 ^ 33 /\
  (if s_empty g then text = [] /\ s_rules g = [] /\ s_root g = 0
   else (length (s_rules g) < length text)%nat /\ der (s_rules g) (2 * Nat.log2 (length text)) (s_root g) text /\
        s_root g < 256 + N.of_nat (length (s_rules g))).

Lemma ordered_round rules prev start keys : 256 + N.of_nat (length rules) = prev + start -> ordered rules -> keys_ok start keys ->
  ordered (rules ++ shift prev keys).
Proof.
  intros Hs Ho Hk i a b Hi. destruct (Nat.lt_ge_cases i (length rules)) as [L|L].
  - rewrite nth_error_app1 in Hi by auto. eauto.
  - rewrite nth_error_app2 in Hi by auto. unfold shift in Hi. rewrite nth_error_map in Hi.
    destruct (nth_error keys (i - length rules)) as [[x y]|] eqn:E; [|discriminate]. cbn in Hi. apply Some_inj in Hi. injection Hi as <- <-.
    destruct (Hk _ _ _ E). lia.
Qed.

Lemma rounds_ok text : N.of_nat (length text) < 2 ^ 32 -> forall fuel k rules prev start s ws,
  256 + N.of_nat (length rules) = prev + start -> ordered rules -> start <= 2 ^ 32 ->
  Forall (fun x => x < start) s -> Forall2 (fun x w => der rules (2 * k) (x + prev) w) s ws -> (2 ^ k * length s <= length text)%nat -> concat ws = text ->
  (length rules + length s <= length text)%nat -> (length s <= fuel)%nat -> (s = [] -> rules = []) ->
  exists g, rounds fuel rules prev start s = Some g /\ slp_ok g text.
Proof.
  intros Ht. induction fuel as [|fuel IH]; intros k rules prev start s ws Hs Ho HA HF H2 Hkl Hc Hlen Hfu Hnil.
  - destruct s; [|cbn in Hfu; lia]. inversion H2; subst. eexists; split; [reflexivity|]. unfold slp_ok. cbn [s_rules s_empty s_root].
    rewrite (Hnil eq_refl). split; [rewrite <- (Hnil eq_refl); auto|]. split; [cbn; lia|auto].
  - destruct s as [|x [|y s]].
    + inversion H2; subst. eexists; split; [reflexivity|]. unfold slp_ok. cbn [s_rules s_empty s_root].
      rewrite (Hnil eq_refl). split; [rewrite <- (Hnil eq_refl); auto|]. split; [cbn; lia|auto].
    + inversion H2 as [|? w ? ? D1 H2']; subst. inversion H2'; subst. eexists; split; [reflexivity|].
      unfold slp_ok. cbn [s_rules s_empty s_root]. split; [auto|]. split; [lia|]. cbn [concat] in *. rewrite app_nil_r in *.
      split; [cbn [length] in Hlen; lia|]. split; [|inversion HF; subst; lia].
      apply (der_mono _ (2 * k)); [|auto]. cbn [length] in Hkl. rewrite Nat.mul_1_r in Hkl.
      assert (k <= Nat.log2 (length w))%nat; [|lia].
      apply Nat.log2_le_pow2; [|auto]. pose proof (Nat.pow_nonzero 2 k). lia.
    + cbn [rounds]. set (s0 := x :: y :: s) in *.
      destruct (split_ok start HA (length s0) s0) as (bs0 & E0 & L0 & B0 & T0); auto.
      rewrite E0. cbn [obind].
      destruct (adjust_ok bs0 B0 T0) as (bs & E1 & L1 & B1); [rewrite L0; unfold s0; cbn [length]; lia|].
      rewrite E1. cbn [obind].
      assert (Hbs : bs <> []). { intros ->. rewrite L0 in L1. cbn in L1. discriminate. }
      assert (Hs1 : (1 <= length bs)%nat) by (destruct bs; [congruence|cbn; lia]).
      assert (Hs2 : (2 <= length s0)%nat) by (unfold s0; cbn [length]; lia).
      pose proof (bits_for_bound (N.of_nat (length s0) - 1)) as Hb.
      destruct (layer_ok rules prev start Hs (2 * k) (bits_for (N.of_nat (length s0) - 1)) bs [] s0 ws) as (l & keys & ws' & E2 & Hk & Ll & Fl & Dl & Cl & (e & He1 & He2) & H2l); auto.
      { intros i a b Hi. destruct i; discriminate. } { lia. }
      { eapply Forall2_impl; [|exact H2]. intros u v Hd. unfold D, shift. cbn [map]. rewrite app_nil_r. exact Hd. }
      { cbn [length]. lia. }
      rewrite E2. cbn [obind]. cbn [app] in He1. subst e.
      apply (IH (S k) _ _ _ _ ws'); auto.
      * rewrite app_length, map_length. lia.
      * apply (ordered_round rules prev start); auto.
      * lia.
      * eapply Forall2_impl; [|exact Dl]. intros u v Hd. unfold D in Hd. replace (2 * S k)%nat with (S (S (2 * k))) by lia. replace (u + (256 + N.of_nat (length rules))) with (start + u + prev) by lia. exact Hd.
      * rewrite Nat.pow_succ_r', Ll. nia.
      * congruence.
      * rewrite app_length, map_length. lia.
      * lia.
      * intros ->. cbn [length] in Ll. lia.
Qed.

Theorem grammar_ok text : bytes_ok text -> N.of_nat (length text) < 2 ^ 32 ->
  exists g, generate_grammar text = Some g /\ slp_ok g text.
Proof.
  intros Hb Ht. unfold generate_grammar. apply (rounds_ok text Ht (length text) 0 [] 0 256 text (map (fun x => [x]) text)); auto.
  - intros [|i] a b H; discriminate.
  - cbn. lia.
  - clear Ht. induction Hb; cbn [map]; constructor; auto. rewrite N.add_0_r. constructor. exact H.
  - cbn. lia.
  - clear. induction text; cbn; congruence.
Qed.

(** ** The plain coder *)
Lemma plain_rules_ok w : (1 <= w <= 64)%nat -> forall rules fuel s,
  Forall (fun r => fst r < 2 ^ N.of_nat w /\ snd r < 2 ^ N.of_nat w) rules -> (length rules <= fuel)%nat ->
  bisR s (concat (map (fun r => write_int (fst r) w ++ write_int (snd r) w) rules)) ->
  plain_slp_rules fuel w s = Some rules.
Proof.
  intros Hw. induction rules as [|[a b] rules IH]; intros fuel s HF Hf HR.
  - destruct fuel; cbn [plain_slp_rules]; rewrite (bisR_eofb _ _ HR); reflexivity.
  - destruct fuel as [|fuel]; [cbn in Hf; lia|]. inversion HF as [|? ? [Ha Hb] HF']; subst. cbn [fst snd] in *.
    cbn [map concat fst snd] in HR. rewrite <- app_assoc in HR.
    cbn [plain_slp_rules]. rewrite (bisR_eofb _ _ HR).
    destruct (write_int a w ++ _) as [|z0 z] eqn:Ez.
    { exfalso. apply (f_equal (@length bool)) in Ez. rewrite app_length, write_int_length in Ez. cbn in Ez. lia. }
    rewrite <- Ez in HR. clear Ez.
    pose proof (rd_int_sim _ _ _ bis_sim w _ _ HR) as [H1 H2]. rewrite rd_int_ok in H1, H2 by lia. cbn [fst snd] in H1, H2.
    destruct (rd_int bis_read_bit w s) as [a' s1]. cbn [fst snd] in H1, H2.
    pose proof (rd_int_sim _ _ _ bis_sim w _ _ H2) as [H3 H4]. rewrite rd_int_ok in H3, H4 by lia. cbn [fst snd] in H3, H4.
    destruct (rd_int bis_read_bit w s1) as [b' s2]. cbn [fst snd] in H3, H4.
    rewrite (IH fuel s2) by (auto; cbn in Hf; lia). cbn [obind]. subst.
    rewrite !N.mod_small by auto. reflexivity.
Qed.

Lemma nth_in_bound rules : ordered rules -> Forall (fun r => fst r < 256 + N.of_nat (length rules) /\ snd r < 256 + N.of_nat (length rules)) rules.
Proof.
  intros Ho. apply Forall_forall. intros [a b] Hin. destruct (In_nth_error _ _ Hin) as [i Hi].
  assert (i < length rules)%nat by (apply nth_error_Some; congruence). destruct (Ho i a b Hi). cbn [fst snd]. lia.
Qed.

Lemma concat_len w (rules : list (N * N)) :
  (length (concat (map (fun r => write_int (fst r) w ++ write_int (snd r) w) rules)) = length rules * (2 * w))%nat.
Proof. induction rules as [|r rules IH]; [reflexivity|]. cbn [map concat length]. rewrite !app_length, !write_int_length, IH. lia. Qed.

Theorem plain_slp_roundtrip g text : slp_ok g text -> plain_slp_decode (bits_file (plain_slp_bits g)) = Some g.
Proof.
  intros (Ho & Hsz & Hg). unfold plain_slp_decode, plain_slp_bits.
  set (mx := N.of_nat (length (s_rules g)) + 256 - 1).
  set (w := if s_empty g then 0%nat else bits_forn mx).
  assert (Hw33 : bits_for mx <= 33) by (apply bits_for_min; unfold mx; lia).
  assert (Hw : (w <= 33)%nat) by (unfold w; destruct (s_empty g); unfold bits_forn; lia).
  set (body := concat (map _ (s_rules g))).
  pose proof (bisR_file (write_int (N.of_nat w) 6 ++ write_int (s_root g) w ++ body)) as HR.
  set (f := bits_file (write_int (N.of_nat w) 6 ++ write_int (s_root g) w ++ body)) in *.
  assert (Hfl : (length body <= 8 * length f)%nat).
  { pose proof (file_bits_length f) as L. unfold f in L. rewrite file_bits_bits_file in L. rewrite !app_length in L. fold f in L. lia. }
  pose proof (rd_int_sim _ _ _ bis_sim 6%nat _ _ HR) as [H1 H2]. rewrite rd_int_ok in H1, H2 by lia. cbn [fst snd] in H1, H2.
  destruct (rd_int bis_read_bit 6 (bis_open f)) as [w' s1]. cbn [fst snd] in H1, H2.
  rewrite N.mod_small in H1 by (change (2 ^ N.of_nat 6) with 64; lia). subst w'. rewrite Nat2N.id.
  pose proof (rd_int_sim _ _ _ bis_sim w _ _ H2) as [H3 H4]. rewrite rd_int_ok in H3, H4 by lia. cbn [fst snd] in H3, H4.
  destruct (rd_int bis_read_bit w s1) as [root s2]. cbn [fst snd] in H3, H4. subst root.
  destruct (s_empty g) eqn:Ee.
  - destruct Hg as (_ & Hr & Hroot). unfold body in H4. rewrite Hr in H4. cbn [map concat] in H4.
    cbn [plain_slp_rules]. rewrite (bisR_eofb _ _ H4). cbn [obind]. unfold w. cbn [Nat.eqb].
    rewrite Hroot. rewrite N.mod_small by (cbn; lia). destruct g; cbn in *; subst; reflexivity.
  - destruct Hg as (_ & _ & Hroot). pose proof (bits_for_pos mx) as Hp. pose proof (bits_for_bound mx) as Hb.
    assert (Hw1 : (1 <= w)%nat) by (unfold w, bits_forn; lia).
    assert (Ew : N.of_nat w = bits_for mx) by (unfold w, bits_forn; lia).
    assert (HB : mx < 2 ^ N.of_nat w) by (rewrite Ew; auto).
    rewrite (plain_rules_ok w) with (rules := s_rules g); auto; try lia.
    + cbn [obind]. replace (w =? 0)%nat with false by (symmetry; apply Nat.eqb_neq; lia).
      rewrite N.mod_small by (unfold mx in HB; lia). destruct g; cbn in *; subst; reflexivity.
    + pose proof (nth_in_bound (s_rules g) Ho) as HF. rewrite Forall_forall in *. intros r Hr. specialize (HF r Hr). unfold mx in HB. lia.
    + unfold body in Hfl. rewrite concat_len in Hfl. nia.
Qed.

Theorem slp_derive g text : slp_ok g text -> derive_text g = Some text.
Proof.
  intros (_ & _ & Hg). unfold derive_text. destruct (s_empty g).
  - destruct Hg as [-> _]. reflexivity.
  - destruct Hg as (_ & Hd & Hr). apply (der_rec _ _ _ _ Hd). lia.
Qed.

Theorem esp_ok text : bytes_ok text -> N.of_nat (length text) < 2 ^ 32 ->
  exists f, esp_compress text = Some f /\ esp_decompress f = Some text.
Proof.
  intros Hb Ht. destruct (grammar_ok text Hb Ht) as (g & E & Hg). unfold esp_compress, esp_decompress. rewrite E. cbn [obind].
  eexists; split; [reflexivity|]. rewrite (plain_slp_roundtrip g text Hg). cbn [obind]. apply slp_derive; auto.
Qed.
