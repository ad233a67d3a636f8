From Verif Require Import Base BitIO IntCodes Coders LooseCoders RePair RePairSpec.
Local Open Scope N_scope.

(** ** digrams *)
Lemma w32_mod x : w32 x = x mod 2 ^ 32.
Proof. reflexivity. Qed.
Lemma shiftr_small r : r < 2 ^ 32 -> N.shiftr r 32 = 0.
Proof. intros H. rewrite N.shiftr_div_pow2. apply N.div_small. exact H. Qed.
Lemma digram_left l r : l < 2 ^ 32 -> r < 2 ^ 32 -> d_left (digram l r) = l.
Proof.
  intros Hl Hr. unfold d_left, digram. rewrite N.shiftr_lor, (shiftr_small r Hr), N.lor_0_r.
  rewrite N.shiftr_shiftl_l by reflexivity. rewrite N.sub_diag, N.shiftl_0_r. rewrite w32_mod. apply N.mod_small. exact Hl.
Qed.
Lemma digram_right l r : r < 2 ^ 32 -> d_right (digram l r) = r.
Proof.
  intros Hr. unfold d_right, digram. rewrite w32_mod, <- N.land_ones, N.land_lor_distr_l, !N.land_ones.
  rewrite N.shiftl_mul_pow2, N.mod_mul by discriminate. rewrite N.lor_0_l. apply N.mod_small. exact Hr.
Qed.
Definition small (x : N) : Prop := x < 2 ^ 32.
Lemma digram_eqb a b c d : small a -> small b -> small c -> small d ->
  (digram a b =? digram c d) = pair_eqb (a, b) (c, d).
Proof.
  intros Ha Hb Hc Hd. unfold pair_eqb. cbn [fst snd].
  destruct (N.eqb_spec (digram a b) (digram c d)) as [E|E].
  - assert (a = c) by (rewrite <- (digram_left a b), <- (digram_left c d), E; auto).
    assert (b = d) by (rewrite <- (digram_right a b), <- (digram_right c d), E; auto).
    subst. rewrite !N.eqb_refl. reflexivity.
  - destruct (N.eqb_spec a c), (N.eqb_spec b d); subst; auto; congruence.
Qed.
Lemma pair_eqb_eq p q : pair_eqb p q = true <-> p = q.
Proof.
  destruct p, q. unfold pair_eqb. cbn. rewrite andb_true_iff, !N.eqb_eq. split; [intros [-> ->]; auto|intros E; inversion E; auto].
Qed.

(** ** the linked list *)
Inductive chain (text : list N) (next : list nat) (n : nat) : nat -> list N -> Prop :=
| ch_end : chain text next n n []
| ch_cons : forall i a j l, (i < n)%nat -> nth_error text i = Some a -> nth_error next i = Some j -> (i < j)%nat ->
    chain text next n j l -> chain text next n i (a :: l).
Lemma chain_le text next n i l : chain text next n i l -> (i <= n)%nat /\ (length l <= n - i)%nat.
Proof. induction 1; cbn [length]; lia. Qed.
Lemma chain_init n : forall text i, length text = n -> (i <= n)%nat -> chain text (seq 1 n) n i (skipn i text).
Proof.
  intros text i Hn Hi. remember (n - i)%nat as k eqn:Ek. revert i Hi Ek. induction k as [|k IH]; intros i Hi Ek.
  - assert (i = n) by lia. subst i. rewrite <- Hn, skipn_all. constructor.
  - rewrite (skipn_cons_nth text i 0) by lia. econstructor; try lia.
    + apply nth_error_nth'. lia.
    + rewrite nth_error_nth' with (d := O) by (rewrite seq_length; lia). rewrite seq_nth by lia. reflexivity.
    + lia.
    + apply IH; lia.
Qed.
Lemma chain_frame text next text' next' n i l : chain text next n i l ->
  (forall k, (i <= k)%nat -> nth_error text' k = nth_error text k) ->
  (forall k, (i <= k)%nat -> nth_error next' k = nth_error next k) -> chain text' next' n i l.
Proof.
  induction 1 as [|i a j l Hi Ea Ej Hij Hc IH]; intros Ht Hn; [constructor|].
  econstructor; eauto.
  - rewrite Ht; auto.
  - rewrite Hn; auto.
  - apply IH; intros k Hk; [apply Ht|apply Hn]; lia.
Qed.
Lemma walk_ok text next n i l : chain text next n i l -> forall fuel, (n - i < fuel)%nat -> walk fuel n text next i = Some l.
Proof.
  induction 1 as [|i a j l Hi Ea Ej Hij Hc IH]; intros fuel Hf; (destruct fuel as [|fuel]; [lia|]); cbn [walk].
  - rewrite Nat.ltb_irrefl. reflexivity.
  - rewrite (proj2 (Nat.ltb_lt i n)) by auto. rewrite Ea, Ej. cbn [obind]. rewrite IH by lia. reflexivity.
Qed.

(** ** replacing *)
Lemma replace_ok n a0 b0 s : small a0 -> small b0 -> forall m l i text next fuel,
  (length l <= m)%nat -> (n - i < fuel)%nat -> Forall small l ->
  (n <= length text)%nat -> (n <= length next)%nat -> chain text next n i l ->
  exists text' next', replace_loop fuel n (digram a0 b0) s text next i = Some (text', next') /\
    chain text' next' n i (repl (a0, b0) s l) /\ length text' = length text /\ length next' = length next /\
    (forall k, (k < i)%nat -> nth_error text' k = nth_error text k) /\
    (forall k, (k < i)%nat -> nth_error next' k = nth_error next k).
Proof.
  intros Ha0 Hb0. induction m as [|m IH]; intros l i text next fuel Hm Hf Hs Lt Ln Hc.
  - destruct l; cbn in Hm; [|lia]. inversion Hc; subst. destruct fuel; [lia|]. cbn [replace_loop].
    match goal with |- context [(?x <? ?y)%nat] => destruct (Nat.ltb_spec x y); [lia|] end. exists text, next. repeat split; auto.
  - destruct fuel as [|fuel]; [lia|]. cbn [replace_loop].
    inversion Hc as [|i' a j l' Hi Ea Ej Hij Hc']; subst.
    { rewrite (proj2 (Nat.ltb_ge i (i - 1))) by lia. exists text, next. repeat split; auto. }
    destruct (chain_le _ _ _ _ _ Hc') as [Hjn Hjl].
    destruct (Nat.ltb_spec i (n - 1)) as [Hin|Hin].
    2: { assert (j = n) by lia. subst j. destruct l'; [|cbn in Hjl; lia]. cbn [repl]. exists text, next. repeat split; auto. }
    rewrite Ej. cbn [obind]. destruct (Nat.leb_spec n j) as [Hj|Hj].
    { assert (j = n) by lia. subst j. destruct l'; [|cbn in Hjl; lia]. cbn [repl]. exists text, next. repeat split; auto. }
    rewrite Ea. cbn [obind].
    inversion Hc' as [|j' b k l'' Hj' Eb Ek Hjk Hc'']; subst; [lia|].
    rewrite Eb. cbn [obind].
    inversion Hs as [|? ? Sa Hs']; subst. inversion Hs' as [|? ? Sb Hs'']; subst. cbn [length] in Hm.
    rewrite digram_eqb by auto. cbn [repl].
    destruct (pair_eqb (a, b) (a0, b0)) eqn:Ep.
    + rewrite Ek. cbn [obind].
      assert (Hc2 : chain (upd text i s) (upd next i k) n k l'').
      { eapply chain_frame; [exact Hc''| |]; intros q Hq; rewrite nth_error_upd_ne by lia; auto. }
      destruct (IH l'' k (upd text i s) (upd next i k) fuel) as (t' & n' & E & C & L1 & L2 & F1 & F2);
        try (rewrite ?upd_length; lia || auto).
      rewrite upd_length in L1. rewrite upd_length in L2. exists t', n'. split; auto. split; [|split; [auto|split; [auto|split]]].
      * apply ch_cons with (j := k); [lia| | |lia|exact C].
        -- rewrite F1 by lia. apply nth_error_upd_eq. lia.
        -- rewrite F2 by lia. apply nth_error_upd_eq. lia.
      * intros q Hq. rewrite F1 by lia. apply nth_error_upd_ne. lia.
      * intros q Hq. rewrite F2 by lia. apply nth_error_upd_ne. lia.
    + destruct (IH (b :: l'') j text next fuel) as (t' & n' & E & C & L1 & L2 & F1 & F2); cbn [length]; auto; try lia.
      exists t', n'. split; auto. split; [|split; [auto|split; [auto|split]]].
      * apply ch_cons with (j := j); [lia| | |lia|exact C].
        -- rewrite F1 by lia. auto.
        -- rewrite F2 by lia. auto.
      * intros q Hq. apply F1; lia.
      * intros q Hq. apply F2; lia.
Qed.

(** ** counting *)
Lemma occ_snoc d pre a b : occ d (pre ++ [a; b]) = (occ d (pre ++ [a]) + (if pair_eqb (a, b) d then 1 else 0))%nat.
Proof.
  induction pre as [|x pre IH]; [cbn; destruct (pair_eqb (a, b) d); lia|].
  destruct pre as [|y pre]; cbn [app occ] in *; [cbn [app occ] in *; lia|]. rewrite IH. lia.
Qed.
Lemma occ_in d l : (1 <= occ d l)%nat -> Forall small l -> small (fst d) /\ small (snd d).
Proof.
  induction l as [|a [|b r] IH]; cbn [occ]; try lia. intros H Hs. inversion Hs as [|? ? Sa Hs']; subst.
  destruct (pair_eqb (a, b) d) eqn:E; [|apply IH; auto; lia].
  apply pair_eqb_eq in E. subst d. inversion Hs'; subst. split; auto.
Qed.
Definition cnt_inv (pre : list N) (cnt : list (N * nat)) (mx : N) (mc : nat) : Prop :=
  (forall a b, small a -> small b -> cnt_get cnt (digram a b) = occ (a, b) pre) /\
  (forall d, (occ d pre <= mc)%nat) /\
  (mc <> O -> exists a b, small a /\ small b /\ mx = digram a b /\ occ (a, b) pre = mc).
Lemma count_ok n : forall l pre a i text next fuel cnt mx mc,
  (n - i < fuel)%nat -> Forall small (a :: l) -> Forall small pre -> chain text next n i (a :: l) ->
  cnt_inv (pre ++ [a]) cnt mx mc ->
  exists mx' mc' cnt', count_loop fuel n text next i cnt mx mc = Some (mx', mc') /\ cnt_inv (pre ++ a :: l) cnt' mx' mc'.
Proof.
  induction l as [|b l IH]; intros pre a i text next fuel cnt mx mc Hf Hs Hpre Hc HI; (destruct fuel as [|fuel]; [lia|]); cbn [count_loop];
    inversion Hc as [|i' a' j l' Hi Ea Ej Hij Hc']; subst.
  - destruct (Nat.ltb_spec i (n - 1)); [|eauto 6]. rewrite Ej. cbn [obind]. inversion Hc'; subst.
    rewrite Nat.leb_refl. eauto 6.
  - destruct (chain_le _ _ _ _ _ Hc') as [Hjn Hjl]. cbn [length] in Hjl.
    rewrite (proj2 (Nat.ltb_lt i (n - 1))) by lia. rewrite Ej. cbn [obind].
    destruct (Nat.leb_spec n j); [lia|]. rewrite Ea. cbn [obind].
    inversion Hc' as [|j' b' k l'' Hj' Eb Ek Hjk Hc'']; subst. rewrite Eb. cbn [obind].
    inversion Hs as [|? ? Sa Hs']; subst. pose proof Hs' as Hs''. inversion Hs'' as [|? ? Sb Hsl]; subst.
    destruct HI as (I1 & I2 & I3).
    assert (HI' : forall mx' mc', (mc' = if (mc <? cnt_get cnt (digram a b) + 1)%nat then (cnt_get cnt (digram a b) + 1)%nat else mc) ->
       mx' = (if (mc <? cnt_get cnt (digram a b) + 1)%nat then digram a b else mx) ->
       cnt_inv ((pre ++ [a]) ++ [b]) ((digram a b, (cnt_get cnt (digram a b) + 1)%nat) :: cnt) mx' mc').
    { intros mx' mc' Emc Emx. rewrite I1 in Emc, Emx |- * by auto. rewrite <- app_assoc. cbn [app]. split; [|split].
      - intros c d Sc Sd. cbn [cnt_get]. rewrite digram_eqb by auto. rewrite occ_snoc.
        destruct (pair_eqb (c, d) (a, b)) eqn:E.
        + apply pair_eqb_eq in E. inversion E; subst. rewrite (proj2 (pair_eqb_eq _ _) eq_refl). reflexivity.
        + rewrite I1 by auto. destruct (pair_eqb (a, b) (c, d)) eqn:E'; [|lia]. apply pair_eqb_eq in E'. rewrite E' in E.
          rewrite (proj2 (pair_eqb_eq _ _) eq_refl) in E. discriminate.
      - intros d. rewrite occ_snoc. specialize (I2 d). destruct (pair_eqb (a, b) d) eqn:E.
        + apply pair_eqb_eq in E. subst d. destruct (Nat.ltb_spec mc (occ (a, b) (pre ++ [a]) + 1)); lia.
        + destruct (Nat.ltb_spec mc (occ (a, b) (pre ++ [a]) + 1)); lia.
      - intros Hne. destruct (Nat.ltb_spec mc (occ (a, b) (pre ++ [a]) + 1)) as [H1|H1].
        + exists a, b. repeat split; auto. rewrite occ_snoc, (proj2 (pair_eqb_eq _ _) eq_refl). lia.
        + subst mc' mx'. destruct (I3 Hne) as (c & d & Sc & Sd & -> & E). exists c, d. repeat split; auto.
          rewrite occ_snoc. destruct (pair_eqb (a, b) (c, d)) eqn:E'; [|lia].
          apply pair_eqb_eq in E'. inversion E'; subst. lia. }
    replace (pre ++ a :: b :: l) with ((pre ++ [a]) ++ b :: l) by (rewrite <- app_assoc; reflexivity).
    destruct (mc <? cnt_get cnt (digram a b) + 1)%nat eqn:Elt;
      (apply IH; [lia|auto|apply Forall_app; split; auto|exact Hc'|apply HI'; reflexivity]).
Qed.

(** ** the main loop *)
Lemma repl_cons d s a b r : repl d s (a :: b :: r) = if pair_eqb (a, b) d then s :: repl d s r else a :: repl d s (b :: r).
Proof. reflexivity. Qed.
Lemma repl_length_le d s : forall m l, (length l <= m)%nat -> (length (repl d s l) <= length l)%nat.
Proof.
  induction m as [|m IH]; intros [|a [|b r]] Hm; try (cbn [length repl] in *; auto; lia).
  rewrite repl_cons. cbn [length] in *. destruct (pair_eqb (a, b) d); cbn [length].
  - pose proof (IH r ltac:(lia)). lia.
  - pose proof (IH (b :: r) ltac:(cbn; lia)). cbn [length] in *. lia.
Qed.
Lemma repl_length_lt d s : forall m l, (length l <= m)%nat -> (1 <= occ d l)%nat -> (length (repl d s l) < length l)%nat.
Proof.
  induction m as [|m IH]; intros [|a [|b r]] Hm Ho; try (cbn [length occ] in *; lia). rewrite repl_cons. cbn [length] in *. change (occ d (a :: b :: r)) with ((if pair_eqb (a, b) d then 1 else 0) + occ d (b :: r))%nat in Ho.
  destruct (pair_eqb (a, b) d); cbn [length].
  - pose proof (repl_length_le d s _ r (le_n _)). lia.
  - pose proof (IH (b :: r) ltac:(cbn; lia) ltac:(lia)). cbn [length] in *. lia.
Qed.
Lemma repl_ne d s l : l <> [] -> repl d s l <> [].
Proof. destruct l as [|a [|b r]]; cbn [repl]; auto. intros _. destruct (pair_eqb (a, b) d); discriminate. Qed.
Lemma repl_forall (P : N -> Prop) d s : P s -> forall m l, (length l <= m)%nat -> Forall P l -> Forall P (repl d s l).
Proof.
  intros Hs. induction m as [|m IH]; intros [|a [|b r]] Hm H; try (cbn [length repl] in *; auto; lia).
  inversion H as [|? ? H1 H2]; subst. pose proof H2 as H2'. inversion H2'; subst. rewrite repl_cons. cbn [length] in *. destruct (pair_eqb (a, b) d); constructor; auto; (apply IH; [cbn [length]; lia|auto]).
Qed.
Lemma derives_app text g l : derives text g l -> (length g + length l <= length text)%nat /\ (text <> [] -> l <> []).
Proof.
  induction 1 as [|g l d H [IH1 IH2] Ho Hm]; [split; auto; cbn; lia|]. rewrite app_length. cbn [length]. split.
  - pose proof (repl_length_lt d (256 + N.of_nat (length g)) _ l (le_n _) ltac:(lia)). lia.
  - intros Hne. apply repl_ne; auto.
Qed.
Definition below (g : nat) (x : N) : Prop := x < 256 + N.of_nat g.
Lemma derives_below text g l : Forall (fun c => c < 256) text -> derives text g l ->
  Forall (below (length g)) l /\ forall k a b, nth_error g k = Some (a, b) -> below k a /\ below k b.
Proof.
  intros Ht. induction 1 as [|g l d H [IH1 IH2] Ho Hm].
  - split; [|intros [] ? ?; discriminate]. revert Ht. apply Forall_impl. intros a Ha. unfold below. lia.
  - rewrite app_length. cbn [length]. split.
    + eapply repl_forall; [unfold below; lia|apply le_n|]. revert IH1. apply Forall_impl. unfold below. intros; lia.
    + intros k a b Hk. destruct (Nat.lt_ge_cases k (length g)) as [Hkl|Hkl].
      * rewrite nth_error_app1 in Hk by auto. eauto.
      * rewrite nth_error_app2 in Hk by auto. destruct (k - length g)%nat as [|q] eqn:Eq; cbn in Hk; [|destruct q; discriminate].
        apply Some_inj in Hk. assert (k = length g) by lia. subst k.
        assert (G : forall m, (1 <= occ d m)%nat -> Forall (below (length g)) m -> below (length g) (fst d) /\ below (length g) (snd d)).
        { clear. induction m as [|x [|y r] IH]; cbn [occ]; try lia. intros H Hs. inversion Hs as [|? ? Sa Hs']; subst.
          destruct (pair_eqb (x, y) d) eqn:E; [|apply IH; auto; lia].
          apply pair_eqb_eq in E. subst d. inversion Hs'; subst. split; auto. }
        destruct (G l ltac:(lia) IH1) as [G1 G2]. subst d. auto.
Qed.

Definition dig (d : N * N) : N := digram (fst d) (snd d).
Lemma rp_loop_ok input max_rules : Forall (fun c => c < 256) input -> input <> [] ->
  N.of_nat (length input) + 256 <= 2 ^ 32 ->
  forall fuel text next g l,
  (length l <= fuel)%nat -> derives input g l -> chain text next (length input) 0 l ->
  length text = length input -> length next = length input ->
  exists text' next' g' l', rp_loop fuel (length input) max_rules text next (map dig g) = Some (text', next', map dig g') /\
    derives input g' l' /\ chain text' next' (length input) 0 l' /\
    (irreducible l' \/ max_rules <= N.of_nat (length g')) /\
    ((length g' <= length g)%nat \/ N.of_nat (length g') <= max_rules \/ (length g' <= length g + 1)%nat).
Proof.
  intros Hb Hne Hn. set (n := length input) in *.
  induction fuel as [|fuel IH]; intros text next g l Hf Hd Hc Lt Ln.
  - destruct (derives_app _ _ _ Hd) as [_ H]. specialize (H Hne). destruct l; [congruence|cbn in Hf; lia].
  - destruct (derives_app _ _ _ Hd) as [Hlen Hln]. specialize (Hln Hne). fold n in Hlen.
    destruct (derives_below _ _ _ Hb Hd) as [Hbl _].
    assert (Hsm : Forall small l) by (revert Hbl; apply Forall_impl; unfold below, small; intros; lia).
    destruct l as [|a l]; [congruence|]. cbn [rp_loop].
    destruct (count_ok n l [] a 0 text next (n + 1) [] 0 0) as (mx & mc & cnt & E & I1 & I2 & I3); auto.
    { lia. }
    { split; [|split]; [intros; reflexivity|intros; cbn; lia|congruence]. }
    cbn [app] in *. rewrite E. cbn [obind].
    destruct (Nat.ltb_spec 1 mc) as [Hmc|Hmc].
    2: { exists text, next, g, (a :: l). split; auto. split; auto. split; auto. split; [|left; lia]. left.
         intros d. specialize (I2 d). lia. }
    destruct (I3 ltac:(lia)) as (x & y & Sx & Sy & -> & Ho).
    rewrite map_length. cbn [length] in *.
    replace (w32 (256 + N.of_nat (length g))) with (256 + N.of_nat (length g)) by (rewrite w32_mod, N.mod_small; lia).
    destruct (replace_ok n x y (256 + N.of_nat (length g)) Sx Sy _ (a :: l) 0 text next (n + 1) (le_n _)) as (t' & n' & E2 & C2 & L1 & L2 & _); auto; try lia.
    rewrite E2. cbn [obind].
    assert (Hd' : derives input (g ++ [(x, y)]) (repl (x, y) (256 + N.of_nat (length g)) (a :: l))).
    { constructor; auto; [lia|]. intros d'. rewrite Ho. apply I2. }
    change [digram x y] with (map dig [(x, y)]). rewrite <- map_app.
    pose proof (repl_length_lt (x, y) (256 + N.of_nat (length g)) _ (a :: l) (le_n _) ltac:(lia)) as Hlt. cbn [length] in Hlt.
    rewrite map_length.
    destruct (N.ltb_spec (N.of_nat (length (g ++ [(x, y)]))) max_rules) as [Hr|Hr].
    + destruct (IH t' n' (g ++ [(x, y)]) (repl (x, y) (256 + N.of_nat (length g)) (a :: l))) as (t2 & n2 & g2 & l2 & E3 & D3 & C3 & F3 & B3); auto; try lia.
      rewrite E3. exists t2, n2, g2, l2. split; auto. split; auto. split; auto. split; auto.
      right. left. destruct B3 as [B3|[B3|B3]]; lia.
    + exists t', n', (g ++ [(x, y)]), (repl (x, y) (256 + N.of_nat (length g)) (a :: l)).
      split; auto. split; auto. split; auto. split; auto. right. right. rewrite app_length. cbn [length]. lia.
Qed.

(** ** expansion *)
Lemma stands_app g d x u : stands g x u -> stands (g ++ [d]) x u.
Proof.
  induction 1; [constructor; auto|]. econstructor; eauto. rewrite nth_error_app1; auto. apply nth_error_Some. congruence.
Qed.
Definition expands (g : list (N * N)) (l text : list N) : Prop := exists us, Forall2 (stands g) l us /\ concat us = text.
Lemma repl_expands g a b s : (forall u v, stands g a u -> stands g b v -> stands g s (u ++ v)) ->
  forall m l text, (length l <= m)%nat -> expands g l text -> expands g (repl (a, b) s l) text.
Proof.
  intros Hs. induction m as [|m IH]; intros [|x [|y r]] text Hm H; try (cbn [length] in *; auto; lia).
  destruct H as (us & HF & Ec). inversion HF as [|? u ? us1 Hx HF1]; subst. pose proof HF1 as HF1'. inversion HF1' as [|? v ? us2 Hy HF2]; subst.
  rewrite repl_cons. cbn [length] in Hm. destruct (pair_eqb (x, y) (a, b)) eqn:E.
  - apply pair_eqb_eq in E. inversion E; subst. destruct (IH r (concat us2) ltac:(lia)) as (ws & W1 & W2); [exists us2; auto|].
    exists ((u ++ v) :: ws). split; [constructor; auto|]. cbn [concat]. rewrite W2, app_assoc. reflexivity.
  - destruct (IH (y :: r) (concat (v :: us2)) ltac:(cbn [length]; lia)) as (ws & W1 & W2); [exists (v :: us2); auto|].
    exists (u :: ws). split; [constructor; auto|]. cbn [concat] in *. rewrite W2. reflexivity.
Qed.
Lemma derives_expands text g l : Forall (fun c => c < 256) text -> derives text g l -> expands g l text.
Proof.
  intros Ht. induction 1 as [|g l d H IH Ho Hm].
  - exists (map (fun x => [x]) text). split.
    + induction Ht; cbn [map]; constructor; auto. constructor; auto.
    + clear. induction text; cbn [map concat app]; congruence.
  - destruct d as [a b]. apply (repl_expands _ a b) with (m := length l); [|apply le_n|].
    + intros u v Hu Hv. eapply st_rule; [lia| |exact Hu|exact Hv].
      replace (N.to_nat (256 + N.of_nat (length g) - 256)) with (length g) by lia.
      rewrite nth_error_app2, Nat.sub_diag by lia. reflexivity.
    + destruct IH as (us & HF & Ec). exists us. split; auto.
      clear - HF. induction HF; constructor; auto. apply stands_app; auto.
Qed.
Definition acyclic (g : list (N * N)) : Prop := forall k a b, nth_error g k = Some (a, b) -> below k a /\ below k b.
Lemma expand_ok g : acyclic g -> N.of_nat (length g) + 256 <= 2 ^ 32 ->
  forall x u, stands g x u -> forall m, x < 256 + N.of_nat m -> rp_expand (S m) (map dig g) x = Some u.
Proof.
  intros Ha Hg. induction 1 as [x Hx|x a b u v Hx En Hu IHu Hv IHv]; intros m Hm.
  - cbn [rp_expand]. rewrite (proj2 (N.ltb_lt _ _) Hx). unfold w8. rewrite N.mod_small by auto. reflexivity.
  - destruct m as [|m]; [lia|]. remember (S m) as m1. cbn [rp_expand]. destruct (N.ltb_spec x 256); [lia|].
    rewrite nth_error_map, En. cbn [option_map obind].
    assert (Hk : (N.to_nat (x - 256) < length g)%nat) by (apply nth_error_Some; congruence).
    destruct (Ha _ _ _ En) as [Ba Bb]. unfold below in *. unfold dig. cbn [fst snd].
    rewrite digram_left, digram_right by lia. subst m1. rewrite IHu, IHv by lia. reflexivity.
Qed.

(** ** the calls *)
Lemma sym_calls_ok x r : x < 256 \/ x - 256 <= r -> r < 2 ^ 64 -> Forall call_ok (sym_calls x r).
Proof.
  intros H Hr. unfold sym_calls. destruct (N.ltb_spec x 256); repeat constructor; cbn; try lia.
Qed.
Lemma dig_small g k d : acyclic g -> N.of_nat (length g) + 256 <= 2 ^ 32 -> nth_error g k = Some d ->
  d_left (dig d) = fst d /\ d_right (dig d) = snd d /\ below k (fst d) /\ below k (snd d) /\ (k < length g)%nat.
Proof.
  intros Ha Hg E. assert (Hk : (k < length g)%nat) by (apply nth_error_Some; congruence).
  destruct d as [a b]. destruct (Ha _ _ _ E). unfold below, dig in *. cbn [fst snd].
  rewrite digram_left, digram_right by lia. auto.
Qed.
Lemma rule_calls_ok g : acyclic g -> N.of_nat (length g) + 256 <= 2 ^ 32 -> forall k, (k <= length g)%nat ->
  Forall call_ok (rule_calls k (map dig (skipn k g))).
Proof.
  intros Ha Hg k Hk. remember (length g - k)%nat as q eqn:Eq. revert k Hk Eq. induction q as [|q IH]; intros k Hk Eq.
  - assert (k = length g) by lia. subst k. rewrite skipn_all. constructor.
  - rewrite (skipn_cons_nth g k (0, 0)) by lia. cbn [map rule_calls].
    destruct (dig_small g k (nth k g (0, 0)) Ha Hg) as (-> & -> & B1 & B2 & _); [apply nth_error_nth'; lia|]. unfold below in *.
    apply Forall_app. split; [apply sym_calls_ok; lia|]. apply Forall_app. split; [apply sym_calls_ok; lia|]. apply IH; lia.
Qed.
Lemma text_calls_ok l r : Forall (below r) l -> N.of_nat r < 2 ^ 64 -> Forall call_ok (flat_map (fun x => sym_calls x (N.of_nat r)) l).
Proof.
  intros H Hr. induction H as [|x l Hx H IH]; cbn [flat_map]; [constructor|]. apply Forall_app. split; auto.
  apply sym_calls_ok; auto. unfold below in Hx. lia.
Qed.
Lemma lits_of_app a b : lits_of (a ++ b) = lits_of a ++ lits_of b.
Proof. unfold lits_of. apply flat_map_app. Qed.
Lemma lits_sym x r : lits_of (sym_calls x r) = if x <? 256 then [x] else [].
Proof. unfold sym_calls. destruct (x <? 256); reflexivity. Qed.
Lemma lits_announced sq g : incl (lits_of (rp_calls sq g)) (rp_literals sq g).
Proof.
  unfold rp_calls, rp_literals. change (lits_of (_ :: ?a)) with (lits_of a). rewrite lits_of_app. apply incl_app.
  - apply incl_appr. generalize O. induction g as [|d g IH]; intros k; cbn [rule_calls flat_map]; [intros x []|].
    rewrite !lits_of_app, !lits_sym. rewrite <- !app_assoc.
    assert (E : forall x, (if x <? 256 then [w8 x] else []) = (if x <? 256 then [x] else [])).
    { intros x. destruct (N.ltb_spec x 256); auto. unfold w8. rewrite N.mod_small by auto. reflexivity. }
    rewrite !E. apply incl_app; [apply incl_appl, incl_refl|]. apply incl_appr.
    apply incl_app; [apply incl_appl, incl_refl|]. apply incl_appr. apply IH.
  - apply incl_appl. generalize (N.of_nat (length g)). intros r. induction sq as [|x sq IH]; cbn [flat_map map]; [intros y []|].
    rewrite lits_of_app, lits_sym. apply incl_app.
    + destruct (N.ltb_spec x 256); [|intros y []]. intros y [<-|[]]. left. unfold w8. rewrite N.mod_small by auto. reflexivity.
    + apply incl_tl, IH.
Qed.
Lemma literals_bytes sq g : Forall (fun x => x < 256) (rp_literals sq g).
Proof.
  assert (W : forall x, w8 x < 256) by (intros x; unfold w8; apply N.mod_lt; discriminate).
  unfold rp_literals. apply Forall_app. split.
  - apply Forall_map, Forall_forall. auto.
  - apply Forall_flat_map, Forall_forall. intros d _. apply Forall_app.
    split; [destruct (d_left d <? 256)|destruct (d_right d <? 256)]; repeat constructor; auto.
Qed.

(** ** decoding *)
Section Dec.
  Variables (c : coder) (R : c_st c -> list call -> Prop).
  Hypothesis HD : decodes c R.
  Lemma decode_sym_ok x r s rest : R s (sym_calls x r ++ rest) -> small x ->
    c_eof c s = false /\ exists s', decode_sym c r s = Some (x, s') /\ R s' rest.
  Proof.
    intros HR Hx. destruct HD as [_ D]. unfold sym_calls in HR. unfold decode_sym.
    destruct (N.ltb_spec x 256) as [Hl|Hl]; cbn [app] in HR; destruct (D _ _ _ _ HR) as (E0 & s1 & E1 & R1); (split; [exact E0|]);
      destruct (D _ _ _ _ R1) as (_ & s2 & E2 & R2); rewrite E1; cbn [obind call_val]; cbn [N.eqb].
    - exists s2. rewrite E2. cbn [call_val]. unfold w8. rewrite N.mod_small by auto. auto.
    - rewrite E2. cbn [obind call_val]. exists s2. split; auto. change (1 =? 0) with false. cbn iota. f_equal. f_equal.
      unfold small in Hx. rewrite !w32_mod. rewrite (N.mod_small (x - 256)) by lia. rewrite N.mod_small by lia. lia.
  Qed.
  Lemma decode_rules_ok g : acyclic g -> N.of_nat (length g) + 256 <= 2 ^ 32 -> forall q k s rest, q = (length g - k)%nat -> (k <= length g)%nat ->
    R s (rule_calls k (map dig (skipn k g)) ++ rest) ->
    exists s', decode_rules c q (map dig (firstn k g)) s = Some (map dig g, s') /\ R s' rest.
  Proof.
    intros Ha Hg. induction q as [|q IH]; intros k s rest Eq Hk HR.
    - assert (k = length g) by lia. subst k. rewrite firstn_all. rewrite skipn_all in HR. exists s. auto.
    - rewrite (skipn_cons_nth g k (0, 0)) in HR by lia. cbn [map rule_calls] in HR.
      assert (En : nth_error g k = Some (nth k g (0, 0))) by (apply nth_error_nth'; lia).
      destruct (dig_small g k (nth k g (0, 0)) Ha Hg En) as (E1 & E2 & B1 & B2 & _). rewrite E1, E2 in HR. unfold below in *.
      rewrite <- !app_assoc in HR. cbn [decode_rules]. rewrite map_length, firstn_length_le by lia.
      destruct (decode_sym_ok _ _ _ _ HR) as (_ & s1 & -> & R1); [unfold small; lia|]. cbn [obind].
      destruct (decode_sym_ok _ _ _ _ R1) as (_ & s2 & -> & R2); [unfold small; lia|]. cbn [obind].
      change (digram (fst ?x) (snd ?x)) with (dig x).
      replace (map dig (firstn k g) ++ [dig (nth k g (0, 0))]) with (map dig (firstn (S k) g)).
      + apply IH; auto; lia.
      + rewrite <- (firstn_skipn k (firstn (S k) g)). rewrite firstn_firstn, Nat.min_l by lia. rewrite map_app. f_equal.
        rewrite skipn_firstn_comm. replace (S k - k)%nat with 1%nat by lia. rewrite (skipn_cons_nth g k (0, 0)) by lia. reflexivity.
  Qed.
  Lemma decode_text_ok g : acyclic g -> N.of_nat (length g) + 256 <= 2 ^ 32 -> forall l us, Forall2 (stands g) l us ->
    Forall (below (length g)) l -> forall fuel s, (length l <= fuel)%nat ->
    R s (flat_map (fun x => sym_calls x (N.of_nat (length g))) l) ->
    decode_text c fuel (map dig g) s = Some (concat us).
  Proof.
    intros Ha Hg. induction 1 as [|x u l us Hx HF IH]; intros Hb fuel s Hf HR.
    - destruct HD as [D _]. cbn [flat_map] in HR. destruct fuel; cbn [decode_text]; rewrite D by auto; reflexivity.
    - inversion Hb as [|? ? B1 B2]; subst. cbn [flat_map] in HR. cbn [length] in Hf. destruct fuel as [|fuel]; [lia|].
      cbn [decode_text]. unfold below in B1.
      destruct (decode_sym_ok _ _ _ _ HR) as (E0 & s1 & E1 & R1); [unfold small; lia|]. rewrite E0, map_length, E1. cbn [obind].
      rewrite (expand_ok g Ha Hg x u Hx) by auto. cbn [obind]. rewrite (IH B2 fuel) by (auto; lia). reflexivity.
  Qed.
End Dec.
