(** Proofs about the sliding-window LZSS of LZSS.v. *)
From Verif Require Import Base BitIO IntCodes IntCodesProofs Coders CodersProofs LooseCoders LZSS LZSSSpec LZSSProofs.
Local Open Scope nat_scope.

Lemma match_len_le a b : match_len a b <= length a /\ match_len a b <= length b.
Proof.
  revert b; induction a as [|x a IH]; intros [|y b]; simpl; try lia.
  destruct (x =? y)%N; [|lia]. specialize (IH b). lia.
Qed.
Lemma match_len_eq a b : forall i, i < match_len a b -> nth_error a i = nth_error b i.
Proof.
  revert b; induction a as [|x a IH]; intros [|y b] i H; simpl in *; try lia.
  destruct (x =? y)%N eqn:E; [|lia]. destruct i as [|i].
  - simpl. f_equal. lia.
  - simpl. apply IH. lia.
Qed.
Lemma nth_error_skipn' {A} (l : list A) k i : nth_error (skipn k l) i = nth_error l (k + i).
Proof. revert l; induction k; intros l; simpl; auto. destruct l; simpl; auto. destruct i; auto. Qed.

(** a factor (k, j) found by the search really is a match *)
Definition good_match (buf : list N) (ahead : nat) (b : nat * nat) : Prop :=
  snd b = 0 \/ (fst b < ahead /\ ahead + snd b <= length buf /\
    forall i, i < snd b -> nth_error buf (fst b + i) = nth_error buf (ahead + i)).
Lemma win_search_good buf ahead thr ks : forall best, ahead <= length buf ->
  (forall k, In k ks -> k < ahead) -> good_match buf ahead best ->
  good_match buf ahead (win_search buf ahead thr ks best).
Proof.
  induction ks as [|k ks IH]; intros best Ha Hk Hb; simpl; auto.
  apply IH; auto; [intros; apply Hk; right; auto|].
  set (j := match_len (skipn k buf) (skipn ahead buf)).
  destruct ((thr <=? j) && (snd best <? j)); auto.
  right. simpl. split; [apply Hk; left; auto|].
  pose proof (match_len_le (skipn k buf) (skipn ahead buf)) as [L1 L2]. fold j in L1, L2.
  rewrite !skipn_length in *. specialize (Hk k (or_introl eq_refl)). split; [lia|].
  intros i Hi. rewrite <- !nth_error_skipn'. apply match_len_eq; auto.
Qed.

(** state invariant *)
Record winv (window : nat) (text : list N) (s : win) : Prop := {
  wi_text : text = firstn (w_off s) text ++ w_buf s ++ w_ins s;
  wi_off : w_off s <= length text;
  wi_ahead : w_ahead s <= length (w_buf s);
  wi_size : length (w_buf s) <= 2 * window;
  wi_rest : w_ins s <> [] -> length (w_buf s) = 2 * window /\ w_ahead s <= window /\ w_eof s = false }.
Definition wpos (s : win) := w_off s + w_ahead s.

Lemma buf_nth window text s i : winv window text s -> i < length (w_buf s) ->
  nth_error (w_buf s) i = nth_error text (w_off s + i).
Proof.
  intros H Hi. transitivity (nth_error (firstn (w_off s) text ++ w_buf s ++ w_ins s) (w_off s + i));
    [|rewrite <- (wi_text _ _ _ H); reflexivity]. rewrite nth_error_app2 by (rewrite firstn_length; pose proof (wi_off _ _ _ H); lia).
  rewrite firstn_length. replace (w_off s + i - Nat.min (w_off s) (length text)) with i by (pose proof (wi_off _ _ _ H); lia).
  rewrite nth_error_app1 by auto. reflexivity.
Qed.
Lemma winv_len window text s : winv window text s -> length text = w_off s + length (w_buf s) + length (w_ins s).
Proof.
  intros H. rewrite (wi_text _ _ _ H) at 1. rewrite !app_length, firstn_length. pose proof (wi_off _ _ _ H). lia.
Qed.
Lemma win_adv1_ok window text s k : 1 <= window -> winv window text s -> w_ahead s + S k <= length (w_buf s) ->
  winv window text (win_adv1 window s) /\ wpos (win_adv1 window s) = wpos s + 1 /\
  w_ahead (win_adv1 window s) + k <= length (w_buf (win_adv1 window s)).
Proof.
  intros Hw H Hk. destruct H as [H1 H2 H3 H4 H5]. unfold win_adv1, wpos.
  destruct (w_ahead s <? window) eqn:E.
  - apply Nat.ltb_lt in E. cbn [w_off w_ahead w_buf w_ins w_eof]. split; [|split; lia].
    split; cbn [w_off w_ahead w_buf w_ins w_eof]; auto; try lia.
    intros Hne; destruct (H5 Hne) as (A & B & C); repeat split; auto; lia.
  - apply Nat.ltb_ge in E. destruct (w_eof s) eqn:Ee.
    + simpl. assert (Hi : w_ins s = []) by (destruct (w_ins s); auto; destruct (H5 ltac:(discriminate)) as (_ & _ & ?); discriminate).
      cbn [w_off w_ahead w_buf w_ins w_eof]. split; [|split; lia].
      split; cbn [w_off w_ahead w_buf w_ins w_eof]; auto; try lia; try (intros Hne; contradiction).
    + destruct (w_ins s) as [|x ins] eqn:Ei.
      * cbn [w_off w_ahead w_buf w_ins w_eof]. split; [|split; lia].
        split; cbn [w_off w_ahead w_buf w_ins w_eof]; auto; try lia; try (intros Hne; contradiction).
      * destruct (w_buf s) as [|b buf] eqn:Eb; [simpl in *; lia|].
        destruct (H5 ltac:(discriminate)) as (A & B & C). simpl.
        assert (Hlen : length text = w_off s + S (length buf) + S (length ins)).
        { rewrite H1 at 1. rewrite !app_length, firstn_length. simpl. lia. }
        split; [|simpl in *; rewrite app_length; simpl; lia].
        split; simpl.
        -- assert (Hf : firstn (w_off s + 1) text = firstn (w_off s) text ++ [b]).
           { rewrite H1 at 1. rewrite firstn_app, firstn_length. 
             rewrite firstn_firstn. replace (Nat.min (w_off s + 1) (w_off s)) with (w_off s) by lia.
             f_equal. replace (w_off s + 1 - Nat.min (w_off s) (length text)) with 1 by lia. reflexivity. }
           rewrite Hf, <- !app_assoc. simpl. rewrite H1 at 1. reflexivity.
        -- lia.
        -- rewrite app_length; simpl in *; lia.
        -- rewrite app_length; simpl in *; lia.
        -- intros _. rewrite app_length; simpl in *. repeat split; auto; lia.
Qed.
Lemma win_adv_ok window text k : 1 <= window -> forall s, winv window text s -> w_ahead s + k <= length (w_buf s) ->
  winv window text (win_adv window k s) /\ wpos (win_adv window k s) = wpos s + k.
Proof.
  intros Hw. induction k as [|k IH]; intros s H Hk; cbn [win_adv].
  - split; auto.
  - destruct (win_adv1_ok window text s k Hw H Hk) as (A & B & C).
    destruct (IH _ A C) as (D & E). split; auto. lia.
Qed.

Lemma win_copy_ok text num : forall p src, src < p -> p + num <= length text ->
  (forall j, j < num -> nth_error text (src + j) = nth_error text (p + j)) ->
  win_copy (firstn p text) src num = Some (firstn (p + num) text).
Proof.
  assert (FS : forall (t : list N) p x, nth_error t p = Some x -> firstn p t ++ [x] = firstn (S p) t).
  { induction t as [|y t IH]; intros [|p] x H; simpl in *; try discriminate.
    - apply Some_inj in H. subst; auto.
    - f_equal; auto. }
  assert (FN : forall (t : list N) p i, i < p -> nth_error (firstn p t) i = nth_error t i).
  { induction t as [|y t IH]; intros [|p] [|i] H; simpl; auto; try lia. apply IH; lia. }
  induction num as [|num IH]; intros p src H1 H2 H3; simpl.
  - rewrite Nat.add_0_r. reflexivity.
  - rewrite FN by lia. specialize (H3 0 ltac:(lia)) as H0. rewrite !Nat.add_0_r in H0. rewrite H0.
    destruct (nth_error text p) as [x|] eqn:E; [|apply nth_error_None in E; lia]. cbn [obind].
    rewrite (FS text p x E). replace (S p) with (p + 1) by lia. rewrite IH; try lia.
    + f_equal. f_equal. lia.
    + intros j Hj. specialize (H3 (S j) ltac:(lia)).
      replace (src + 1 + j) with (src + S j) by lia. replace (p + 1 + j) with (p + S j) by lia. auto.
Qed.

Definition win_fits (ex : call -> Prop) (window : nat) : Prop :=
  forall m, m < 2 * window -> ex (nn m, RInt 0 (nn window)).

Section Win.
  Variables (c : coder) (ex : call -> Prop) (R : c_st c -> list call -> Prop).
  Hypothesis HD : decodes_ex c ex R.
  Hypothesis Hex : forall x, call_ok x -> ex x.
  Variables (text : list N) (window thr : nat).
  Hypothesis Hw : 1 <= window.
  Hypothesis Hfit : win_fits ex window.
  Hypothesis Hb : bytes_ok text.
  Hypothesis Hn64 : (nn (length text) < 2 ^ 64)%N.

  Lemma k0_range ahead : forall k, In k (seq (if window <? ahead then ahead - window else 0)
      (ahead - (if window <? ahead then ahead - window else 0))) -> k < ahead.
  Proof. intros k Hk. apply in_seq in Hk. destruct (window <? ahead); lia. Qed.

  (** the encoder makes well-formed calls *)
  Lemma win_loop_calls fuel : forall s, winv window text s -> length text - wpos s < fuel ->
    (nn (2 * window) < 2 ^ 64)%N ->
    exists cs, win_loop fuel window thr s = Some cs /\ Forall call_loose cs.
  Proof.
    induction fuel as [|fuel IH]; intros s H Hf Hw64; [lia|]. cbn [win_loop].
    pose proof (winv_len _ _ _ H) as HL. pose proof (wi_ahead _ _ _ H) as HA.
    destruct (w_ahead s <? length (w_buf s)) eqn:E; [|eauto]. apply Nat.ltb_lt in E.
    set (k0 := if window <? w_ahead s then w_ahead s - window else 0).
    pose proof (win_search_good (w_buf s) (w_ahead s) thr (seq k0 (w_ahead s - k0)) (0, 0) HA
                  (k0_range (w_ahead s)) (or_introl eq_refl)) as HG.
    destruct (win_search _ _ _ _ _) as [k fnum]. unfold good_match in HG. cbn [fst snd] in HG.
    pose proof (wi_size _ _ _ H) as HS. unfold wpos in *.
    destruct (0 <? fnum) eqn:F.
    - apply Nat.ltb_lt in F. destruct HG as [HG|(G1 & G2 & G3)]; [lia|].
      destruct (win_adv_ok window text fnum Hw s H G2) as (A & B). unfold wpos in B.
      destruct (IH _ A ltac:(lia) Hw64) as (cs & -> & C). cbn [obind]. eexists. split; [reflexivity|].
      constructor; [cbn; lia|]. constructor; [cbn; rewrite pow64 in *; lia|].
      constructor; [cbn; rewrite pow64 in *; lia|auto].
    - destruct (win_adv_ok window text 1 Hw s H ltac:(lia)) as (A & B). unfold wpos in B.
      destruct (IH _ A ltac:(lia) Hw64) as (cs & -> & C). cbn [obind]. eexists. split; [reflexivity|].
      constructor; [cbn; lia|]. constructor; [|auto]. cbn.
      assert (Hx : nth_error (w_buf s) (w_ahead s) = nth_error text (w_off s + w_ahead s)) by (apply (buf_nth window text); auto).
      rewrite (nth_error_nth' _ 0%N) in Hx by auto. symmetry in Hx. apply nth_error_In in Hx.
      unfold bytes_ok in Hb. rewrite Forall_forall in Hb. apply Hb; auto.
  Qed.

  Lemma win_loop_dec fuel : forall s cs fuel' st, winv window text s ->
    win_loop fuel window thr s = Some cs -> length text - wpos s <= fuel' -> R st cs ->
    win_dec c fuel' window (firstn (wpos s) text) st = Some text.
  Proof.
    destruct HD as [De Dd].
    induction fuel as [|fuel IH]; intros s cs fuel' st H Hc Hf HR.
    - cbn [win_loop] in Hc. destruct (w_ahead s <? length (w_buf s)) eqn:E; [discriminate|].
      apply Some_inj in Hc; subst cs.
      assert (X : win_dec c fuel' window (firstn (wpos s) text) st = Some (firstn (wpos s) text))
        by (destruct fuel'; cbn [win_dec]; rewrite (De _ HR); reflexivity).
      rewrite X. f_equal. apply firstn_all2. pose proof (winv_len _ _ _ H). pose proof (wi_ahead _ _ _ H).
      apply Nat.ltb_ge in E. unfold wpos. destruct (w_ins s) as [|y ins] eqn:Ei; [simpl in *; lia|].
      destruct (wi_rest _ _ _ H) as (A & B & _); [congruence|]. lia.
    - cbn [win_loop] in Hc.
      pose proof (winv_len _ _ _ H) as HL. pose proof (wi_ahead _ _ _ H) as HA.
      destruct (w_ahead s <? length (w_buf s)) eqn:E.
      2:{ apply Some_inj in Hc; subst cs.
          assert (X : win_dec c fuel' window (firstn (wpos s) text) st = Some (firstn (wpos s) text))
            by (destruct fuel'; cbn [win_dec]; rewrite (De _ HR); reflexivity).
          rewrite X. f_equal. apply firstn_all2.
          apply Nat.ltb_ge in E. unfold wpos. destruct (w_ins s) as [|y ins] eqn:Ei; [simpl in *; lia|].
          destruct (wi_rest _ _ _ H) as (A & B & _); [congruence|]. lia. }
      apply Nat.ltb_lt in E.
      set (k0 := if window <? w_ahead s then w_ahead s - window else 0) in Hc.
      pose proof (win_search_good (w_buf s) (w_ahead s) thr (seq k0 (w_ahead s - k0)) (0, 0) HA
                    (k0_range (w_ahead s)) (or_introl eq_refl)) as HG.
      destruct (win_search _ _ _ _ _) as [k fnum]. unfold good_match in HG. cbn [fst snd] in HG.
      pose proof (wi_size _ _ _ H) as HS.
      assert (HP : length (firstn (wpos s) text) = wpos s) by (rewrite firstn_length; unfold wpos; lia).
      destruct fuel' as [|fuel']; [unfold wpos in *; lia|].
      destruct (0 <? fnum) eqn:F.
      + apply Nat.ltb_lt in F. destruct HG as [HG|(G1 & G2 & G3)]; [lia|].
        destruct (win_adv_ok window text fnum Hw s H G2) as (A & B).
        destruct (win_loop fuel window thr (win_adv window fnum s)) as [cs'|] eqn:L; [|discriminate].
        cbn [obind] in Hc. apply Some_inj in Hc; subst cs. cbn [win_dec].
        destruct (Dd _ _ _ _ HR) as (D0 & v1 & s1 & D1 & V1 & HR1). rewrite D0, D1. cbn [obind].
        rewrite (V1 (Hex (1%N, RBit) ltac:(cbn; lia))). change (1 =? 0)%N with false. cbv iota.
        destruct (Dd _ _ _ _ HR1) as (_ & v2 & s2 & D2 & V2 & HR2). rewrite HP. unfold wpos at 1.
        rewrite D2. cbn [obind].
        rewrite (V2 (Hex (nn (w_ahead s - k), RInt 0 (nn (w_off s + w_ahead s)))
                   ltac:(apply ok_int; [lia|rewrite pow64 in *; lia]))).
        destruct (Dd _ _ _ _ HR2) as (_ & v3 & s3 & D3 & V3 & HR3). rewrite D3. cbn [obind].
        rewrite (V3 (Hfit fnum ltac:(lia))).
        replace (nn (wpos s) <? nn (w_ahead s - k))%N with false by (symmetry; apply N.ltb_ge; unfold wpos; lia).
        rewrite !Nat2N.id.
        rewrite win_copy_ok.
        * cbn [obind]. rewrite <- B. apply (IH _ cs'); auto. unfold wpos in *. lia.
        * unfold wpos. lia.
        * unfold wpos. lia.
        * intros j Hj. specialize (G3 j Hj). rewrite !(buf_nth window text s) in G3 by (auto; lia).
          unfold wpos. replace (w_off s + w_ahead s - (w_ahead s - k) + j) with (w_off s + (k + j)) by lia.
          rewrite G3. f_equal. lia.
      + destruct (win_adv_ok window text 1 Hw s H ltac:(lia)) as (A & B).
        destruct (win_loop fuel window thr (win_adv window 1 s)) as [cs'|] eqn:L; [|discriminate].
        cbn [obind] in Hc. apply Some_inj in Hc; subst cs. cbn [win_dec].
        destruct (Dd _ _ _ _ HR) as (D0 & v1 & s1 & D1 & V1 & HR1). rewrite D0, D1. cbn [obind].
        rewrite (V1 (Hex (0%N, RBit) ltac:(cbn; lia))). change (0 =? 0)%N with true. cbv iota.
        destruct (Dd _ _ _ _ HR1) as (_ & v2 & s2 & D2 & V2 & HR2). rewrite D2. cbn [obind].
        assert (Hx : nth_error (w_buf s) (w_ahead s) = nth_error text (w_off s + w_ahead s)) by (apply (buf_nth window text); auto).
        rewrite (nth_error_nth' _ 0%N) in Hx by auto.
        rewrite V2.
        2:{ apply Hex. cbn. symmetry in Hx. apply nth_error_In in Hx.
            unfold bytes_ok in Hb. rewrite Forall_forall in Hb. apply Hb; auto. }
        assert (FS : forall (t : list N) p x, nth_error t p = Some x -> firstn p t ++ [x] = firstn (S p) t).
        { clear. induction t as [|y t IH]; intros [|p] x H; simpl in *; try discriminate.
          - apply Some_inj in H. subst; auto.
          - f_equal; auto. }
        change (w_off s + w_ahead s) with (wpos s) in Hx.
        rewrite (FS _ _ _ (eq_sym Hx)). replace (S (wpos s)) with (wpos s + 1) by (unfold wpos; lia).
        rewrite <- B. apply (IH _ cs'); auto. unfold wpos in *. lia.
  Qed.
End Win.

Lemma winv0 window text : winv window text (mk_win (firstn (2 * window) text) 0 false (skipn (2 * window) text) 0).
Proof.
  split; cbn [w_buf w_off w_ins w_ahead w_eof].
  - simpl firstn at 1. rewrite app_nil_l, firstn_skipn. reflexivity.
  - lia.
  - lia.
  - rewrite firstn_length; lia.
  - intros Hne. rewrite firstn_length. split; [|split; [lia|auto]].
    destruct (Nat.lt_ge_cases (2 * window) (length text)); [lia|].
    exfalso. apply Hne. apply skipn_all2; auto.
Qed.

Lemma win_roundtrip_pf P ex c text window thr : coder_loose P ex c -> (forall x, call_ok x -> ex x) ->
  (forall l l' cs, c_enc c l cs = c_enc c l' cs) -> (forall l, P l) ->
  bytes_ok text -> (nn (length text) < 2 ^ 64)%N -> 1 <= window -> (nn (2 * window) < 2 ^ 64)%N ->
  win_fits ex window ->
  exists f, win_compress c window thr text = Some f /\
    forall fuel, length text <= fuel -> win_decompress c fuel window f = Some text.
Proof.
  intros HC Hex Hl HP Hb Hn Hw Hw64 Hfit. unfold win_compress.
  pose proof (winv0 window text) as W0.
  set (s0 := mk_win (firstn (2 * window) text) 0 false (skipn (2 * window) text) 0) in *.
  destruct (win_loop_calls text window thr Hw Hb Hn (S (length text)) s0) as (cs & E & Hcs); auto.
  { unfold wpos; simpl; lia. }
  rewrite E. cbn [obind]. destruct (HC cs Hcs (HP _)) as (f & st & R & E1 & E2 & HD & HR).
  exists f. split; [rewrite (Hl [] (lits_of cs)); auto|].
  intros fuel Hf. unfold win_decompress. rewrite E2. cbn [obind].
  change (@nil N) with (firstn (wpos s0) text).
  eapply win_loop_dec; eauto. unfold wpos; simpl; lia.
Qed.
