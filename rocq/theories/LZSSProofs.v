(** Proofs about LZSS.v. *)
From Verif Require Import Base BitIO IntCodes IntCodesProofs Coders CodersProofs LooseCoders LZSS LZSSSpec.
Local Open Scope nat_scope.

Lemma factors_ok_le p n fs : factors_ok p n fs -> p <= n.
Proof. revert p; induction fs as [|f fs IH]; simpl; intros p H; auto. destruct H as (A & B & C & D). apply IH in D. lia. Qed.
Lemma factors_ok_in p n fs f : factors_ok p n fs -> In f fs ->
  p <= f_pos f /\ 1 <= f_len f /\ f_src f + f_len f <= n /\ f_pos f + f_len f <= n.
Proof.
  revert p; induction fs as [|g fs IH]; simpl; intros p H Hi; [tauto|].
  destruct H as (A & B & C & D). pose proof (factors_ok_le _ _ _ D). destruct Hi as [<-|Hi]; [lia|].
  specialize (IH _ D Hi). lia.
Qed.
Lemma factors_ok_len p n fs : factors_ok p n fs -> p + length fs <= n.
Proof. revert p; induction fs as [|f fs IH]; simpl; intros p H; [lia|]. destruct H as (A & B & C & D). apply IH in D. lia. Qed.

(** ** min / max of factor lengths *)
Lemma shortest_le fs a : (forall f, In f fs -> fold_left (fun m f => N.min m (nn (f_len f))) fs a <= nn (f_len f))%N /\
  (fold_left (fun m f => N.min m (nn (f_len f))) fs a <= a)%N.
Proof.
  revert a; induction fs as [|f fs IH]; simpl; intros a; [split; [tauto|lia]|].
  destruct (IH (N.min a (nn (f_len f)))) as [I1 I2]. split; [|lia].
  intros g [<-|Hg]; [lia|auto].
Qed.
Lemma longest_ge fs a : (forall f, In f fs -> nn (f_len f) <= fold_left (fun m f => N.max m (nn (f_len f))) fs a)%N /\
  (a <= fold_left (fun m f => N.max m (nn (f_len f))) fs a)%N.
Proof.
  revert a; induction fs as [|f fs IH]; simpl; intros a; [split; [tauto|lia]|].
  destruct (IH (N.max a (nn (f_len f)))) as [I1 I2]. split; [|lia].
  intros g [<-|Hg]; [lia|auto].
Qed.
Lemma longest_bound fs a n : (a <= n)%N -> (forall f, In f fs -> nn (f_len f) <= n)%N ->
  (fold_left (fun m f => N.max m (nn (f_len f))) fs a <= n)%N.
Proof.
  revert a; induction fs as [|f fs IH]; simpl; intros a H1 H2; auto.
  apply IH; auto. specialize (H2 f (or_introl eq_refl)). lia.
Qed.
Lemma fdist_loop_ge p d fs : d <= snd (fdist_loop p d fs).
Proof. revert p d; induction fs as [|f fs IH]; simpl; intros p d; auto. specialize (IH (f_pos f + f_len f) (Nat.max d (f_pos f - p))). lia. Qed.
Lemma fdist_loop_bound p d fs n : factors_ok p n fs -> d <= n -> snd (fdist_loop p d fs) <= n /\ fst (fdist_loop p d fs) <= n.
Proof.
  revert p d; induction fs as [|f fs IH]; simpl; intros p d H Hd; auto.
  destruct H as (A & B & C & D). apply IH; auto. apply factors_ok_le in D. lia.
Qed.

(** ** The events the decoder must see *)
Fixpoint events (text : list N) (n p : nat) (fs : list factor) : list event :=
  match fs with
  | [] => map ELit (lits_between text p n)
  | f :: fs' => map ELit (lits_between text p (f_pos f)) ++
                EFac (nn (f_src f)) (nn (f_len f)) :: events text n (f_pos f + f_len f) fs'
  end.

Lemma dec_lits_ok c ex R : decodes_ex c ex R -> (forall x, call_ok x -> ex x) ->
  forall l s rest, bytes_ok l -> R s (lit_calls l ++ rest) ->
  exists s', dec_lits c (length l) s = Some (map ELit l, s') /\ R s' rest.
Proof.
  intros [_ D] Hex. induction l as [|x l IH]; intros s rest Hb HR; simpl.
  - eauto.
  - inversion Hb; subst. simpl in HR. destruct (D _ _ _ _ HR) as (_ & dv & s1 & E & Hv & HR1).
    rewrite E. cbn [obind]. rewrite (Hv (Hex (x, RLit) H1)).
    destruct (IH s1 rest H2 HR1) as (s2 & E2 & HR2). rewrite E2. cbn [obind]. eauto.
Qed.
Lemma lits_between_len text p q : q <= length text -> length (lits_between text p q) = q - p.
Proof. intros H. unfold lits_between. rewrite firstn_length, skipn_length. lia. Qed.
Lemma lits_between_ok text p q : bytes_ok text -> bytes_ok (lits_between text p q).
Proof.
  intros H. unfold lits_between, bytes_ok in *. rewrite Forall_forall in *. intros x Hx. apply H.
  rewrite <- (firstn_skipn p text). apply in_or_app. right.
  rewrite <- (firstn_skipn (q - p) (skipn p text)). apply in_or_app. auto.
Qed.

Lemma w32_small v : (v < 2 ^ 32)%N -> w32 v = v.
Proof. intros. apply N.mod_small; auto. Qed.
Lemma pow32 : (2 ^ 32 = 4294967296)%N. Proof. reflexivity. Qed.

Lemma ok_int v m : (v <= m)%N -> (m < 2 ^ 64)%N -> call_ok (v, RInt 0 m).
Proof. intros; split; [lia|auto]. Qed.

Section Dec.
  Variables (c : coder) (ex : call -> Prop) (R : c_st c -> list call -> Prop).
  Hypothesis HD : decodes_ex c ex R.
  Hypothesis Hex : forall x, call_ok x -> ex x.
  Variables (text : list N) (n : nat) (fmin fmax fmin' fmax' : N) (fd : nat).
  Hypothesis Hn : n = length text.
  Hypothesis Hn32 : (nn n < 2 ^ 32)%N.
  Hypothesis Hb : bytes_ok text.

  Lemma dec_events_ok fs : forall p s fuel, factors_ok p n fs ->
    (fs <> [] -> fmin' = fmin /\ fmax' = fmax) ->
    (forall f, In f fs -> (fmin <= nn (f_len f) <= fmax)%N) -> (fmax < 2 ^ 64)%N ->
    (forall d, d <= snd (fdist_loop p 0 fs) -> d <= fd) -> n - fst (fdist_loop p 0 fs) <= fd ->
    fd <= n -> length fs < fuel -> R s (enc_factors text n fmin fmax fd p fs) ->
    dec_events c fuel (nn n) fmin' fmax' (nn fd) s = Some (events text n p fs).
  Proof.
    destruct HD as [De Dd].
    assert (H64 : forall k, k <= n -> (nn k < 2 ^ 64)%N) by (intros; rewrite pow32 in *; rewrite pow64; lia).
    induction fs as [|f fs IH]; intros p s fuel Hok Hm Hlen Hf64 Hd1 Hd2 Hfd Hfuel HR.
    - simpl in Hd2. cbn [enc_factors events] in *.
      destruct (p <? n) eqn:Hp.
      + destruct fuel as [|fuel]; [lia|]. cbn [dec_events].
        simpl app in HR. destruct (Dd _ _ _ _ HR) as (E0 & v1 & s1 & E1 & V1 & HR1).
        rewrite E0, E1. cbn [obind]. rewrite (V1 (Hex (1%N, RBit) ltac:(cbn; lia))).
        change (1 =? 0)%N with false. cbv iota.
        destruct (Dd _ _ _ _ HR1) as (_ & v2 & s2 & E2 & V2 & HR2).
        rewrite E2. cbn [obind].
        rewrite (V2 (Hex (nn (n - p), RInt 0 (nn fd)) ltac:(apply ok_int; [lia|apply H64; auto]))).
        rewrite w32_small by (rewrite pow32 in *; lia).
        replace (N.to_nat (nn (n - p))) with (length (lits_between text p n)).
        2:{ rewrite lits_between_len by lia. rewrite Nat2N.id. auto. }
        destruct (dec_lits_ok c ex R HD Hex (lits_between text p n) s2 []) as (s3 & E3 & HR3).
        { apply lits_between_ok; auto. }
        { rewrite app_nil_r; auto. }
        rewrite E3. cbn [obind]. rewrite (De _ HR3).
        assert (E4 : dec_events c fuel (nn n) fmin' fmax' (nn fd) s3 = Some []).
        { destruct fuel; cbn [dec_events]; rewrite (De _ HR3); reflexivity. }
        rewrite E4. cbn [obind]. rewrite app_nil_r. reflexivity.
      + assert (E : lits_between text p n = []).
        { unfold lits_between. replace (n - p) with 0 by (apply Nat.ltb_ge in Hp; lia). reflexivity. }
        rewrite E in *. simpl in HR. destruct fuel; cbn [dec_events]; rewrite (De _ HR); reflexivity.
    - cbn [fdist_loop] in *. cbn [enc_factors events] in *.
      simpl in Hok. destruct Hok as (A & B & C & D). pose proof (factors_ok_le _ _ _ D) as HL.
      destruct (Hm ltac:(discriminate)) as [-> ->].
      destruct fuel as [|fuel]; [lia|]. cbn [dec_events].
      rewrite Nat.max_0_l in *.
      assert (HG : f_pos f - p <= fd) by (apply Hd1; apply fdist_loop_ge).
      assert (STEP : forall s2, R s2 (lit_calls (lits_between text p (f_pos f)) ++
          [(nn (f_src f), RInt 0 (nn n)); (nn (f_len f), RInt fmin fmax)] ++
          enc_factors text n fmin fmax fd (f_pos f + f_len f) fs) ->
         (do (ls, s3) <- dec_lits c (f_pos f - p) s2;
           if c_eof c s3 then do r <- dec_events c fuel (nn n) fmin fmax (nn fd) s3; Some (ls ++ r)
           else
             do (src, s4) <- c_dec c (RInt 0 (nn n)) s3;
             do (len, s5) <- c_dec c (RInt fmin fmax) s4;
             do r <- dec_events c fuel (nn n) fmin fmax (nn fd) s5;
             Some (ls ++ EFac (w32 src) (w32 len) :: r)) =
         Some (map ELit (lits_between text p (f_pos f)) ++
                EFac (nn (f_src f)) (nn (f_len f)) :: events text n (f_pos f + f_len f) fs)).
      { intros s2 HR2.
        replace (f_pos f - p) with (length (lits_between text p (f_pos f))) by (apply lits_between_len; lia).
        destruct (dec_lits_ok c ex R HD Hex (lits_between text p (f_pos f)) s2 _
                    (lits_between_ok _ _ _ Hb) HR2) as (s3 & E3 & HR3).
        rewrite E3. cbn [obind]. simpl app in HR3.
        destruct (Dd _ _ _ _ HR3) as (E0 & v4 & s4 & E4 & V4 & HR4). rewrite E0, E4. cbn [obind].
        destruct (Dd _ _ _ _ HR4) as (_ & v5 & s5 & E5 & V5 & HR5). rewrite E5. cbn [obind].
        assert (HR5' := HR5).
        rewrite (IH _ s5 fuel D) ; auto.
        - cbn [obind]. rewrite (V4 (Hex (nn (f_src f), RInt 0 (nn n)) ltac:(apply ok_int; [lia|apply H64; auto]))).
          rewrite (V5 (Hex (nn (f_len f), RInt fmin fmax) ltac:(cbn; split; [apply Hlen; left; auto|auto]))).
          rewrite !w32_small by (rewrite pow32 in *; lia). reflexivity.
        - intros; apply Hlen; right; auto.
        - intros d Hd. apply Hd1. eapply Nat.le_trans; [exact Hd|].
          clear. generalize (f_pos f - p). generalize (f_pos f + f_len f).
          assert (M : forall fs a b b', b <= b' -> snd (fdist_loop a b fs) <= snd (fdist_loop a b' fs)).
          { intros l; induction l as [|g l IHl]; simpl; intros; auto. apply IHl. lia. }
          intros; apply M; lia.
        - assert (M : forall fs a b b', fst (fdist_loop a b fs) = fst (fdist_loop a b' fs)).
          { intros l; induction l as [|g l IHl]; simpl; intros; auto. }
          rewrite (M fs _ 0 (f_pos f - p)). auto.
        - simpl in Hfuel. lia. }
      destruct (f_pos f =? p) eqn:Hp.
      + simpl app in HR. destruct (Dd _ _ _ _ HR) as (E0 & v1 & s1 & E1 & V1 & HR1).
        rewrite E0, E1. cbn [obind]. rewrite (V1 (Hex (0%N, RBit) ltac:(cbn; lia))).
        change (0 =? 0)%N with true. cbv iota. cbn [obind]. change (N.to_nat 0) with 0.
        specialize (STEP s1 HR1). replace (f_pos f - p) with 0 in STEP by (apply Nat.eqb_eq in Hp; lia).
        exact STEP.
      + simpl app in HR. destruct (Dd _ _ _ _ HR) as (E0 & v1 & s1 & E1 & V1 & HR1).
        rewrite E0, E1. cbn [obind]. rewrite (V1 (Hex (1%N, RBit) ltac:(cbn; lia))).
        change (1 =? 0)%N with false. cbv iota.
        destruct (Dd _ _ _ _ HR1) as (_ & v2 & s2 & E2 & V2 & HR2).
        rewrite E2. cbn [obind].
        rewrite (V2 (Hex (nn (f_pos f - p), RInt 0 (nn fd)) ltac:(apply ok_int; [lia|apply H64; auto]))).
        rewrite w32_small by (rewrite pow32 in *; lia). rewrite Nat2N.id.
        exact (STEP s2 HR2).
  Qed.
End Dec.

(** ** TextLiterals announces exactly the encoded literals *)
Lemma lits_app a b : lits_of (a ++ b) = lits_of a ++ lits_of b.
Proof. unfold lits_of. apply flat_map_app. Qed.
Lemma lits_lit_calls l : lits_of (lit_calls l) = l.
Proof. induction l; simpl; auto. f_equal; auto. Qed.
Fixpoint plain (text : list N) (n p : nat) (fs : list factor) : list N :=
  match fs with
  | [] => lits_between text p n
  | f :: fs' => lits_between text p (f_pos f) ++ plain text n (f_pos f + f_len f) fs'
  end.
Lemma enc_factors_lits text n fmin fmax fd fs : forall p,
  lits_of (enc_factors text n fmin fmax fd p fs) = plain text n p fs.
Proof.
  induction fs as [|f fs IH]; intros p; cbn [enc_factors plain].
  - rewrite lits_app, lits_lit_calls. destruct (p <? n); reflexivity.
  - rewrite !lits_app, lits_lit_calls, IH. destruct (f_pos f =? p); reflexivity.
Qed.
Lemma lits_between_step text p q x : nth_error text p = Some x -> p < q -> lits_between text p q = x :: lits_between text (p + 1) q.
Proof.
  intros H Hq. unfold lits_between. replace (q - p) with (S (q - (p + 1))) by lia.
  assert (Hl : p < length text) by (apply nth_error_Some; congruence).
  rewrite (skipn_cons_nth text p 0%N) by auto. cbn [firstn]. rewrite (nth_error_nth _ _ _ H).
  replace (S p) with (p + 1) by lia. reflexivity.
Qed.
Lemma plain_skip text n fs : forall p, factors_ok p n fs -> n = length text ->
  let (p', fs') := skip_factors p fs in
  plain text n p fs = plain text n p' fs' /\ factors_ok p' n fs' /\ p <= p' /\
  match fs' with [] => True | f :: _ => p' < f_pos f end.
Proof.
  induction fs as [|f fs IH]; intros p H Hn; simpl; auto.
  destruct H as (A & B & C & D). destruct (p =? f_pos f) eqn:E.
  - apply Nat.eqb_eq in E. subst p. specialize (IH _ D Hn).
    destruct (skip_factors (f_pos f + f_len f) fs) as [p' fs']. destruct IH as (I1 & I2 & I3 & I4).
    split; [|split; [auto|split; [lia|auto]]]. rewrite <- I1. unfold lits_between. rewrite Nat.sub_diag. reflexivity.
  - apply Nat.eqb_neq in E. simpl. repeat split; auto. lia.
Qed.
Lemma text_literals_ok text fuel : forall p fs, factors_ok p (length text) fs -> length text - p < fuel ->
  text_literals fuel text p fs = plain text (length text) p fs.
Proof.
  induction fuel as [|fuel IH]; intros p fs H Hf; [lia|].
  pose proof (plain_skip text (length text) fs p H eq_refl) as HS. cbn [text_literals].
  destruct (skip_factors p fs) as [p' fs']. destruct HS as (S1 & S2 & S3 & S4). rewrite S1.
  destruct (nth_error text p') as [x|] eqn:E.
  - assert (Hl : p' < length text) by (apply nth_error_Some; congruence).
    rewrite IH; [|destruct fs' as [|f fs']; simpl in *; intuition lia|lia].
    destruct fs' as [|f fs']; cbn [plain].
    + symmetry. apply lits_between_step; auto.
    + rewrite (lits_between_step text p' (f_pos f) x) by auto. reflexivity.
  - apply nth_error_None in E. destruct fs' as [|f fs'].
    + simpl. unfold lits_between. replace (length text - p') with 0 by lia. reflexivity.
    + exfalso. pose proof (factors_ok_in _ _ _ f S2 (or_introl eq_refl)). lia.
Qed.

(** ** The decode loop reproduces the events *)
Lemma decode_events_pf P ex c text fs : coder_loose P ex c -> (forall x, call_ok x -> ex x) ->
  bytes_ok text -> (nn (length text) < 2 ^ 32)%N -> factors_ok 0 (length text) fs ->
  P (plain text (length text) 0 fs) ->
  exists f, lzss_encode c text fs = Some f /\
    forall fuel, length fs < fuel ->
      decode_events c fuel f = Some (nn (length text), events text (length text) 0 fs).
Proof.
  intros HC Hex Hb Hn Hok HP. set (n := length text) in *.
  assert (HL : lits_of (encode_text text fs) = plain text n 0 fs).
  { unfold encode_text. rewrite lits_app, enc_factors_lits. reflexivity. }
  assert (Hin := factors_ok_in 0 n fs).
  pose proof (shortest_le fs (2 ^ 32 - 1)%N) as [Hs1 Hs2]. fold (shortest_factor fs) in Hs1, Hs2.
  pose proof (longest_ge fs 0%N) as [Hl1 _]. fold (longest_factor fs) in Hl1.
  assert (Hl2 : (longest_factor fs <= nn n)%N).
  { apply longest_bound; [lia|]. intros f Hf. specialize (Hin f Hok Hf). lia. }
  assert (Hfd : fdist_max n fs <= n /\ (forall d, d <= snd (fdist_loop 0 0 fs) -> d <= fdist_max n fs) /\
                n - fst (fdist_loop 0 0 fs) <= fdist_max n fs).
  { unfold fdist_max. pose proof (fdist_loop_bound 0 0 fs n Hok (Nat.le_0_l n)).
    destruct (fdist_loop 0 0 fs) as [p d]. simpl in *. split; [lia|]. split; [intros; lia|lia]. }
  destruct Hfd as (Hfd1 & Hfd2 & Hfd3).
  assert (HCL : Forall call_loose (encode_text text fs)).
  { unfold encode_text. fold n. rewrite pow32 in *.
    repeat (constructor; [cbn; rewrite ?pow64; lia|]).
    assert (G : forall fs0 p, factors_ok p n fs0 -> (forall f, In f fs0 -> In f fs) ->
       Forall call_loose (enc_factors text n (shortest_factor fs) (longest_factor fs) (fdist_max n fs) p fs0)).
    { assert (LL : forall p q, Forall call_loose (lit_calls (lits_between text p q))).
      { intros p q. unfold lit_calls. rewrite Forall_map. exact (lits_between_ok text p q Hb). }
      induction fs0 as [|f fs0 IH]; intros p Hp Hi; cbn [enc_factors].
      - apply Forall_app. split; [|apply LL]. destruct (p <? n); [|constructor].
        repeat constructor; cbn; rewrite ?pow64; lia.
      - simpl in Hp. destruct Hp as (A & B & C & D).
        apply Forall_app. split; [|apply Forall_app; split; [apply LL|]].
        + pose proof (factors_ok_le _ _ _ D).
          destruct (f_pos f =? p); repeat constructor; cbn; rewrite ?pow64; try lia.
        + simpl. constructor; [cbn; rewrite pow64; lia|]. constructor.
          * cbn. specialize (Hs1 f (Hi f (or_introl eq_refl))). rewrite pow64. lia.
          * apply IH; auto. intros; apply Hi; right; auto. }
    apply G; auto. }
  destruct (HC _ HCL) as (f & s & R & E1 & E2 & HD & HR); [rewrite HL; auto|].
  exists f. split.
  { unfold lzss_encode. rewrite text_literals_ok by (auto; lia). fold n. rewrite <- HL. exact E1. }
  intros fuel Hfuel. unfold decode_events. rewrite E2. cbn [obind].
  pose proof HD as HD0. destruct HD as [De Dd]. unfold encode_text in HR. fold n in HR. simpl app in HR.
  rewrite pow32 in *.
  destruct (Dd _ _ _ _ HR) as (_ & v1 & s1 & D1 & V1 & HR1). rewrite D1. cbn [obind].
  rewrite (V1 (Hex (nn n, RInt 0 (4294967296 - 1)) ltac:(apply ok_int; [lia|rewrite pow64; lia]))).
  rewrite w32_small by (rewrite pow32; auto).
  destruct (Dd _ _ _ _ HR1) as (_ & v2 & s2 & D2 & V2 & HR2). rewrite D2. cbn [obind].
  destruct (Dd _ _ _ _ HR2) as (_ & v3 & s3 & D3 & V3 & HR3). rewrite D3. cbn [obind].
  destruct (Dd _ _ _ _ HR3) as (_ & v4 & s4 & D4 & V4 & HR4). rewrite D4. cbn [obind].
  rewrite (V4 (Hex (nn (fdist_max n fs), RInt 0 (nn n)) ltac:(apply ok_int; [lia|rewrite pow64; lia]))).
  rewrite (V3 (Hex (longest_factor fs, RInt 0 (nn n)) ltac:(apply ok_int; [lia|rewrite pow64; lia]))).
  rewrite (w32_small (nn (fdist_max n fs))) by (rewrite pow32; lia).
  rewrite (w32_small (longest_factor fs)) by (rewrite pow32; lia).
  rewrite (dec_events_ok c ex R HD0 Hex text n (shortest_factor fs) (longest_factor fs) (w32 v2) (longest_factor fs)
     (fdist_max n fs) eq_refl ltac:(rewrite pow32; auto) Hb fs 0 s4 fuel); auto.
  - intros Hne. split; auto. destruct fs as [|f0 fs0] eqn:Ef; [congruence|]. rewrite <- Ef in *.
    assert (Hf0 : In f0 fs) by (rewrite Ef; left; auto).
    specialize (Hs1 f0 Hf0). specialize (Hin f0 Hok Hf0).
    rewrite (V2 (Hex (shortest_factor fs, RInt 0 (nn n)) ltac:(apply ok_int; [lia|rewrite pow64; lia]))). apply w32_small. rewrite pow32. lia.
  - rewrite pow64. lia.
Qed.

(** ** The back buffer *)
Lemma aput_app (a b : list N) x y : aput (a ++ x :: b) (length a) y = Some ((a ++ [y]) ++ b).
Proof.
  unfold aput. rewrite app_length; simpl. replace (length a <? length a + S (length b)) with true
    by (symmetry; apply Nat.ltb_lt; lia). f_equal. rewrite <- app_assoc. simpl.
  induction a; simpl; auto. f_equal. apply IHa.
Qed.
Lemma repeat_S_app k : forall (a : list N), a ++ repeat 0%N (S k) = a ++ 0%N :: repeat 0%N k. Proof. reflexivity. Qed.
(** state: the first p characters of the text are decoded *)
Definition partial (text : list N) (p : nat) : list N := firstn p text ++ repeat 0%N (length text - p).
Lemma aput_partial text p x : nth_error text p = Some x -> aput (partial text p) p x = Some (partial text (p + 1)).
Proof.
  intros H. assert (Hl : p < length text) by (apply nth_error_Some; congruence).
  unfold partial. replace (length text - p) with (S (length text - (p + 1))) by lia.
  rewrite repeat_S_app. replace (p + 1) with (S p) by lia.
  assert (E : firstn (S p) text = firstn p text ++ [x]).
  { clear -H. revert p H; induction text as [|y t IH]; intros [|p] H; simpl in *; try discriminate.
    - apply Some_inj in H. subst; auto.
    - f_equal; auto. }
  rewrite E. set (a := firstn p text).
  assert (Ha : length a = p) by (unfold a; rewrite firstn_length; lia).
  rewrite <- Ha at 2. apply aput_app.
Qed.
Lemma partial_nth text p i : i < p -> p <= length text -> nth_error (partial text p) i = nth_error text i.
Proof.
  intros H1 H2. unfold partial. rewrite nth_error_app1 by (rewrite firstn_length; lia).
  clear H2. revert p i H1; induction text as [|y t IH]; intros [|p] [|i] H; simpl; auto; try lia.
  apply IH; lia.
Qed.
Lemma back_factor_ok text num : forall p src, src < p -> p + num <= length text ->
  (forall j, j < num -> nth_error text (src + j) = nth_error text (p + j)) ->
  back_factor (partial text p) p src num = Some (partial text (p + num), p + num).
Proof.
  induction num as [|num IH]; intros p src H1 H2 H3; simpl.
  - rewrite Nat.add_0_r. reflexivity.
  - rewrite partial_nth by lia. specialize (H3 0 ltac:(lia)) as H0. rewrite !Nat.add_0_r in H0.
    rewrite H0. destruct (nth_error text p) as [x|] eqn:E; [|apply nth_error_None in E; lia].
    cbn [obind]. rewrite aput_partial by auto. cbn [obind]. rewrite IH; try lia.
    + replace (p + 1 + num) with (p + S num) by lia. reflexivity.
    + intros j Hj. specialize (H3 (S j) ltac:(lia)).
      replace (src + 1 + j) with (src + S j) by lia. replace (p + 1 + j) with (p + S j) by lia. auto.
Qed.
Lemma back_lits text l : forall p q es, l = lits_between text p q -> p <= q -> q <= length text ->
  back_run (partial text p) p (map ELit l ++ es) = back_run (partial text q) q es.
Proof.
  induction l as [|x l IH]; intros p q es Hl H1 H2.
  - pose proof (f_equal (@length N) Hl) as HL. rewrite lits_between_len in HL by lia. simpl in HL.
    replace q with p by lia. reflexivity.
  - pose proof (f_equal (@length N) Hl) as HL. rewrite lits_between_len in HL by lia. simpl in HL.
    destruct (nth_error text p) as [y|] eqn:E; [|apply nth_error_None in E; lia].
    rewrite (lits_between_step text p q y) in Hl by (auto; lia). apply cons_inj in Hl. destruct Hl as [-> Hl].
    simpl. rewrite aput_partial by auto. cbn [obind]. apply IH; auto; lia.
Qed.
Lemma back_run_ok text fs : forall p, factors_ok p (length text) fs -> spells text fs ->
  descends (fun i => i) fs ->
  back_run (partial text p) p (events text (length text) p fs) = Some text.
Proof.
  induction fs as [|f fs IH]; intros p Hok Hs Hd; cbn [events].
  - simpl in Hok. rewrite <- (app_nil_r (map ELit _)).
    rewrite (back_lits text _ p (length text)) by (auto; lia). simpl.
    unfold partial. rewrite Nat.sub_diag, firstn_all. simpl. rewrite app_nil_r. reflexivity.
  - simpl in Hok. destruct Hok as (A & B & C & D). pose proof (factors_ok_le _ _ _ D).
    rewrite (back_lits text _ p (f_pos f)) by (auto; lia). cbn [back_run].
    rewrite !Nat2N.id.
    rewrite back_factor_ok; try lia.
    + cbn [obind]. apply IH; auto.
      * intros g j Hg. apply Hs. right; auto.
      * intros g j Hg. apply Hd. right; auto.
    + specialize (Hd f 0 (or_introl eq_refl) ltac:(lia)). simpl in Hd. lia.
    + intros j Hj. apply Hs; auto. left; auto.
Qed.
Lemma lzss_roundtrip_pf P ex c text fs : coder_loose P ex c -> (forall x, call_ok x -> ex x) ->
  bytes_ok text -> (nn (length text) < 2 ^ 32)%N -> factors_ok 0 (length text) fs ->
  spells text fs -> descends (fun i => i) fs -> P (plain text (length text) 0 fs) ->
  exists f, lzss_encode c text fs = Some f /\
    forall fuel, length text < fuel -> lzss_decode c fuel f = Some text.
Proof.
  intros HC Hex Hb Hn Hok Hs Hd HP.
  destruct (decode_events_pf P ex c text fs HC Hex Hb Hn Hok HP) as (f & E1 & E2).
  exists f. split; auto. intros fuel Hf. unfold lzss_decode.
  rewrite E2 by (pose proof (factors_ok_len _ _ _ Hok); lia). cbn [obind]. rewrite Nat2N.id.
  pose proof (back_run_ok text fs 0 Hok Hs Hd) as HB. unfold partial in HB. simpl firstn in HB.
  rewrite Nat.sub_0_r in HB. exact HB.
Qed.

(** ** flatten *)
Definition covers (f : factor) (p : nat) := f_pos f <= p < f_pos f + f_len f.
Definition fmap_good (fs : list factor) (m : list nat) : Prop :=
  forall p k, nth_error m p = Some (S k) -> exists f, nth_error fs k = Some f /\ covers f p.
Lemma nth_error_upd_cases {A} (l : list A) i j x y : nth_error (upd l i x) j = Some y ->
  (i = j /\ y = x) \/ (i <> j /\ nth_error l j = Some y).
Proof.
  intros H. destruct (Nat.eq_dec i j) as [->|Hn].
  - left. split; auto. destruct (Nat.lt_ge_cases j (length l)) as [Hl|Hl].
    + rewrite nth_error_upd_eq in H by auto. apply Some_inj in H; auto.
    + rewrite upd_out in H by auto. apply nth_error_None in Hl. congruence.
  - right. rewrite nth_error_upd_ne in H by auto. auto.
Qed.
Lemma fmap_range_good fs m pos v f : forall len, len <= f_len f -> pos = f_pos f -> nth_error fs v = Some f ->
  fmap_good fs m -> fmap_good fs (fmap_range m pos len (v + 1)).
Proof.
  induction len as [|len IH]; intros Hl Hp Hv Hm; simpl; auto.
  intros p k H. apply nth_error_upd_cases in H. destruct H as [[<- E]|[_ H]].
  - replace k with v by lia. exists f. split; auto. unfold covers. lia.
  - apply (IH ltac:(lia) Hp Hv Hm); auto.
Qed.
Lemma fmap_fill_good all fs : forall i m, (forall k f, nth_error fs k = Some f -> nth_error all (i + k) = Some f) ->
  fmap_good all m -> fmap_good all (fmap_fill m i fs).
Proof.
  induction fs as [|f fs IH]; intros i m H Hm; simpl; auto.
  apply IH.
  - intros k g Hk. specialize (H (S k) g Hk). replace (i + 1 + k) with (i + S k) by lia. auto.
  - apply fmap_range_good with (f := f); auto. specialize (H 0 f eq_refl). rewrite Nat.add_0_r in H. auto.
Qed.
Lemma build_fmap_good fs : fmap_good fs (build_fmap fs).
Proof.
  unfold build_fmap. destruct (rev fs) as [|l r].
  - intros [|p] k H; discriminate.
  - apply fmap_fill_good; auto. intros p k H. exfalso.
    assert (In (S k) (repeat 0 (f_pos l + f_len l))) by (eapply nth_error_In; eauto).
    apply repeat_spec in H0. discriminate.
Qed.
(** [fs'] differs from [fs] only in the sources *)
Lemma same_shape_nth fs fs' k f : same_shape fs fs' -> nth_error fs k = Some f ->
  exists f', nth_error fs' k = Some f' /\ f_pos f' = f_pos f /\ f_len f' = f_len f.
Proof.
  unfold same_shape. revert fs' k; induction fs as [|g fs IH]; intros [|g' fs'] [|k] H Hk; simpl in *; try discriminate.
  - apply cons_inj in H. destruct H as [H _]. apply Some_inj in Hk. subst. exists g'. split; auto. inversion H; auto.
  - apply cons_inj in H. destruct H as [_ H]. eapply IH; eauto.
Qed.
Lemma same_shape_good fs fs' m : same_shape fs fs' -> fmap_good fs m -> fmap_good fs' m.
Proof.
  intros HS H p k Hk. destruct (H p k Hk) as (f & Hf & Hc).
  destruct (same_shape_nth _ _ _ _ HS Hf) as (f' & E & E1 & E2). exists f'. split; auto.
  unfold covers in *. lia.
Qed.

(** what one walk preserves; [Q] is any relation on positions closed under following one reference *)
Lemma flat_walk_inv (Q : nat -> nat -> Prop) fmap fs flen n :
  fmap_good fs fmap -> (forall f, In f fs -> f_src f + f_len f <= n) ->
  (forall f j p, In f fs -> j < f_len f -> Q p (f_pos f + j) -> Q p (f_src f + j)) ->
  forall start fuel src depth src' depth', flat_walk fuel fmap fs flen src depth = Some (src', depth') ->
  src + flen <= n -> (forall j, j < flen -> Q (start + j) (src + j)) ->
  src' + flen <= n /\ (forall j, j < flen -> Q (start + j) (src' + j)).
Proof.
  intros Hg Hn HQ start. induction fuel as [|fuel IH]; intros src depth src' depth' H Hs HI; [discriminate|].
  cbn [flat_walk] in H. destruct (nth_error fmap src) as [[|k]|] eqn:E;
    try (apply Some_inj in H; inversion H; subst; auto; fail).
  destruct (Hg _ _ E) as (s & Es & Hc). rewrite Es in H. unfold covers in Hc.
  assert (Hi : In s fs) by (eapply nth_error_In; eauto). specialize (Hn s Hi).
  destruct (_ <=? _) eqn:L.
  - apply Nat.leb_le in L. apply (IH _ _ _ _ H); [lia|].
    intros j Hj. specialize (HI j Hj).
    replace (f_src s + (src - f_pos s) + j) with (f_src s + (src - f_pos s + j)) by lia.
    apply HQ; auto; [lia|]. replace (f_pos s + (src - f_pos s + j)) with (src + j) by lia. auto.
  - apply Some_inj in H; inversion H; subst; auto.
Qed.
(** termination *)
Lemma flat_walk_total rank fmap fs flen n : fmap_good fs fmap -> descends rank fs -> 1 <= flen ->
  (forall f, In f fs -> f_src f + f_len f <= n) ->
  forall fuel src depth, rank src < fuel -> src < n ->
  exists r, flat_walk fuel fmap fs flen src depth = Some r.
Proof.
  intros Hg Hd Hfl Hn. induction fuel as [|fuel IH]; intros src depth Hr Hs; [lia|].
  cbn [flat_walk]. destruct (nth_error fmap src) as [[|k]|] eqn:E; eauto.
  destruct (Hg _ _ E) as (s & Es & Hc). rewrite Es. unfold covers in Hc.
  assert (Hi : In s fs) by (eapply nth_error_In; eauto).
  destruct (_ <=? _) eqn:L; eauto. apply Nat.leb_le in L. specialize (Hn s Hi).
  apply IH; [|lia]. specialize (Hd s (src - f_pos s) Hi ltac:(lia)).
  replace (f_pos s + (src - f_pos s)) with src in Hd by lia. lia.
Qed.
Lemma same_shape_upd fs i f src : nth_error fs i = Some f -> same_shape fs (upd fs i (mk_f (f_pos f) src (f_len f))).
Proof.
  unfold same_shape. revert i; induction fs as [|g fs IH]; intros [|i] H; simpl in *; try discriminate.
  - apply Some_inj in H; subst. reflexivity.
  - f_equal. auto.
Qed.
Lemma in_upd {A} (l : list A) i x y : In y (upd l i x) -> y = x \/ In y l.
Proof. revert i; induction l; intros [|i]; simpl; intuition; subst; auto. apply IHl in H0. intuition. Qed.

Definition all_src_ok (n : nat) (fs : list factor) := forall f, In f fs -> f_src f + f_len f <= n.
Lemma flat_loop_inv text rank n fmap m : forall fuel fs i fs', flat_loop fuel fmap fs i m = Some fs' ->
  fmap_good fs fmap -> all_src_ok n fs ->
  same_shape fs fs' /\ all_src_ok n fs' /\ (spells text fs -> spells text fs') /\
  (descends rank fs -> descends rank fs').
Proof.
  induction m as [|m IH]; intros fuel fs i fs' H Hg Hn; cbn [flat_loop] in H.
  - apply Some_inj in H; subst. repeat split; auto.
  - destruct (nth_error fs i) as [f|] eqn:Ef; [|discriminate].
    destruct (flat_walk fuel fmap fs (f_len f) (f_src f) 0) as [[src depth]|] eqn:W; [|discriminate].
    cbn [obind] in H. assert (Hi : In f fs) by (eapply nth_error_In; eauto).
    set (fs1 := if depth =? 0 then fs else upd fs i (mk_f (f_pos f) src (f_len f))) in *.
    assert (S1 : same_shape fs fs1).
    { unfold fs1. destruct (depth =? 0); [reflexivity|]. apply same_shape_upd; auto. }
    assert (N1 : all_src_ok n fs1).
    { unfold fs1. destruct (depth =? 0); auto. intros g Hg0. apply in_upd in Hg0. destruct Hg0 as [->|Hg0]; auto.
      simpl. apply (flat_walk_inv (fun _ _ => True) fmap fs (f_len f) n Hg Hn (fun _ _ _ _ _ _ => I)
                      0 _ _ _ _ _ W (Hn f Hi) (fun _ _ => I)). }
    assert (SP : spells text fs -> spells text fs1).
    { intros Hs. unfold fs1. destruct (depth =? 0); auto. intros g j Hg0 Hj. apply in_upd in Hg0. destruct Hg0 as [->|Hg0]; auto.
      simpl in *. eapply (flat_walk_inv (fun p q => nth_error text q = nth_error text p)) with (start := f_pos f) in W; eauto.
      - destruct W as [_ W]. auto.
      - intros g j' p Hg1 Hj' Hq. rewrite <- Hq. apply Hs; auto. }
    assert (DP : descends rank fs -> descends rank fs1).
    { intros Hs. unfold fs1. destruct (depth =? 0); auto. intros g j Hg0 Hj. apply in_upd in Hg0. destruct Hg0 as [->|Hg0]; auto.
      simpl in *. eapply (flat_walk_inv (fun p q => rank q < rank p)) with (start := f_pos f) in W; eauto.
      - destruct W as [_ W]. auto.
      - intros g j' p Hg1 Hj' Hq. specialize (Hs g j' Hg1 Hj'). lia. }
    apply IH in H; auto; [|eapply same_shape_good; eauto].
    destruct H as (H1 & H2 & H3 & H4). split; [unfold same_shape in *; congruence|]. auto.
Qed.
Lemma flat_loop_total rank n fmap m : forall fuel fs i, i + m <= length fs ->
  fmap_good fs fmap -> all_src_ok n fs -> descends rank fs -> (forall p, p < n -> rank p < fuel) ->
  (forall f, In f fs -> 1 <= f_len f) ->
  exists fs', flat_loop fuel fmap fs i m = Some fs'.
Proof.
  induction m as [|m IH]; intros fuel fs i Hl Hg Hn Hd Hr H1; cbn [flat_loop]; eauto.
  destruct (nth_error fs i) as [f|] eqn:Ef; [|apply nth_error_None in Ef; lia].
  assert (Hi : In f fs) by (eapply nth_error_In; eauto).
  destruct (flat_walk_total rank fmap fs (f_len f) n Hg Hd (H1 f Hi) Hn fuel (f_src f) 0) as [[src depth] W].
  { apply Hr. specialize (Hn f Hi). specialize (H1 f Hi). lia. }
  { specialize (Hn f Hi). specialize (H1 f Hi). lia. }
  rewrite W. cbn [obind].
  assert (ONE : flat_loop fuel fmap fs i 1 = Some (if depth =? 0 then fs else upd fs i (mk_f (f_pos f) src (f_len f)))).
  { cbn [flat_loop]. rewrite Ef, W. reflexivity. }
  destruct (flat_loop_inv [] rank n fmap 1 fuel fs i _ ONE Hg Hn) as (I1 & I2 & _ & I4).
  apply IH; auto.
  - destruct (depth =? 0); rewrite ?upd_length; lia.
  - eapply same_shape_good; eauto.
  - intros g Hg0. destruct (depth =? 0); auto. apply in_upd in Hg0. destruct Hg0 as [->|Hg0]; auto. simpl; auto.
Qed.
Lemma factors_all_src p n fs : factors_ok p n fs -> all_src_ok n fs.
Proof. intros H f Hf. apply (factors_ok_in _ _ _ f H Hf). Qed.
Lemma factors_ok_shape n fs : forall p fs', factors_ok p n fs -> same_shape fs fs' -> all_src_ok n fs' -> factors_ok p n fs'.
Proof.
  unfold same_shape. induction fs as [|f fs IH]; intros p [|f' fs'] H HS HA; simpl in *; try discriminate; auto.
  destruct H as (A & B & C & D). apply cons_inj in HS. destruct HS as [E HS]. injection E as E1 E2.
  simpl. rewrite <- E1, <- E2. split; auto. split; auto. split; [specialize (HA f' (or_introl eq_refl)); lia|].
  apply IH; auto. intros g Hg. apply HA; right; auto.
Qed.
Lemma flatten_pf rank n fs fuel : factors_ok 0 n fs -> descends rank fs -> (forall p, p < n -> rank p < fuel) ->
  exists fs', flatten fuel fs = Some fs' /\ same_shape fs fs' /\ factors_ok 0 n fs' /\ descends rank fs' /\
    (forall text, spells text fs -> spells text fs').
Proof.
  intros Hok Hd Hr. destruct fs as [|f0 fs0] eqn:E.
  - exists []. simpl. repeat split; auto; try (intros ? ? []).
  - rewrite <- E in *. assert (F : flatten fuel fs = flat_loop fuel (build_fmap fs) fs 0 (length fs)) by (subst; reflexivity).
    rewrite F. pose proof (build_fmap_good fs) as Hg. pose proof (factors_all_src _ _ _ Hok) as Hn.
    destruct (flat_loop_total rank n (build_fmap fs) (length fs) fuel fs 0) as [fs' H]; auto.
    { intros f Hf. apply (factors_ok_in _ _ _ f Hok Hf). }
    exists fs'. split; auto.
    destruct (flat_loop_inv [] rank n _ _ _ _ _ _ H Hg Hn) as (I1 & I2 & _ & I4).
    split; auto. split; [eapply factors_ok_shape; eauto|]. split; auto.
    intros text Hs. apply (flat_loop_inv text rank n _ _ _ _ _ _ H Hg Hn); auto.
Qed.
