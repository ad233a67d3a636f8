(** Proofs about the encoding of LFS. *)
From Verif Require Import Base BitIO BitIOProofs IntCodes IntCodesProofs Coders CodersProofs LooseCoders Huffman HuffmanSpec HuffTreeProofs HuffCodeProofs HuffmanProofs
  BitCoders Strategies Lfs LfsSpec.
Local Open Scope nat_scope.

Lemma simple_b_ok k : bcoder_ok (fun _ => True) (simple_b k).
Proof.
  intros lits _ _. exists tt, [], tt. split; [reflexivity|]. split.
  { intros s rest H. exists s. auto. }
  intros v r Hc _. cbn [simple_b bc_enc bc_dec].
  destruct (enc_dec_loose k v r (call_ok_loose _ Hc)) as (b & E1 & E2 & dv & E3 & E4).
  exists b. split; auto. split; auto. intros s rest HR.
  pose proof (dec_call_sim _ _ _ bis_sim dfuel k r _ _ HR) as G. rewrite E4 in G.
  destruct (dec_call bis_read_bit dfuel k r s) as [[v' s']|]; [|contradiction].
  destruct G as [G1 G2]; cbn in G1, G2. rewrite (E3 (call_ok_simple_ex _ _ Hc)) in G1. subst v'. eauto.
Qed.

Lemma huff_b_ok L is_heap : stdlib_ok L is_heap -> bcoder_ok huff_lits (huff_b L).
Proof.
  intros HL lits Hb HP. destruct (init_agree L is_heap HL lits Hb HP) as (st & h & d & E1 & E2 & Ha).
  exists st, h, d. split; [exact E1|]. split.
  { intros s rest HR. cbn [huff_b bc_open].
    pose proof (huff_open_sim _ _ _ bis_sim _ _ HR) as G. rewrite E2 in G.
    destruct (huff_open bis_read_bit s) as [[d' s']|]; [|contradiction].
    destruct G as [G1 G2]; cbn in G1, G2. subst d'. eauto. }
  intros v r Hc Hr. cbn [huff_b bc_enc bc_dec].
  destruct (agree_call st d _ v r Ha (call_ok_loose _ Hc) Hr) as (b & B1 & B2 & dv & B3 & B4).
  exists b. split; auto. split; auto. intros s rest HR.
  pose proof (huff_dec_sim _ _ _ bis_sim r d _ _ HR) as G. rewrite B4 in G.
  destruct (huff_dec bis_read_bit r d s) as [[v' s']|]; [|contradiction].
  destruct G as [G1 G2]; cbn in G1, G2. rewrite (B3 (call_ok_simple_ex _ _ Hc)) in G1. subst v'. eauto.
Qed.

Lemma w32_small x : (x < 2 ^ 32)%N -> w32 x = x.
Proof. intros; apply N.mod_small; auto. Qed.
Lemma w32_diff a b : (b <= a)%N -> (a < 2 ^ 32)%N -> w32 (a + 2 ^ 32 - b) = (a - b)%N.
Proof.
  intros. unfold w32. replace (a + 2 ^ 32 - b)%N with ((a - b) + 1 * 2 ^ 32)%N by lia.
  rewrite N.mod_add by discriminate. apply N.mod_small. lia.
Qed.

Lemma skipn_skipn {A} (l : list A) a b : skipn a (skipn b l) = skipn (a + b) l.
Proof.
  revert l. induction b as [|b IH]; intros l; [rewrite Nat.add_0_r; reflexivity|].
  rewrite Nat.add_succ_r. destruct l; [rewrite !skipn_nil; reflexivity|]. apply IH.
Qed.

Section Enc.
  Context (cl cn : bcoder).
  Context (text : list N) (Hb : bytes_ok text) (Hlen : (N.of_nat (length text) < 2 ^ 32)%N).
  Context (ls : bc_st cl) (dl : bc_dst cl) (ns_ : bc_st cn) (dn : bc_dst cn).
  Definition deco (c : bcoder) (st : bc_st c) (d : bc_dst c) (lits : list N) : Prop :=
    forall v r, call_ok (v, r) -> (r = RLit -> In v lits) ->
       exists b, bc_enc c st (v, r) = Some b /\ b <> [] /\
         forall s rest, bisR s (b ++ rest) -> exists s', bc_dec c r d s = Some (v, s') /\ bisR s' rest.
  Context (HL : deco cl ls dl text) (HN : deco cn ns_ dn []).

  Lemma nth_byte p c : nth_error text p = Some c -> (c < 256)%N.
  Proof. intros H. apply nth_error_In in H. unfold bytes_ok in Hb. rewrite Forall_forall in Hb. apply Hb; auto. Qed.

  Lemma read_lengths_ok first : (N.of_nat first <= uint_max)%N -> forall rs last, 1 <= last <= first ->
    Forall (fun r => 1 <= snd r) rs -> ForallOrdPairs (fun a b : rule => snd b <= snd a) ((0, last) :: rs) ->
    exists b, enc_seq cn ns_ (delta_calls first last rs) = Some b /\
      forall fuel s rest, length rs < fuel -> bisR s (b ++ rest) ->
      exists s', read_lengths cn fuel dn (N.of_nat first) (N.of_nat last) s =
        Some (N.of_nat last :: map (fun r => N.of_nat (snd r)) rs, s') /\ bisR s' rest.
  Proof.
    clear Hlen HL Hb. intros Hf. unfold uint_max in Hf. induction rs as [|[p l] rs IH]; intros last Hl Hp Ho; cbn [delta_calls enc_seq].
    - destruct (HN (N.of_nat last) (RInt 0 (N.of_nat first))) as (b & E1 & _ & E3).
      { cbn. rewrite pow64. lia. } { discriminate. }
      rewrite E1. cbn [obind]. rewrite app_nil_r. exists b. split; auto.
      intros [|fuel] s rest Hfu HR; [cbn in Hfu; lia|]. cbn [read_lengths].
      destruct (N.eqb_spec (N.of_nat last) 0); [lia|].
      destruct (E3 _ _ HR) as (s' & E4 & HR'). rewrite E4. cbn [obind].
      rewrite (w32_small (N.of_nat last)) by lia. rewrite w32_diff by lia. rewrite N.sub_diag.
      destruct fuel; cbn [read_lengths]; rewrite N.eqb_refl; cbn [obind map]; eauto.
    - inversion Hp as [|? ? P1 P2]; subst. inversion Ho as [|? ? O1 O2]; subst.
      inversion O1 as [|? ? O3 O4]; subst. cbn [snd] in *.
      rewrite w32_diff by lia.
      destruct (HN (N.of_nat last - N.of_nat l)%N (RInt 0 (N.of_nat first))) as (b & E1 & _ & E3).
      { cbn. rewrite pow64. lia. } { discriminate. }
      rewrite E1. cbn [obind]. destruct (IH l) as (b' & E5 & E6); auto; try lia.
      { inversion O2; subst. constructor; auto. }
      rewrite E5. cbn [obind]. exists (b ++ b'). split; auto.
      intros [|fuel] s rest Hfu HR; [cbn in Hfu; lia|]. cbn [read_lengths].
      destruct (N.eqb_spec (N.of_nat last) 0); [lia|].
      rewrite <- app_assoc in HR.
      destruct (E3 _ _ HR) as (s' & E4 & HR'). rewrite E4. cbn [obind].
      rewrite (w32_small (N.of_nat last - _)) by lia. rewrite w32_diff by lia.
      replace (N.of_nat last - (N.of_nat last - N.of_nat l))%N with (N.of_nat l) by lia.
      destruct (E6 fuel s' rest) as (s'' & E7 & HR''); [cbn in Hfu; lia|auto|].
      rewrite E7. cbn [obind map snd]. eauto.
  Qed.

  Lemma read_string_ok k : forall p, p + k <= length text ->
    exists cs b, lit_calls text p k = Some cs /\ enc_seq cl ls cs = Some b /\
      forall s rest, bisR s (b ++ rest) ->
      exists s', read_string cl dl k s = Some (piece text p k, s') /\ bisR s' rest.
  Proof.
    induction k as [|k IH]; intros p Hp; cbn [lit_calls read_string].
    { exists [], []. cbn. eauto. }
    destruct (nth_error text p) as [c|] eqn:Ec; [|apply nth_error_None in Ec; lia]. cbn [obind].
    destruct (IH (p + 1)) as (cs & b & E1 & E2 & E3); [lia|]. rewrite E1. cbn [obind].
    pose proof (nth_byte _ _ Ec) as Hc.
    destruct (HL c RLit) as (b0 & F1 & _ & F3); [exact Hc|intros _; eapply nth_error_In; eauto|].
    exists ((c, RLit) :: cs), (b0 ++ b). split; auto. cbn [enc_seq]. rewrite F1. cbn [obind]. rewrite E2. cbn [obind]. split; auto.
    intros s rest HR. rewrite <- app_assoc in HR. destruct (F3 _ _ HR) as (s1 & F4 & HR1). rewrite F4. cbn [obind].
    destruct (E3 _ _ HR1) as (s2 & E4 & HR2). rewrite E4. cbn [obind].
    exists s2. split; auto. f_equal. f_equal. unfold w8. rewrite N.mod_small by auto.
    unfold piece. assert (Sk : skipn p text = c :: skipn (p + 1) text).
    { replace (p + 1) with (S p) by lia. clear - Ec. revert p Ec. induction text as [|x t IH]; intros [|p]; cbn; intros; try discriminate.
      - congruence. - rewrite IH; auto. }
    rewrite Sk. reflexivity.
  Qed.

  Lemma read_dict_ok d : Forall (fun r : rule => 1 <= snd r /\ fst r + snd r <= length text) d ->
    exists cs b, dict_calls text d = Some cs /\ enc_seq cl ls cs = Some b /\
      forall s rest, bisR s (b ++ rest) ->
      exists s', read_dict cl dl (map (fun r => N.of_nat (snd r)) d) s =
        Some (map (fun r => piece text (fst r) (snd r)) d, s') /\ bisR s' rest.
  Proof.
    assert (enc_app : forall a b, enc_seq cl ls (a ++ b) = do x <- enc_seq cl ls a; do y <- enc_seq cl ls b; Some (x ++ y)).
    { induction a as [|x a IHa]; intros b; cbn [app enc_seq].
      - cbn [obind]. destruct (enc_seq cl ls b); reflexivity.
      - rewrite IHa. destruct (bc_enc cl ls x); auto. cbn [obind]. destruct (enc_seq cl ls a); auto. cbn [obind].
        destruct (enc_seq cl ls b); auto. cbn [obind]. rewrite app_assoc. auto. }
    induction 1 as [|[p l] d [H1 H2] Hd IH]; cbn [dict_calls map read_dict].
    { exists [], []. cbn. eauto. }
    cbn [fst snd] in *. destruct (read_string_ok l p H2) as (cs & b & E1 & E2 & E3).
    destruct IH as (cs' & b' & F1 & F2 & F3). rewrite E1, F1. cbn [obind].
    exists (cs ++ cs'), (b ++ b'). split; auto. rewrite enc_app, E2, F2. cbn [obind]. split; auto.
    intros s rest HR. rewrite <- app_assoc in HR. rewrite Nat2N.id.
    destruct (E3 _ _ HR) as (s1 & E4 & HR1). rewrite E4. cbn [obind].
    destruct (F3 _ _ HR1) as (s2 & F4 & HR2). rewrite F4. cbn [obind]. eauto.
  Qed.
  Lemma enc_app a b : enc_seq cl ls (a ++ b) = do x <- enc_seq cl ls a; do y <- enc_seq cl ls b; Some (x ++ y).
  Proof.
    induction a as [|x a IHa]; cbn [app enc_seq].
    - cbn [obind]. destruct (enc_seq cl ls b); reflexivity.
    - rewrite IHa. destruct (bc_enc cl ls x); auto. cbn [obind]. destruct (enc_seq cl ls a); auto. cbn [obind].
      destruct (enc_seq cl ls b); auto. cbn [obind]. rewrite app_assoc. auto.
  Qed.
  Lemma skipn_nth_cons p c : nth_error text p = Some c -> skipn p text = c :: skipn (p + 1) text.
  Proof.
    replace (p + 1) with (S p) by lia. clear. revert p. induction text as [|x t IH]; intros [|p]; cbn; intros; try discriminate.
    - congruence. - rewrite IH; auto.
  Qed.

  (** [tail b out n]: the bits [b] and nothing else make the rest of the body produce [out] in [n] steps *)
  Definition tail (dict : list (list N)) (b : list bool) (out : list N) (n : nat) : Prop :=
    forall fuel s, n <= fuel -> bisR s b -> read_body cl fuel dl dict s = Some out.

  Lemma plain_ok dict k : forall p, p + k <= length text ->
    exists cs b, plain_calls text p k = Some cs /\ enc_seq cl ls cs = Some b /\
      forall b' out n, tail dict b' out n -> tail dict (b ++ b') (piece text p k ++ out) (k + n).
  Proof.
    induction k as [|k IH]; intros p Hp; cbn [plain_calls].
    { exists [], []. cbn. split; auto. }
    destruct (nth_error text p) as [c|] eqn:Ec; [|apply nth_error_None in Ec; lia]. cbn [obind].
    destruct (IH (p + 1)) as (cs & b & E1 & E2 & E3); [lia|]. rewrite E1. cbn [obind].
    pose proof (nth_byte _ _ Ec) as Hc.
    destruct (HL 0%N RBit) as (z & Z1 & Z2 & Z3); [cbn; lia|discriminate|].
    destruct (HL c RLit) as (b0 & F1 & _ & F3); [exact Hc|intros _; eapply nth_error_In; eauto|].
    exists ((0%N, RBit) :: (c, RLit) :: cs), (z ++ b0 ++ b). split; auto.
    cbn [enc_seq]. rewrite Z1, F1, E2. cbn [obind]. split; auto.
    intros b' out n Ht [|fuel] s Hfu HR; [lia|]. cbn [read_body].
    rewrite (bisR_eofb _ _ HR). destruct z as [|z0 z]; [congruence|]. cbn [app].
    change ((z0 :: z ++ b0 ++ b) ++ b') with (((z0 :: z) ++ b0 ++ b) ++ b') in HR.
    rewrite <- !app_assoc in HR. destruct (Z3 _ _ HR) as (s1 & Z4 & HR1). rewrite Z4. cbn [obind].
    rewrite N.eqb_refl. destruct (F3 _ _ HR1) as (s2 & F4 & HR2). rewrite F4. cbn [obind].
    rewrite (E3 _ _ _ Ht fuel s2) by (auto; lia). cbn [obind]. f_equal.
    unfold w8. rewrite N.mod_small by auto. unfold piece. rewrite (skipn_nth_cons _ _ Ec). reflexivity.
  Qed.

  Lemma piece_piece p a b : piece text p a ++ piece text (p + a) b = piece text p (a + b).
  Proof.
    unfold piece. replace (skipn (p + a) text) with (skipn a (skipn p text)).
    2: { rewrite skipn_skipn. f_equal. lia. }
    generalize (skipn p text). clear. induction a as [|a IH]; intros [|x t]; cbn; auto.
    - rewrite firstn_nil. destruct b; auto. - rewrite IH. auto.
  Qed.

  Lemma body_ok d : (N.of_nat (length d) < 2 ^ 32)%N -> Forall (fun r => 1 <= snd r) d ->
    let dict := map (fun r : rule => piece text (fst r) (snd r)) d in
    forall ns pos, pos <= length text -> uses_ok text d pos ns ->
    exists cs b, body_calls text (length d) pos ns = Some cs /\ enc_seq cl ls cs = Some b /\
      tail dict b (skipn pos text) (length text - pos).
  Proof.
    intros Hd Hpos dict. induction ns as [|[[st sym] l] ns IH]; intros pos Hp Hu; cbn [body_calls].
    - destruct (plain_ok dict (length text - pos) pos) as (cs & b & E1 & E2 & E3); [lia|].
      exists cs, b. split; auto. split; auto. specialize (E3 [] [] 0).
      rewrite !app_nil_r, Nat.add_0_r in E3. unfold piece in E3. rewrite firstn_all2 in E3 by (rewrite skipn_length; lia).
      apply E3. intros fuel s _ HR. destruct fuel; cbn [read_body]; rewrite (bisR_eofb _ _ HR); auto.
    - cbn [uses_ok] in Hu. destruct Hu as (U1 & U2 & (p & U3 & U4) & U5).
      destruct (plain_ok dict (st - pos) pos) as (cs & b & E1 & E2 & E3); [lia|]. rewrite E1. cbn [obind].
      replace (Nat.max pos st) with st by lia.
      destruct (IH (st + l) U2 U5) as (cs' & b' & F1 & F2 & F3). rewrite F1. cbn [obind].
      assert (Hs : sym < length d) by (apply nth_error_Some; congruence).
      assert (1 <= l) by (apply nth_error_In in U3; rewrite Forall_forall in Hpos; apply Hpos in U3; auto).
      destruct (HL 1%N RBit) as (z & Z1 & Z2 & Z3); [cbn; lia|discriminate|].
      destruct (HL (N.of_nat sym) (RInt 0 (N.of_nat (length d)))) as (y & Y1 & _ & Y3).
      { cbn. rewrite pow64. lia. } { discriminate. }
      eexists _, (b ++ z ++ y ++ b'). split; [reflexivity|].
      rewrite enc_app, E2. cbn [obind enc_seq]. rewrite Z1, Y1, F2. cbn [obind]. split; auto.
      assert (T : tail dict (z ++ y ++ b') (skipn st text) (1 + (length text - (st + l)))).
      { intros [|fuel] s Hfu HR; [lia|]. cbn [read_body]. rewrite (bisR_eofb _ _ HR).
        destruct z as [|z0 z]; [congruence|]. cbn [app].
        change (z0 :: z ++ y ++ b') with ((z0 :: z) ++ y ++ b') in HR.
        destruct (Z3 _ _ HR) as (s1 & Z4 & HR1). rewrite Z4. cbn [obind].
        change (1 =? 0)%N with false. replace (length dict) with (length d) by (symmetry; apply map_length).
        destruct (Y3 _ _ HR1) as (s2 & Y4 & HR2). rewrite Y4. cbn [obind].
        rewrite w32_small by lia. rewrite Nat2N.id.
        assert (Ed : nth_error dict sym = Some (piece text p l)) by exact (map_nth_error (fun r : rule => piece text (fst r) (snd r)) sym d U3).
        rewrite Ed.
        rewrite (F3 fuel s2) by (auto; lia). cbn [obind]. f_equal. rewrite U4.
        unfold piece. replace (st + l) with (l + st) by lia. rewrite <- skipn_skipn. apply firstn_skipn. }
      pose proof (E3 _ _ _ T) as G. intros fuel s Hfu HR. rewrite (G fuel s) by (auto; lia). f_equal.
      unfold piece. replace st with ((st - pos) + pos) at 2 by lia. rewrite <- skipn_skipn. apply firstn_skipn.
  Qed.
End Enc.

Lemma lengths_ok cn ns_ dn (text : list N) (d : list rule) : deco cn ns_ dn [] -> (N.of_nat (length text) < 2 ^ 32)%N ->
  Forall (fun r => 1 <= snd r /\ fst r + snd r <= length text) d -> ForallOrdPairs (fun a b : rule => snd b <= snd a) d ->
  exists b1, enc_seq cn ns_ (length_calls d) = Some b1 /\
    forall fuel s rest, length d < fuel -> bisR s (b1 ++ rest) -> exists l0 s1 s', 
      bc_dec cn (RInt 0 uint_max) dn s = Some (l0, s1) /\
      read_lengths cn fuel dn (w32 l0) (w32 l0) s1 = Some (map (fun r => N.of_nat (snd r)) d, s') /\ bisR s' rest.
Proof.
  intros N3 Hlen R1 R2.
  destruct d as [|[p l] d]; cbn [length_calls enc_seq].
  - destruct (N3 0%N (RInt 0 uint_max)) as (b & E1 & _ & E3).
    { cbn. unfold uint_max. rewrite pow64. lia. } { discriminate. }
    rewrite E1. cbn [obind]. rewrite app_nil_r. exists b. split; auto. intros fuel s rest _ HR.
    destruct (E3 _ _ HR) as (s' & E4 & HR'). exists 0%N, s', s'. split; auto.
    destruct fuel; cbn; auto.
  - inversion R1 as [|? ? [Q1 Q2] Q3]; subst. cbn [fst snd] in *.
    destruct (N3 (N.of_nat l) (RInt 0 uint_max)) as (b & E1 & _ & E3).
    { cbn. unfold uint_max. rewrite pow64. lia. } { discriminate. }
    rewrite E1. cbn [obind].
    destruct (read_lengths_ok cn ns_ dn N3 l ltac:(unfold uint_max; lia) d l) as (b' & F1 & F2); try lia.
    { revert Q3. apply Forall_impl. intros a [? ?]; auto. }
    { inversion R2; subst. constructor; auto. }
    rewrite F1. cbn [obind]. exists (b ++ b'). split; auto. intros fuel s rest Hf HR. rewrite <- app_assoc in HR.
    destruct (E3 _ _ HR) as (s' & E4 & HR'). rewrite E4.
    destruct (F2 fuel s' rest) as (s'' & F3 & HR''); auto. { apply Nat.lt_succ_l. exact Hf. }
    exists (N.of_nat l), s', s''. split; auto. rewrite w32_small by lia. rewrite F3. auto.
Qed.

Lemma lfs_encode_ok cl cn Pl (Pn : list N -> Prop) text (d : list rule) (ns : list nts) : bcoder_ok Pl cl -> bcoder_ok Pn cn ->
  bytes_ok text -> (N.of_nat (length text) < 2 ^ 32)%N -> Pl text -> Pn [] ->
  (N.of_nat (length d) < 2 ^ 32)%N -> rules_ok text d -> uses_ok text d 0 ns ->
  exists f, lfs_encode cl cn text d ns = Some f /\ bytes_ok f /\
    forall fuel, length text + length d < fuel -> lfs_decode cl cn fuel f = Some text.
Proof.
  intros HL HN Hb Hlen Pl1 Pn1 Hd [R1 R2] Hu.
  destruct (HL text Hb Pl1) as (ls & h1 & dl & L1 & L2 & L3).
  destruct (HN [] (Forall_nil _) Pn1) as (ns_ & h2 & dn & N1 & N2 & N3).
  unfold lfs_encode. rewrite L1, N1. cbn [obind].
  assert (G : exists b1, enc_seq cn ns_ (length_calls d) = Some b1 /\
    forall fuel s rest, length d < fuel -> bisR s (b1 ++ rest) -> exists l0 s1 s', 
      bc_dec cn (RInt 0 uint_max) dn s = Some (l0, s1) /\
      read_lengths cn fuel dn (w32 l0) (w32 l0) s1 = Some (map (fun r => N.of_nat (snd r)) d, s') /\ bisR s' rest).
  { apply lengths_ok with (text := text); auto. }
  destruct G as (b1 & G1 & G2). rewrite G1. cbn [obind].
  destruct (read_dict_ok cl text Hb Hlen ls dl L3 d R1) as (dc & b2 & D1 & D2 & D3). rewrite D1. cbn [obind]. rewrite D2. cbn [obind].
  assert (R3 : Forall (fun r : nat * nat => 1 <= snd r) d) by (revert R1; apply Forall_impl; intros a [? ?]; auto).
  destruct (body_ok cl text Hb Hlen ls dl L3 d Hd R3 ns 0 (Nat.le_0_l _) Hu) as (bc & b3 & B1 & B2 & B3).
  rewrite B1. cbn [obind]. rewrite B2. cbn [obind].
  eexists. split; [reflexivity|]. split; [apply bitstream_bytes_ok_pf|].
  intros fuel Hf. unfold lfs_decode.
  destruct (L2 _ _ (bisR_file (h1 ++ h2 ++ b1 ++ b2 ++ b3))) as (s1 & E1 & HR1). rewrite E1. cbn [obind].
  destruct (N2 _ _ HR1) as (s2 & E2 & HR2). rewrite E2. cbn [obind].
  assert (Hf' : length d < fuel) by lia.
  destruct (G2 fuel _ _ Hf' HR2) as (l0 & s3 & s4 & E3 & E4 & HR4). rewrite E3. cbn [obind]. rewrite E4. cbn [obind].
  destruct (D3 _ _ HR4) as (s5 & E5 & HR5). rewrite E5. cbn [obind].
  rewrite (B3 fuel s5); auto. lia.
Qed.
