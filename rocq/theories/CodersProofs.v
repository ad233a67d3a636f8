From Verif Require Import Base BitIO BitIOProofs IntCodes IntCodesProofs Coders.
Local Open Scope N_scope.

Section SimDec.
  Context {S1 S2 : Type} (rb1 : S1 -> bool * S1) (rb2 : S2 -> bool * S2) (R : S1 -> S2 -> Prop).
  Hypothesis rb_sim : forall s l, R s l -> fst (rb1 s) = fst (rb2 l) /\ R (snd (rb1 s)) (snd (rb2 l)).

  Lemma ascii_digits_sim fuel : forall acc s l, R s l ->
    osim R (ascii_digits rb1 fuel acc s) (ascii_digits rb2 fuel acc l).
  Proof.
    induction fuel as [|fuel IH]; intros acc s l H; cbn [ascii_digits]; [exact I|].
    destruct (rd_int_sim _ _ _ rb_sim 8 s l H) as [H1 H2].
    destruct (rd_int rb1 8 s) as [c1 s1], (rd_int rb2 8 l) as [c2 l1]; cbn in H1, H2; subst.
    destruct ((48 <=? c2) && (c2 <=? 57)); [apply IH; auto|split; auto].
  Qed.

  Lemma dec_call_sim fuel k r s l : R s l -> osim R (dec_call rb1 fuel k r s) (dec_call rb2 fuel k r l).
  Proof.
    intros H.
    assert (HI : forall n, psim R (rd_int rb1 n s) (rd_int rb2 n l)) by (intros; apply rd_int_sim; auto).
    assert (Hb : osim R (let (b, s1) := rb1 s in Some (N.b2n b, s1)) (let (b, s1) := rb2 l in Some (N.b2n b, s1))).
    { destruct (rb_sim s l H) as [H1 H2]. destruct (rb1 s), (rb2 l); cbn in *; subst. split; auto. }
    assert (Ht : forall x y, osim R x y -> osim R (trunc_lit x) (trunc_lit y)).
    { intros [[? ?]|] [[? ?]|]; cbn; auto. intros [H1 H2]; cbn in *; subst. split; auto. }
    destruct k, r; cbn [dec_call]; auto using rd_gamma_sim, rd_delta_sim, rd_ternary_sim.
    - pose proof (ascii_digits_sim fuel [] s l H) as G.
      destruct (ascii_digits rb1 fuel [] s) as [[d1 s1]|], (ascii_digits rb2 fuel [] l) as [[d2 l1]|];
        cbn in *; try contradiction; auto.
      destruct G as [G1 G2]; cbn in *; subst. destruct (dec_parse d2); cbn; auto. split; auto.
    - apply HI.
    - destruct (HI 8%nat) as [H1 H2]. destruct (rd_int rb1 8 s), (rd_int rb2 8 l); cbn in *; subst. split; auto.
    - destruct (HI (bits_forn (w64 (rmax + 2 ^ 64 - rmin)))) as [H1 H2].
      destruct (rd_int rb1 _ s), (rd_int rb2 _ l); cbn in *; subst. split; auto.
    - apply HI.
  Qed.
End SimDec.

(** ** decimal digits *)
Lemma dec_digits_loop_spec fuel : forall v acc, v < 2 ^ N.of_nat fuel ->
  exists ds, dec_digits_loop (S fuel) v acc = Some (ds ++ acc) /\ ds <> [] /\
    Forall (fun d => 48 <= d <= 57) ds /\ (length ds <= S fuel)%nat /\
    forall a, fold_left (fun a d => a * 10 + (d - 48)) ds a = a * 10 ^ N.of_nat (length ds) + v.
Proof.
  induction fuel as [|fuel IH]; intros v acc H.
  - change (2 ^ N.of_nat 0) with 1 in H. replace v with 0 by lia.
    exists [48]. split; [reflexivity|]. split; [discriminate|].
    split; [constructor; [lia|auto]|]. split; [cbn [length]; lia|].
    intros a. cbn [fold_left length]. change (10 ^ N.of_nat 1) with 10. lia.
  - change (dec_digits_loop (S (S fuel)) v acc) with
      (if v / 10 =? 0 then Some ((48 + v mod 10) :: acc)
       else dec_digits_loop (S fuel) (v / 10) ((48 + v mod 10) :: acc)).
    destruct (N.eqb_spec (v / 10) 0) as [E|E].
    + exists [48 + v mod 10]. split; [reflexivity|]. split; [discriminate|].
      split; [constructor; [lia|auto]|]. split; [cbn [length]; lia|].
      intros a. cbn [fold_left length]. change (10 ^ N.of_nat 1) with 10. lia.
    + destruct (IH (v / 10) ((48 + v mod 10) :: acc)) as (ds & H1 & H2 & H3 & H4 & H5).
      { rewrite Nat2N.inj_succ, N.pow_succ_r' in H. set (P := 2 ^ N.of_nat fuel) in *. lia. }
      exists (ds ++ [48 + v mod 10]). rewrite H1. rewrite <- app_assoc. cbn [app].
      repeat split; auto.
      * destruct ds; discriminate.
      * apply Forall_app; split; auto. constructor; auto. lia.
      * rewrite app_length; cbn [length]; lia.
      * intros a. rewrite fold_left_app, H5. cbn [fold_left]. rewrite app_length; cbn [length].
        rewrite Nat.add_1_r, Nat2N.inj_succ, N.pow_succ_r'. set (P := 10 ^ N.of_nat (length ds)). nia.
Qed.

Lemma ascii_digits_ok ds : forall fuel acc rest,
  Forall (fun d => 48 <= d <= 57) ds -> (length ds < fuel)%nat ->
  ascii_digits lrb fuel acc ((flat_map (fun d => write_int d 8) ds ++ write_int 58 8) ++ rest)
  = Some (acc ++ ds, rest).
Proof.
  induction ds as [|d ds IH]; intros fuel acc rest Hd Hf; destruct fuel as [|fuel]; cbn [length] in Hf; try lia.
  - cbn [flat_map ascii_digits]. rewrite app_nil_l. rewrite rd_int_ok by lia.
    change (58 mod 2 ^ N.of_nat 8) with 58. change ((48 <=? 58) && (58 <=? 57)) with false.
    rewrite app_nil_r. reflexivity.
  - inversion Hd; subst. cbn [flat_map ascii_digits]. rewrite <- !app_assoc. rewrite rd_int_ok by lia.
    change (2 ^ N.of_nat 8) with 256. rewrite N.mod_small by lia.
    replace ((48 <=? d) && (d <=? 57)) with true by lia.
    rewrite app_assoc. rewrite IH by (auto; lia). rewrite <- app_assoc. reflexivity.
Qed.

Lemma rd_int8 v rest : v < 256 -> rd_int lrb 8 (write_int v 8 ++ rest) = (v, rest).
Proof. intros H. rewrite rd_int_ok by lia. rewrite N.mod_small; auto. Qed.

(** ** every single call *)
Lemma call_ok_64 v r : call_ok (v, r) -> v < 2 ^ 64.
Proof. destruct r; cbn; rewrite ?pow64; lia. Qed.

Definition char_kind (k : coder_kind) : bool := match k with Ascii | BitC => true | _ => false end.
Definition kcall_ok (k : coder_kind) (c : call) : Prop := if char_kind k then call_okc c else call_ok c.

Lemma call_ok_okc c : call_ok c -> call_okc c.
Proof. destruct c as [v []]; cbn; auto. Qed.
Lemma call_ok_kcall k c : call_ok c -> kcall_ok k c.
Proof. intros H. unfold kcall_ok. destruct (char_kind k); auto using call_ok_okc. Qed.
Lemma call_ok_val c : call_ok c -> call_val c = fst c.
Proof. destruct c as [v []]; cbn; auto. intros; unfold w8; apply N.mod_small; lia. Qed.

Lemma w8_call v : v < 256 \/ 2 ^ 64 - 128 <= v < 2 ^ 64 -> w8 v < 256 /\ w64 v = v /\ v mod 2 ^ N.of_nat 8 = w8 v.
Proof.
  intros H. unfold w8. split; [apply N.mod_lt; discriminate|]. split; [|reflexivity].
  apply w64_small. rewrite pow64 in *. lia.
Qed.

Lemma enc_dec_call k v r : kcall_ok k (v, r) ->
  exists b, enc_call k (v, r) = Some b /\ b <> [] /\
    forall rest, dec_call lrb dfuel k r (b ++ rest) = Some (call_val (v, r), rest).
Proof.
  intros Hok0.
  assert (H64 : v < 2 ^ 64).
  { unfold kcall_ok in Hok0. destruct (char_kind k); [|apply (call_ok_64 v r); auto].
    destruct r; cbn in Hok0; rewrite ?pow64 in *; lia. }
  assert (Hwn : forall x n, (0 < n)%nat -> write_int x n <> []) by (intros x [|n]; cbn; [lia|discriminate]).
  assert (Hg : write_gamma v <> [] /\ forall rest, rd_gamma lrb dfuel (write_gamma v ++ rest) = Some (v, rest)).
  { split.
    - unfold write_gamma, write_unary. destruct (repeat false _); discriminate.
    - intros; apply rd_gamma_ok; auto. unfold dfuel; lia. }
  assert (Hd : write_delta v <> [] /\ forall rest, rd_delta lrb dfuel (write_delta v ++ rest) = Some (v, rest)).
  { split.
    - unfold write_delta, write_gamma, write_unary. destruct (repeat false _); discriminate.
    - intros; apply rd_delta_ok; auto. unfold dfuel; lia. }
  assert (Ht : exists b, write_ternary v = Some b /\ b <> [] /\
     forall rest, rd_ternary lrb dfuel (b ++ rest) = Some (v, rest)).
  { destruct (rd_ternary_ok v [] H64) as (l & E & _). exists l. split; auto. split.
    - intros ->. unfold write_ternary in E. destruct (v =? 0); [discriminate|].
      destruct (write_ternary_loop _ _) as [[|? ?]|]; discriminate.
    - intros rest. destruct (rd_ternary_ok v rest H64) as (l' & E' & G). rewrite E in E'.
      apply Some_inj in E'; subst l'. apply G. pose proof (write_ternary_len v l H64 E). unfold dfuel; lia. }
  assert (Hbit : v < 2 -> forall rest, lrb ([negb (v =? 0)] ++ rest) = (negb (v =? 0), rest) /\ N.b2n (negb (v =? 0)) = v).
  { intros H rest. split; auto. destruct (N.eqb_spec v 0) as [->|Hn]; cbn [negb N.b2n]; [reflexivity|lia]. }
  destruct Hg as [Hg1 Hg2], Hd as [Hd1 Hd2], Ht as (tb & Ht0 & Ht1 & Ht2).
  destruct k, r; unfold kcall_ok in Hok0; cbn [enc_call dec_call call_ok call_okc call_val char_kind] in *;
    try (eexists; split; [reflexivity|]; split; [discriminate|]; intros rest;
         destruct (Hbit Hok0 rest) as [E1 E2]; rewrite E1, E2; reflexivity);
    try (eexists; split; [reflexivity|]; split; [assumption|]; intros rest; auto; fail);
    try (eexists; split; [exact Ht0|]; split; [assumption|]; intros rest; auto; fail);
    try (destruct (N.ltb_spec v 256) as [_|Hge]; [|lia];
         eexists; split; [first [reflexivity|exact Ht0]|]; split; [assumption|]; intros rest;
         rewrite ?Hg2, ?Hd2, ?Ht2; reflexivity).
  - (* Ascii, RInt *)
    assert (Hs : v < 2 ^ N.of_nat (N.size_nat v)) by apply size_nat_gt.
    destruct (dec_digits_loop_spec _ _ [] Hs) as (ds & H1 & H2 & H3 & H4 & H5).
    rewrite app_nil_r in H1. unfold dec_digits. rewrite H1.
    eexists; split; [reflexivity|]. split.
    { destruct ds as [|d ds]; [congruence|]. cbn [flat_map write_int]. discriminate. }
    intros rest. assert (N.size_nat v <= 64)%nat by (apply size_nat_le; exact H64).
    rewrite ascii_digits_ok by (auto; unfold dfuel; lia). rewrite app_nil_l.
    unfold dec_parse. destruct ds as [|d ds]; [congruence|]. do 2 f_equal. rewrite H5. lia.
  - (* Ascii, RLit *)
    destruct (w8_call v Hok0) as (W1 & W2 & W3).
    eexists; split; [reflexivity|]. split; [apply Hwn; lia|]. intros rest.
    rewrite rd_int8; auto.
  - (* Ascii, RBit *)
    eexists; split; [reflexivity|]. split; [apply Hwn; lia|]. intros rest.
    destruct (N.eqb_spec v 0) as [->|Hn].
    + rewrite rd_int8 by lia. reflexivity.
    + replace v with 1 by lia. rewrite rd_int8 by lia. reflexivity.
  - (* BitC, RInt *)
    eexists; split; [reflexivity|].
    pose proof (bits_for_pos (w64 (rmax + 2 ^ 64 - rmin))) as Hp.
    assert (Hdd1 : w64 (v + 2 ^ 64 - rmin) = v - rmin) by (apply w64_sub; lia).
    assert (Hdd2 : w64 (rmax + 2 ^ 64 - rmin) = rmax - rmin) by (apply w64_sub; lia).
    rewrite Hdd1, Hdd2 in *.
    pose proof (bits_for_le64 (rmax - rmin) ltac:(lia)) as Hl.
    split; [apply Hwn; unfold bits_forn; lia|]. intros rest.
    rewrite rd_int_ok by (unfold bits_forn; lia).
    unfold bits_forn. rewrite N2Nat.id, N.mod_small.
    + do 2 f_equal. rewrite w64_small; lia.
    + pose proof (bits_for_bound (rmax - rmin)). lia.
  - (* BitC, RLit *)
    destruct (w8_call v Hok0) as (W1 & W2 & W3).
    eexists; split; [reflexivity|]. change (bits_forn 255) with 8%nat.
    split; [apply Hwn; lia|]. intros rest. rewrite W2.
    rewrite rd_int_ok by lia. rewrite W3. reflexivity.
Qed.

Lemma enc_calls_ok k cs : Forall (kcall_ok k) cs -> exists bs, enc_calls k cs = Some bs.
Proof.
  induction 1 as [|[v r] cs H Hc [bs IH]]; cbn [enc_calls]; eauto.
  destruct (enc_dec_call k v r H) as (b & -> & _). rewrite IH. eauto.
Qed.

(** decoder state relation *)
Definition simple_rel (k : coder_kind) (s : bis) (cs : list call) : Prop :=
  Forall (kcall_ok k) cs /\ exists bs, enc_calls k cs = Some bs /\ bisR s bs.

Lemma simple_decodes k : decodes (simple_coder k) (simple_rel k).
Proof.
  split; cbn [c_eof c_dec simple_coder c_st].
  - intros s (Hc & bs & E & HR). cbn in E. apply Some_inj in E; subst bs. apply (bisR_eof s []); auto.
  - intros s v r rest (Hc & bs & E & HR). inversion Hc as [|? ? H1 H2]; subst.
    cbn [enc_calls] in E. destruct (enc_dec_call k v r H1) as (b & Eb & Hne & Hdec).
    rewrite Eb in E. destruct (enc_calls k rest) as [bs'|] eqn:Er; [|discriminate].
    apply Some_inj in E; subst bs. split.
    + rewrite (bisR_eofb _ _ HR). destruct b; [congruence|reflexivity].
    + pose proof (dec_call_sim _ _ _ bis_sim dfuel k r _ _ HR) as G. rewrite Hdec in G.
      destruct (dec_call bis_read_bit dfuel k r s) as [[v' s']|]; [|contradiction].
      destruct G as [G1 G2]; cbn in G1, G2; subst. exists s'; split; auto.
      split; auto. exists bs'; auto.
Qed.

Lemma simple_coder_k k : forall lits cs, Forall (kcall_ok k) cs ->
  exists f s R, c_enc (simple_coder k) lits cs = Some f /\ c_open (simple_coder k) f = Some s
                /\ decodes (simple_coder k) R /\ R s cs.
Proof.
  intros lits cs Hc. destruct (enc_calls_ok k cs Hc) as (bs & E).
  exists (bits_file bs), (bis_open (bits_file bs)), (simple_rel k).
  cbn [simple_coder c_enc c_open]. unfold enc_file. rewrite E.
  split; [reflexivity|]. split; [reflexivity|]. split; [apply simple_decodes|].
  split; auto. exists bs. split; auto. apply bisR_file.
Qed.

Lemma simple_coder_ok k : coder_ok (simple_coder k).
Proof.
  intros lits cs Hc. apply simple_coder_k. revert Hc; apply Forall_impl. apply call_ok_kcall.
Qed.

Lemma simple_coder_ok_char k : char_kind k = true -> coder_ok_char (simple_coder k).
Proof.
  intros Hk lits cs Hc. apply simple_coder_k. unfold kcall_ok. rewrite Hk. exact Hc.
Qed.

Lemma map_call_val cs : Forall call_ok cs -> map call_val cs = map fst cs.
Proof. induction 1; cbn [map]; auto. rewrite call_ok_val by auto. congruence. Qed.

(** sequence decoding for any correct coder *)
Fixpoint c_decs (c : coder) (rs : list rng) (s : c_st c) : option (list N * c_st c) :=
  match rs with
  | [] => Some ([], s)
  | r :: rs => match c_dec c r s with
               | Some (v, s1) => match c_decs c rs s1 with
                                 | Some (vs, s2) => Some (v :: vs, s2)
                                 | None => None
                                 end
               | None => None
               end
  end.

Lemma c_decs_ok c R : decodes c R -> forall cs rest s, R s (cs ++ rest) ->
  exists s', c_decs c (map snd cs) s = Some (map call_val cs, s') /\ R s' rest.
Proof.
  intros [H1 H2]. induction cs as [|[v r] cs IH]; intros rest s HR; cbn [map c_decs app fst snd] in *.
  - eauto.
  - destruct (H2 _ _ _ _ HR) as (_ & s1 & -> & HR1). destruct (IH _ _ HR1) as (s2 & -> & HR2). eauto.
Qed.

Lemma dec_calls_c_decs k rs : forall s : bis,
  dec_calls bis_read_bit dfuel k rs s = c_decs (simple_coder k) rs s.
Proof.
  induction rs as [|r rs IH]; intros s; auto.
  cbn [dec_calls c_decs c_dec simple_coder]. destruct (dec_call _ _ _ _ _) as [[? ?]|]; auto.
  rewrite IH. reflexivity.
Qed.

Lemma coder_seq_pf : forall k cs, Forall call_ok cs ->
  exists f s', enc_file k cs = Some f /\
    dec_calls bis_read_bit dfuel k (map snd cs) (bis_open f) = Some (map fst cs, s') /\
    bis_eof s' = true.
Proof.
  intros k cs Hc. pose proof Hc as Hc0. apply (Forall_impl _ (call_ok_kcall k)) in Hc. destruct (enc_calls_ok k cs Hc) as (bs & E).
  unfold enc_file. rewrite E. exists (bits_file bs).
  assert (HR : simple_rel k (bis_open (bits_file bs)) (cs ++ [])).
  { rewrite app_nil_r. split; auto. exists bs; split; auto using bisR_file. }
  destruct (c_decs_ok (simple_coder k) _ (simple_decodes k) cs [] _ HR) as (s' & H1 & H2).
  exists s'. split; auto. split.
  - rewrite map_call_val in H1 by (try apply Forall_app in Hc0; tauto). etransitivity; [apply dec_calls_c_decs|exact H1].
  - apply (proj1 (simple_decodes k)); auto.
Qed.

(** no eof before the last value: reading any proper prefix leaves eof false *)
Lemma coder_noeof_pf : forall k cs c cs', Forall call_ok (cs ++ c :: cs') ->
  exists f s', enc_file k (cs ++ c :: cs') = Some f /\
    dec_calls bis_read_bit dfuel k (map snd cs) (bis_open f) = Some (map fst cs, s') /\
    bis_eof s' = false.
Proof.
  intros k cs [v r] cs' Hc. pose proof Hc as Hc0. apply (Forall_impl _ (call_ok_kcall k)) in Hc. destruct (enc_calls_ok k _ Hc) as (bs & E).
  unfold enc_file. rewrite E. exists (bits_file bs).
  assert (HR : simple_rel k (bis_open (bits_file bs)) (cs ++ (v, r) :: cs')).
  { split; auto. exists bs; split; auto using bisR_file. }
  destruct (c_decs_ok (simple_coder k) _ (simple_decodes k) cs _ _ HR) as (s' & H1 & H2).
  exists s'. split; auto. split.
  - rewrite map_call_val in H1 by (try apply Forall_app in Hc0; tauto). etransitivity; [apply dec_calls_c_decs|exact H1].
  - apply (proj2 (simple_decodes k)) in H2. apply H2.
Qed.
