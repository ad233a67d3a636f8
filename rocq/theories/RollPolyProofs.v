(** The wordpack and zbackup rolling hashes as polynomials, and ExtHashTrie. *)
From Verif Require Import Base BitIO IntCodes Coders CodersProofs LZ LZProofs Tries HashTrieProofs RollTrie RollSpec RollProofs RollLossProofs.
Local Open Scope N_scope.

(** A byte read as a signed char, and the polynomial of a string at 257. *)
Definition sc (c : N) : Z := if c <? 128 then Z.of_N c else (Z.of_N c - 256)%Z.
Definition poly (w : list N) : Z := fold_left (fun v c => (257 * v + sc c)%Z) w 0%Z.

Lemma poly_snoc w c : poly (w ++ [c]) = (257 * poly w + sc c)%Z.
Proof. unfold poly. rewrite fold_left_app. reflexivity. Qed.

Lemma sc_bound c : c < 256 -> (-128 <= sc c <= 127)%Z.
Proof. intros H. unfold sc. destruct (N.ltb_spec c 128); lia. Qed.

Lemma sc_inj c d : c < 256 -> d < 256 -> sc c = sc d -> c = d.
Proof. intros Hc Hd. unfold sc. destruct (N.ltb_spec c 128), (N.ltb_spec d 128); lia. Qed.

Lemma sc_zero c : c < 256 -> sc c = 0%Z -> c = 0.
Proof. intros Hc. unfold sc. destruct (N.ltb_spec c 128); lia. Qed.

Lemma step_inj u v c d : c < 256 -> d < 256 ->
  (257 * u + sc c = 257 * v + sc d)%Z -> u = v /\ c = d.
Proof.
  intros Hc Hd E. pose proof (sc_bound c Hc). pose proof (sc_bound d Hd).
  assert (sc c = sc d) by lia. split; [lia|]. apply sc_inj; auto.
Qed.

Definition nz (w : list N) : Prop := Forall (fun c => c <> 0) w.

Lemma poly_inj : forall a b, bytes_ok a -> bytes_ok b -> nz a -> nz b -> poly a = poly b -> a = b.
Proof.
  intros a. induction a as [|c a IH] using rev_ind; intros b Ha Hb Na Nb E.
  - destruct b as [|d b _] using rev_ind; auto. exfalso.
    apply Forall_app in Hb, Nb. destruct Hb as [_ Hb], Nb as [_ Nb].
    inversion Hb as [|? ? Hd _]; inversion Nb as [|? ? Nd _]; subst. unfold byte_ok in Hd.
    rewrite poly_snoc in E. change (poly []) with 0%Z in E. apply Nd, sc_zero; auto.
    pose proof (sc_bound d Hd). lia.
  - apply Forall_app in Ha, Na. destruct Ha as [Ha Hc], Na as [Na Nc].
    inversion Hc as [|? ? Hc' _]; inversion Nc as [|? ? Nc' _]; subst. unfold byte_ok in Hc'.
    rewrite poly_snoc in E.
    destruct b as [|d b _] using rev_ind.
    + exfalso. change (poly []) with 0%Z in E. apply Nc', sc_zero; auto.
      pose proof (sc_bound c Hc'). lia.
    + apply Forall_app in Hb, Nb. destruct Hb as [Hb Hd], Nb as [Nb Nd].
      inversion Hd as [|? ? Hd' _]; subst. unfold byte_ok in Hd'. rewrite poly_snoc in E.
      destruct (step_inj _ _ _ _ Hc' Hd' E) as [E1 ->]. rewrite (IH b); auto.
Qed.

Lemma poly_bound w : bytes_ok w ->
  (- 257 ^ Z.of_nat (length w) < 2 * poly w < 257 ^ Z.of_nat (length w))%Z.
Proof.
  induction w as [|c w IH] using rev_ind; intros Hb.
  - cbn. lia.
  - apply Forall_app in Hb. destruct Hb as [Hb Hc]. inversion Hc as [|? ? Hc' _]; subst.
    specialize (IH Hb). pose proof (sc_bound c Hc'). rewrite poly_snoc, app_length. cbn [length].
    rewrite Nat.add_1_r, Nat2Z.inj_succ, Z.pow_succ_r by lia.
    set (X := (257 ^ Z.of_nat (length w))%Z) in *. clearbody X.
    lia.
Qed.

Lemma poly_small w : bytes_ok w -> (length w <= 7)%nat -> (- 2 ^ 63 < poly w < 2 ^ 63)%Z.
Proof.
  intros Hb Hl. pose proof (poly_bound w Hb) as H.
  assert (257 ^ Z.of_nat (length w) <= 257 ^ 7)%Z by (apply Z.pow_le_mono_r; lia).
  change (257 ^ 7)%Z with 74051159531521793%Z in *. change (2 ^ 63)%Z with 9223372036854775808%Z. lia.
Qed.

Lemma char_u64_sc c : c < 256 -> Z.of_N (char_u64 c) = (sc c mod 2 ^ 64)%Z.
Proof.
  intros Hc. unfold char_u64, sc. destruct (N.ltb_spec c 128).
  - rewrite Z.mod_small; [reflexivity|]. lia.
  - change (2 ^ 64 - 256) with 18446744073709551360.
    replace (Z.of_N c - 256)%Z with ((Z.of_N c + 18446744073709551360) + (-1) * 2 ^ 64)%Z by lia.
    rewrite Z_mod_plus_full, Z.mod_small by lia. lia.
Qed.

Lemma pack_step v c V : c < 256 -> Z.of_N v = (V mod 2 ^ 64)%Z ->
  Z.of_N (w64 (v + w64 (v * 2 ^ 8) + char_u64 c)) = ((257 * V + sc c) mod 2 ^ 64)%Z.
Proof.
  intros Hc HV. unfold w64. rewrite !N2Z.inj_mod, !N2Z.inj_add, N2Z.inj_mod, N2Z.inj_mul.
  rewrite char_u64_sc by auto. rewrite HV.
  change (Z.of_N (2 ^ 64)) with (2 ^ 64)%Z. change (Z.of_N (2 ^ 8)) with 256%Z.
  set (M := (2 ^ 64)%Z). assert (HM : (M <> 0)%Z) by (unfold M; lia). clearbody M.
  rewrite (Z.mod_eq (V mod M * 256) M), (Z.mod_eq V M), (Z.mod_eq (sc c) M) by auto.
  match goal with |- (?X mod M = _)%Z =>
    replace X with (257 * V + sc c + (- (257 * (V / M) + (V - M * (V / M)) * 256 / M + sc c / M)) * M)%Z by lia end.
  apply Z_mod_plus_full.
Qed.

Lemma wordpack_poly w : bytes_ok w -> Z.of_N (fold_left (rl_add wordpack) w 0) = (poly w mod 2 ^ 64)%Z.
Proof.
  induction w as [|c w IH] using rev_ind; intros Hb; [reflexivity|].
  apply Forall_app in Hb. destruct Hb as [Hb Hc]. inversion Hc as [|? ? Hc' _]; subst.
  rewrite fold_left_app, poly_snoc. cbn [fold_left]. cbn [wordpack rl_add] in *.
  apply pack_step; auto.
Qed.

Lemma zbackup_poly w : bytes_ok w ->
  fold_left (rl_add zbackup) w (0, 0) = (Z.to_N (poly w mod 2 ^ 64), 0).
Proof.
  induction w as [|c w IH] using rev_ind; intros Hb; [reflexivity|].
  apply Forall_app in Hb. destruct Hb as [Hb Hc]. inversion Hc as [|? ? Hc' _]; subst.
  rewrite fold_left_app, poly_snoc. cbn [fold_left]. rewrite IH by auto.
  cbn [zbackup rl_add fst snd]. f_equal.
  pose proof (Z.mod_pos_bound (poly w) (2 ^ 64) ltac:(lia)) as HB.
  pose proof (pack_step (Z.to_N (poly w mod 2 ^ 64)) c (poly w) Hc' ltac:(lia)) as P.
  rewrite (N.add_comm (w64 _) (Z.to_N _)). lia.
Qed.

(** Fingerprints agree only if the polynomials do, for at most 7 bytes. *)
Lemma wordpack_fp_inj a b : bytes_ok a -> bytes_ok b -> (length a <= 7)%nat -> (length b <= 7)%nat ->
  fingerprint wordpack a = fingerprint wordpack b -> poly a = poly b.
Proof.
  intros Ha Hb La Lb E. unfold fingerprint in E. cbn [wordpack rl_key rl_clear] in E.
  pose proof (wordpack_poly a Ha) as PA. pose proof (wordpack_poly b Hb) as PB.
  cbn [wordpack] in PA, PB. rewrite E in PA. rewrite PA in PB.
  pose proof (poly_small a Ha La). pose proof (poly_small b Hb Lb).
  set (x := poly a) in *. set (y := poly b) in *. clearbody x y. clear E PA. lia.
Qed.

Lemma zbackup_fp a : bytes_ok a -> (length a <= 7)%nat ->
  Z.of_N (fingerprint zbackup a) = if (poly a =? -1)%Z then 0%Z else (poly a mod 2 ^ 64)%Z.
Proof.
  intros Ha La. unfold fingerprint. change (rl_clear zbackup) with (0, 0). rewrite zbackup_poly by auto.
  cbn [zbackup rl_key fst snd]. rewrite N.add_0_r. unfold w64.
  pose proof (poly_small a Ha La). set (x := poly a) in *. clearbody x.
  pose proof (Z.mod_pos_bound x (2 ^ 64) ltac:(lia)) as HB.
  rewrite (N.mod_small (Z.to_N (x mod 2 ^ 64)) (2 ^ 64)) by lia.
  destruct (Z.eqb_spec x (-1)) as [->|Hne].
  - reflexivity.
  - rewrite N.mod_small; [lia|].
    change (2 ^ 64 - 1) with 18446744073709551615. lia.
Qed.

Lemma poly_nul_cons w : poly (0 :: w) = poly w.
Proof. reflexivity. Qed.

(** *** Dictionaries *)
Lemma lz78_run_inv (P : list N -> Prop) text : forall D w, In w D -> Forall P D ->
  (forall w c, In c text -> P w -> P (w ++ [c])) -> In [] D ->
  Forall P (fst (lz78_run D w text)).
Proof.
  induction text as [|c text IH]; intros D w Hw HD HP H0; cbn [lz78_run]; [exact HD|].
  assert (HP' : forall w c, In c text -> P w -> P (w ++ [c])) by (intros; apply HP; simpl; auto).
  destruct (in_dec str_dec (w ++ [c]) D) as [Hi|Hi]; [apply IH; auto|].
  apply IH; auto.
  - apply in_app_iff; auto.
  - apply Forall_app. split; auto. constructor; [|constructor]. apply HP; [left; reflexivity|].
    rewrite Forall_forall in HD. apply HD, Hw.
  - apply in_app_iff; auto.
Qed.

Lemma lz78_run_nodup text : forall D w, NoDup D -> NoDup (fst (lz78_run D w text)).
Proof.
  induction text as [|c text IH]; intros D w HD; cbn [lz78_run]; [exact HD|].
  destruct (in_dec str_dec (w ++ [c]) D); apply IH; auto. apply NoDup_snoc; auto.
Qed.

Lemma lzw_run_inv (P : list N -> Prop) text : forall D w, P w -> Forall P D ->
  (forall w c, In c text -> P w -> P (w ++ [c])) -> (forall c, In c text -> P [c]) ->
  Forall P (fst (lzw_run D w text)).
Proof.
  induction text as [|c text IH]; intros D w Hw HD HP H0; cbn [lzw_run]; [exact HD|].
  assert (HP' : forall w c, In c text -> P w -> P (w ++ [c])) by (intros; apply HP; simpl; auto).
  assert (H0' : forall c, In c text -> P [c]) by (intros; apply H0; simpl; auto).
  assert (P (w ++ [c])) by (apply HP; simpl; auto).
  destruct (in_dec str_dec (w ++ [c]) D) as [Hi|Hi]; apply IH; auto.
  - apply H0. left. reflexivity.
  - apply Forall_app. auto.
Qed.

Lemma lzw_run_nodup text : forall D w, NoDup D -> NoDup (fst (lzw_run D w text)).
Proof.
  induction text as [|c text IH]; intros D w HD; cbn [lzw_run]; [exact HD|].
  destruct (in_dec str_dec (w ++ [c]) D); apply IH; auto. apply NoDup_snoc; auto.
Qed.

Lemma NoDup_map_on {A B} (f : A -> B) l : NoDup l ->
  (forall a b, In a l -> In b l -> f a = f b -> a = b) -> NoDup (map f l).
Proof.
  induction l as [|x l IH]; intros Hn Hf; cbn [map]; [constructor|].
  inversion Hn as [|? ? Hni Hnd]; subst. constructor.
  - intros Hx. apply in_map_iff in Hx. destruct Hx as (y & E & Hy). apply Hni.
    rewrite (Hf x y); simpl; auto.
  - apply IH; auto. intros a b Ha Hb. apply Hf; simpl; auto.
Qed.

Definition goodstr (w : list N) : Prop := bytes_ok w /\ nz w.

Lemma lz78_dict_good text : bytes_ok text -> ~ In 0 text -> Forall goodstr (lz78_dict text).
Proof.
  intros Hb H0. unfold lz78_dict. apply lz78_run_inv; simpl; auto.
  - constructor; [split; constructor|constructor].
  - intros w c Hc [A B]. split; apply Forall_app; split; auto; constructor; auto.
    + unfold bytes_ok in Hb. rewrite Forall_forall in Hb. apply Hb, Hc.
    + intros ->. auto.
Qed.

Lemma lz78_dict_nodup text : NoDup (lz78_dict text).
Proof. apply lz78_run_nodup. constructor; [intros []|constructor]. Qed.

Lemma wordpack_short text : bytes_ok text -> ~ In 0 text ->
  Forall (fun w => (length w <= 7)%nat) (lz78_dict text) ->
  NoDup (map (fun w => fingerprint wordpack (0 :: w)) (lz78_dict text)).
Proof.
  intros Hb H0 Hl. pose proof (lz78_dict_good text Hb H0) as HG. rewrite Forall_forall in HG, Hl.
  apply NoDup_map_on; [apply lz78_dict_nodup|]. intros a b Ha Hb' E.
  destruct (HG a Ha) as [A1 A2], (HG b Hb') as [B1 B2].
  apply poly_inj; auto. apply wordpack_fp_inj; auto.
Qed.

Lemma zbackup_short text : bytes_ok text -> ~ In 0 text -> ~ In 255 text ->
  Forall (fun w => (length w <= 7)%nat) (lz78_dict text) ->
  NoDup (map (fun w => fingerprint zbackup (0 :: w)) (lz78_dict text)).
Proof.
  intros Hb H0 H255 Hl. pose proof (lz78_dict_good text Hb H0) as HG.
  assert (HF : Forall (fun w => ~ In 255 w) (lz78_dict text)).
  { unfold lz78_dict. apply lz78_run_inv; simpl; auto.
    intros w c Hc Hw. rewrite in_app_iff. intros [X|[X|[]]]; subst; auto. }
  rewrite Forall_forall in HG, Hl, HF.
  apply NoDup_map_on; [apply lz78_dict_nodup|].
  assert (Z : forall a, In a (lz78_dict text) -> poly a <> (-1)%Z).
  { intros a Ha E. destruct (HG a Ha) as [A1 A2].
    assert (a = [255]).
    { apply poly_inj; auto.
      - constructor; [unfold byte_ok; lia|constructor].
      - constructor; [lia|constructor]. }
    apply (HF a Ha). subst a. left. reflexivity. }
  assert (X : forall a, In a (lz78_dict text) ->
            Z.of_N (fingerprint zbackup (0 :: a)) = (poly a mod 2 ^ 64)%Z).
  { intros a Ha. destruct (HG a Ha) as [A1 A2].
    change (fingerprint zbackup (0 :: a)) with (fingerprint zbackup a).
    rewrite zbackup_fp by auto. destruct (Z.eqb_spec (poly a) (-1)); [|reflexivity].
    exfalso. eapply Z; eauto. }
  intros a b Ha Hb' E. destruct (HG a Ha) as [A1 A2], (HG b Hb') as [B1 B2].
  apply poly_inj; auto.
  pose proof (X a Ha) as XA. pose proof (X b Hb') as XB. rewrite E, XB in XA.
  pose proof (poly_small a A1 (Hl a Ha)). pose proof (poly_small b B1 (Hl b Hb')).
  set (x := poly a) in *. set (y := poly b) in *. clearbody x y. clear - XA H H1. lia.
Qed.

(** LZW: the letter NUL is in the dictionary but no phrase contains it. *)
Definition goodw_str (w : list N) : Prop := bytes_ok w /\ (w = [0] \/ (nz w /\ w <> [])).

Lemma lzw_dict_good text : bytes_ok text -> ~ In 0 text -> Forall goodw_str (lzw_dict text).
Proof.
  intros Hb H0.
  assert (HL : Forall goodw_str letters).
  { apply Forall_forall. unfold letters. intros w Hw. apply in_map_iff in Hw. destruct Hw as (x & <- & Hx).
    apply in_seq in Hx. split; [constructor; [unfold byte_ok; lia|constructor]|].
    destruct x as [|x]; [left; reflexivity|right]. split; [constructor; [lia|constructor]|discriminate]. }
  unfold lzw_dict. destruct text as [|c text]; auto.
  inversion Hb as [|? ? Hc Hb']; subst. simpl in H0.
  assert (HLs : forall x, In x text -> byte_ok x).
  { unfold bytes_ok in Hb'. rewrite Forall_forall in Hb'. exact Hb'. }
  assert (Forall (fun w => goodw_str w) (fst (lzw_run letters [c] text))
          /\ True) as [G _]; [split; auto|exact G].
  assert (HX : Forall goodw_str (fst (lzw_run letters [c] text))).
  { (* the strings that are extended are never [0] *)
    assert (Q : forall text D w, goodw_str w -> w <> [0] -> Forall goodw_str D ->
              (forall x, In x text -> byte_ok x /\ x <> 0) ->
              Forall goodw_str (fst (lzw_run D w text))).
    { clear. induction text as [|c text IH]; intros D w Hw Hw0 HD HT; cbn [lzw_run]; [exact HD|].
      destruct (HT c (or_introl eq_refl)) as [T1 T2].
      assert (HT' : forall x, In x text -> byte_ok x /\ x <> 0) by (intros; apply HT; simpl; auto).
      assert (Hs : goodw_str (w ++ [c]) /\ w ++ [c] <> [0]).
      { destruct Hw as [A [->|[B C]]]; [congruence|]. split; [split|].
        - apply Forall_app. split; auto.
        - right. split; [apply Forall_app; split; auto|]. destruct w; discriminate.
        - destruct w as [|a [|b w]]; try congruence; discriminate. }
      destruct Hs as [Hs1 Hs2].
      destruct (in_dec str_dec (w ++ [c]) D); apply IH; auto.
      - split; [constructor; auto; constructor|]. right. split; [constructor; auto; constructor|discriminate].
      - congruence.
      - apply Forall_app. split; auto. }
    apply Q; auto.
    - split; [constructor; auto; constructor|]. right. split; [constructor; auto; constructor|discriminate].
    - intros X. inversion X. auto.
    - intros x Hx. split; auto. intros ->. auto. }
  exact HX.
Qed.

Lemma letters_nodup : NoDup letters.
Proof.
  unfold letters. apply FinFun.Injective_map_NoDup; [|apply seq_NoDup].
  intros a b E. inversion E. lia.
Qed.

Lemma lzw_dict_nodup text : NoDup (lzw_dict text).
Proof.
  unfold lzw_dict. destruct text; [apply letters_nodup|]. apply lzw_run_nodup, letters_nodup.
Qed.

Lemma wordpack_short_w text : bytes_ok text -> ~ In 0 text ->
  Forall (fun w => (length w <= 7)%nat) (lzw_dict text) ->
  NoDup (map (fingerprint wordpack) (lzw_dict text)).
Proof.
  intros Hb H0 Hl. pose proof (lzw_dict_good text Hb H0) as HG. rewrite Forall_forall in HG, Hl.
  apply NoDup_map_on; [apply lzw_dict_nodup|]. intros a b Ha Hb' E.
  destruct (HG a Ha) as [A1 A2], (HG b Hb') as [B1 B2].
  assert (EP : poly a = poly b) by (apply wordpack_fp_inj; auto).
  assert (Z : forall w, bytes_ok w -> nz w -> w <> [] -> poly w <> poly [0]).
  { intros w W1 W2 W3 X. apply W3. apply poly_inj; auto; constructor. }
  destruct A2 as [->|[A2 A3]], B2 as [->|[B2 B3]]; auto.
  - exfalso. apply (Z b); auto.
  - exfalso. apply (Z a); auto.
  - apply poly_inj; auto.
Qed.

(** *** ExtHashTrie with any dictionary size *)
Lemma ext_find_hash m p c : N.of_nat (length m) < 2 ^ 32 -> ext_find m p c = hash_find m p c.
Proof.
  intros Hl. unfold ext_find, hash_find, hm_insert. destruct (hm_get m (create_node p c)); [reflexivity|].
  do 3 f_equal. rewrite app_length. cbn [length]. f_equal. lia.
Qed.

Lemma ext_lzw_loop dms : forall text m E node fc,
  hrel m (mk_atrie 256 E) -> bytes_ok text -> ~ In 0 text -> node <> 0 ->
  node < at_size (mk_atrie 256 E) -> N.of_nat (length E + length text) + 256 < 2 ^ 32 ->
  lzw_loop ext_trie dms m node fc text = lzw_loop spec_trie dms (mk_atrie 256 E) node fc text.
Proof.
  induction text as [|x text IH]; intros m E node fc HR Hb H0 Hn0 Hn Hl; [reflexivity|].
  inversion Hb as [|? ? Hx Hb']; subst. simpl in H0, Hl. unfold at_size in Hn; simpl in Hn.
  cbn [lzw_loop]. cbn [ext_trie t_find t_root t_size t_reset].
  pose proof (hrel_len _ _ HR) as HLm. unfold at_size in HLm. cbn [a_roots a_ent] in HLm.
  rewrite ext_find_hash by lia.
  destruct (hash_find_ok m (mk_atrie 256 E) node x HR) as (m' & F & HR'); cbn [a_roots a_ent]; try (unfold at_size; cbn [a_roots a_ent]; lia).
  { exact Hx. }
  rewrite F. unfold byte_ok in Hx. cbn [spec_trie t_find t_root t_size t_reset].
  destruct (at_find_cases (mk_atrie 256 E) node x) as [(k & Hk & Hkl & Hat)|Hat]; rewrite Hat in *; cbn [fst snd] in HR' |- *.
  - cbn [a_roots a_ent] in *. apply IH; auto; try lia. unfold at_size; cbn [a_roots a_ent]; lia.
  - pose proof (hrel_len _ _ HR') as HLm'. rewrite HLm'. unfold at_size. cbn [a_roots a_ent].
    destruct (256 + N.of_nat (length (E ++ [(node, x)])) =? dms).
    + cbn [obind].
      assert (HR0 : hrel (hash_roots (map N.of_nat (seq 0 (N.to_nat 256))) []) (mk_atrie 256 [])) by (apply (hash_roots_ok 256); auto).
      do 2 f_equal. apply IH; [exact HR0|exact Hb'|tauto|intros ->; tauto|unfold at_size; cbn [a_roots a_ent length]; lia|cbn [length]; lia].
    + do 2 f_equal. apply IH; [exact HR'|exact Hb'|tauto|intros ->; tauto|unfold at_size; cbn [a_roots a_ent length]; lia|rewrite app_length; cbn [length]; lia].
Qed.

Lemma ext_lzw_calls dms text : bytes_ok text -> ~ In 0 text -> N.of_nat (length text) + 256 < 2 ^ 32 ->
  lzw_calls ext_trie dms text = lzw_calls spec_trie dms text.
Proof.
  intros Hb H0 Hl. unfold lzw_calls. cbn [ext_trie spec_trie t_init t_root obind].
  destruct text as [|x text]; auto. inversion Hb as [|? ? Hx Hb']; subst. unfold byte_ok in Hx. simpl in H0, Hl.
  apply ext_lzw_loop; auto.
  - apply (hash_roots_ok 256). auto.
  - unfold at_size; simpl; lia.
Qed.

Lemma ext_lz78_loop dms : forall text m E node parent fc lastc,
  hrel m (mk_atrie 1 E) -> bytes_ok text -> ~ In 0 text ->
  node < at_size (mk_atrie 1 E) -> N.of_nat (length E + length text) + 1 < 2 ^ 32 ->
  lz78_loop ext_trie dms m node parent fc lastc text = lz78_loop spec_trie dms (mk_atrie 1 E) node parent fc lastc text.
Proof.
  induction text as [|x text IH]; intros m E node parent fc lastc HR Hb H0 Hn Hl; [reflexivity|].
  inversion Hb as [|? ? Hx Hb']; subst. simpl in H0, Hl. unfold at_size in Hn; simpl in Hn.
  cbn [lz78_loop]. cbn [ext_trie t_find t_root t_size t_reset].
  pose proof (hrel_len _ _ HR) as HLm. unfold at_size in HLm. cbn [a_roots a_ent] in HLm.
  rewrite ext_find_hash by lia.
  destruct (hash_find_ok m (mk_atrie 1 E) node x HR) as (m' & F & HR'); cbn [a_roots a_ent]; try (unfold at_size; cbn [a_roots a_ent]; lia).
  { exact Hx. }
  rewrite F. unfold byte_ok in Hx. cbn [spec_trie t_find t_root t_size t_reset].
  destruct (at_find_cases (mk_atrie 1 E) node x) as [(k & Hk & Hkl & Hat)|Hat]; rewrite Hat in *; cbn [fst snd] in HR' |- *.
  - cbn [a_roots a_ent] in *. apply IH; auto; try lia. unfold at_size; cbn [a_roots a_ent]; lia.
  - pose proof (hrel_len _ _ HR') as HLm'. rewrite HLm'. unfold at_size. cbn [a_roots a_ent].
    destruct (1 + N.of_nat (length (E ++ [(node, x)])) =? dms).
    + cbn [obind].
      assert (HR0 : hrel (hash_roots (map N.of_nat (seq 0 (N.to_nat 1))) []) (mk_atrie 1 [])) by (apply (hash_roots_ok 1); auto).
      do 2 f_equal. apply IH; [exact HR0|exact Hb'|tauto|unfold at_size; cbn [a_roots a_ent length]; lia|cbn [length]; lia].
    + do 2 f_equal. apply IH; [exact HR'|exact Hb'|tauto|unfold at_size; cbn [a_roots a_ent length]; lia|rewrite app_length; cbn [length]; lia].
Qed.

Lemma ext_lz78_calls dms text : bytes_ok text -> ~ In 0 text -> N.of_nat (length text) + 1 < 2 ^ 32 ->
  lz78_calls ext_trie dms text = lz78_calls spec_trie dms text.
Proof.
  intros Hb H0 Hl. unfold lz78_calls. cbn [ext_trie spec_trie t_init t_root obind].
  apply ext_lz78_loop; auto.
  - apply (hash_roots_ok 1). auto.
  - unfold at_size; simpl; lia.
Qed.
