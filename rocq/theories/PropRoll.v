(** C55: LZ78 and LZW with the rolling-hash tries (RollingTrie,
    RollingTriePlus) are lossless exactly as far as fingerprints do not
    collide; ExtHashTrie. *)
From Verif Require Import Base BitIO IntCodes Coders CodersProofs LZ LZProofs Tries
  RollTrie RollSpec RollProofs RollLossProofs RollPolyProofs.
Local Open Scope N_scope.

Lemma roll78_from_calls r c text other :
  lz78_calls spec_trie 0 other = Some (rlz78_calls r 0 text) -> bytes_ok other ->
  N.of_nat (length other) + 1 < 2 ^ 32 ->
  coder_ok_char c \/ (coder_ok c /\ last other 0 < 128) ->
  exists f, rlz78_compress r 0 c text = Some f /\
    forall fuel, (length other <= fuel)%nat -> lz78_decompress c fuel f = Some other.
Proof.
  intros E Hb Hl Hc.
  assert (X : exists f, lz78_compress spec_trie 0 c other = Some f /\
    forall fuel, (length other <= fuel)%nat -> lz78_decompress c fuel f = Some other).
  { destruct Hc as [Hc|[Hc H1]].
    - apply (lz78_char_pf (2 ^ 32)); auto using spec_trie_ok.
    - apply (lz78_pf (2 ^ 32)); auto using spec_trie_ok. }
  destruct X as (f & F & D). exists f. split; auto.
  unfold lz78_compress in F. rewrite E in F. exact F.
Qed.

Lemma rollw_from_calls r c text other :
  lzw_calls spec_trie 0 other = Some (rlzw_calls r 0 text) -> bytes_ok other ->
  N.of_nat (length other) + 258 < 2 ^ 32 -> coder_ok c ->
  exists f, rlzw_compress r 0 c text = Some f /\
    forall fuel, (length other <= fuel)%nat -> lzw_decompress c 0 fuel f = Some other.
Proof.
  intros E Hb Hl Hc.
  destruct (lzw_pf (2 ^ 32) spec_trie c other (spec_trie_ok _) Hc Hb Hl) as (f & F & D); [lia|].
  exists f. split; auto. unfold lzw_compress in F. rewrite E in F. exact F.
Qed.

(** ** Lossless when no two phrases share a fingerprint *)
(** LZ78 feeds the roller a 0 before every phrase (get_rootnode(0)). *)
Theorem lz78_rolling_roundtrip : forall r c text, bytes_ok text ->
  N.of_nat (length text) + 1 < 2 ^ 32 ->
  NoDup (map (fun w => fingerprint r (0 :: w)) (lz78_dict text)) ->
  coder_ok_char c \/ (coder_ok c /\ last text 0 < 128) ->
  exists f, rlz78_compress r 0 c text = Some f /\
    forall fuel, (length text <= fuel)%nat -> lz78_decompress c fuel f = Some text.
Proof. intros r c text Hb Hl Hn Hc. apply roll78_from_calls; auto. apply rlz78_calls_ok; auto. Qed.

Theorem lzw_rolling_roundtrip : forall r c text, bytes_ok text ->
  N.of_nat (length text) + 258 < 2 ^ 32 ->
  NoDup (map (fingerprint r) (lzw_dict text)) -> coder_ok c ->
  exists f, rlzw_compress r 0 c text = Some f /\
    forall fuel, (length text <= fuel)%nat -> lzw_decompress c 0 fuel f = Some text.
Proof. intros r c text Hb Hl Hn Hc. apply rollw_from_calls; auto. apply rlzw_calls_ok; auto. lia. Qed.

(** A condition on the text alone, for the two rollers that are polynomials:
    no NUL, no phrase longer than 7 (for ZBackup also no FF). *)
Theorem wordpack_short_phrases : forall c text, bytes_ok text -> ~ In 0 text ->
  N.of_nat (length text) + 258 < 2 ^ 32 -> coder_ok_char c -> coder_ok c ->
  (Forall (fun w => (length w <= 7)%nat) (lz78_dict text) ->
   exists f, rlz78_compress wordpack 0 c text = Some f /\
    forall fuel, (length text <= fuel)%nat -> lz78_decompress c fuel f = Some text) /\
  (Forall (fun w => (length w <= 7)%nat) (lzw_dict text) ->
   exists f, rlzw_compress wordpack 0 c text = Some f /\
    forall fuel, (length text <= fuel)%nat -> lzw_decompress c 0 fuel f = Some text).
Proof.
  intros c text Hb H0 Hl Hc Hc'. split; intros Hs.
  - apply lz78_rolling_roundtrip; auto; [lia|]. apply wordpack_short; auto.
  - apply lzw_rolling_roundtrip; auto. apply wordpack_short_w; auto.
Qed.

Theorem zbackup_short_phrases : forall c text, bytes_ok text -> ~ In 0 text -> ~ In 255 text ->
  N.of_nat (length text) + 1 < 2 ^ 32 -> coder_ok_char c ->
  Forall (fun w => (length w <= 7)%nat) (lz78_dict text) ->
  exists f, rlz78_compress zbackup 0 c text = Some f /\
    forall fuel, (length text <= fuel)%nat -> lz78_decompress c fuel f = Some text.
Proof. intros. apply lz78_rolling_roundtrip; auto. apply zbackup_short; auto. Qed.

(** ** Every rolling hash loses some text *)
(** Whatever the rolling hash, if its keys are 64-bit words then a text of at
    most 91 bytes is compressed, without error, to a file that restores a
    different text. *)
Theorem lz78_rolling_loses : forall r c, (forall s, rl_key r s < 2 ^ 64) -> coder_ok_char c ->
  exists text other f, bytes_ok text /\ (length text <= 91)%nat /\ other <> text /\
    rlz78_compress r 0 c text = Some f /\
    forall fuel, (182 <= fuel)%nat -> lz78_decompress c fuel f = Some other.
Proof.
  intros r c Hk Hc.
  destruct (collision (fun w => fingerprint r (0 :: w))) as (a & b & Hne & Ba & Bb & E & La & Lb).
  { intros w. apply Hk. }
  destruct (loss_from_collision r a b) as (text & other & Bt & Bo & Lt & Lo & Hneq & EC); auto; try lia.
  destruct (roll78_from_calls r c text other EC Bo) as (f & F & D); [lia|auto|].
  exists text, other, f. repeat split; auto. intros fuel Hf. apply D. lia.
Qed.

(** The three rolling hashes qualify: the Karp-Rabin one whatever the random
    table its constructor drew. *)
Theorem rolling_keys_64bit : forall tab w,
  fingerprint wordpack w < 2 ^ 64 /\ fingerprint zbackup w < 2 ^ 64 /\
  fingerprint (karp_rabin tab) w < 2 ^ 64.
Proof.
  intros tab w. unfold fingerprint.
  assert (G : forall (f : N -> N -> N) l, (forall a b, f a b < 2 ^ 64) -> fold_left f l 0 < 2 ^ 64).
  { intros f l Hf. destruct l as [|x l] using rev_ind; [reflexivity|].
    rewrite fold_left_app. apply Hf. }
  assert (W : forall x, w64 x < 2 ^ 64) by (intros; unfold w64; apply N.mod_lt; discriminate).
  split; [|split].
  - apply G. intros. apply W.
  - cbn [zbackup rl_key]. eapply N.lt_trans; [apply N.mod_lt; discriminate|reflexivity].
  - apply G. intros. apply W.
Qed.

Theorem lz78_registered_rollers_lose : forall r c tab,
  r = wordpack \/ r = karp_rabin tab \/ r = zbackup -> coder_ok_char c ->
  exists text other f, bytes_ok text /\ (length text <= 91)%nat /\ other <> text /\
    rlz78_compress r 0 c text = Some f /\
    forall fuel, (182 <= fuel)%nat -> lz78_decompress c fuel f = Some other.
Proof.
  intros r c tab Hr Hc.
  destruct (collision (fun w => fingerprint r (0 :: w))) as (a & b & Hne & Ba & Bb & E & La & Lb).
  { intros w. pose proof (rolling_keys_64bit tab (0 :: w)). destruct Hr as [->|[->| ->]]; tauto. }
  destruct (loss_from_collision r a b) as (text & other & Bt & Bo & Lt & Lo & Hneq & EC); auto; try lia.
  destruct (roll78_from_calls r c text other EC Bo) as (f & F & D); [lia|auto|].
  exists text, other, f. repeat split; auto. intros fuel Hf. apply D. lia.
Qed.

(** The 7 of [wordpack_short_phrases] cannot be replaced by 9: "batAzBrae" and
    "aiXy4zVid" have the same fingerprint (257 - 1 = 2^8), and the text below,
    plain ASCII, comes back with one in place of the other. *)
Definition prefixes (s : list N) : list N := concat (map (fun k => firstn k s) (seq 1 (length s))).
Definition wp1 : list N := [98; 97; 116; 65; 122; 66; 114; 97; 101].
Definition wp2 : list N := [97; 105; 88; 121; 52; 122; 86; 105; 100].
Definition wp_text : list N := prefixes wp1 ++ prefixes wp2 ++ [46].
Definition wp_other : list N := prefixes wp1 ++ prefixes (firstn 8 wp2) ++ wp1 ++ [46].

Theorem wordpack_ascii_refuted : forall c, coder_ok c ->
  exists f, rlz78_compress wordpack 0 c wp_text = Some f /\
    (forall fuel, (91 <= fuel)%nat -> lz78_decompress c fuel f = Some wp_other) /\
    wp_other <> wp_text /\ (forall x, In x wp_text -> 32 <= x < 127) /\
    Forall (fun w => (length w <= 10)%nat) (lz78_dict wp_text).
Proof.
  intros c Hc.
  assert (EC : lz78_calls spec_trie 0 wp_other = Some (rlz78_calls wordpack 0 wp_text)) by (vm_compute; reflexivity).
  assert (HB : bytes_ok wp_other).
  { apply Forall_forall. intros x Hx. unfold byte_ok.
    assert (A : forallb (fun x => x <? 256) wp_other = true) by (vm_compute; reflexivity).
    rewrite forallb_forall in A. apply A in Hx. lia. }
  assert (HL : length wp_other = 91%nat) by (vm_compute; reflexivity).
  destruct (roll78_from_calls wordpack c wp_text wp_other EC HB) as (f & F & D).
  - rewrite HL. reflexivity.
  - right. split; auto. vm_compute. reflexivity.
  - exists f. split; [exact F|]. split; [|split; [|split]].
    + intros fuel Hf. apply D. rewrite HL. exact Hf.
    + intros X. apply (f_equal (fun l => nth 81 l 0)) in X. vm_compute in X. discriminate.
    + intros x Hx.
      assert (A : forallb (fun x => (32 <=? x) && (x <? 127)) wp_text = true) by (vm_compute; reflexivity).
      rewrite forallb_forall in A. apply A in Hx. apply andb_prop in Hx. lia.
    + apply Forall_forall. intros w Hw.
      assert (A : forallb (fun w => Nat.leb (length w) 10) (lz78_dict wp_text) = true) by (vm_compute; reflexivity).
      rewrite forallb_forall in A. apply A in Hw. apply Nat.leb_le, Hw.
Qed.

(** NUL at the start of a phrase is the empty phrase for Wordpack and ZBackup:
    it is dropped.  For ZBackup so is FF (its keys are taken modulo 2^64 - 1),
    and its 256 root nodes of LZW are only 255 different ones: "aaa" comes back
    as "a" FF. *)
Theorem rolling_letters_refuted : forall c, coder_ok_char c -> coder_ok c ->
  (exists f, rlz78_compress wordpack 0 c [0; 97] = Some f /\
     forall fuel, (1 <= fuel)%nat -> lz78_decompress c fuel f = Some [97]) /\
  (exists f, rlz78_compress zbackup 0 c [255; 97] = Some f /\
     forall fuel, (1 <= fuel)%nat -> lz78_decompress c fuel f = Some [97]) /\
  (exists f, rlzw_compress zbackup 0 c [97; 97; 97] = Some f /\
     forall fuel, (2 <= fuel)%nat -> lzw_decompress c 0 fuel f = Some [97; 255]).
Proof.
  intros c Hc Hc'. split; [|split].
  - apply (roll78_from_calls wordpack c [0; 97] [97]); auto; vm_compute; auto.
  - apply (roll78_from_calls zbackup c [255; 97] [97]); auto; vm_compute; auto.
  - apply (rollw_from_calls zbackup c [97; 97; 97] [97; 255]); auto; try (vm_compute; reflexivity).
    repeat constructor.
Qed.

(** ** ExtHashTrie (NUL-free texts, as for HashTrie), whatever dict_size *)
Theorem ext_trie_same_calls : forall dms text, bytes_ok text -> ~ In 0 text ->
  N.of_nat (length text) + 256 < 2 ^ 32 ->
  lz78_calls ext_trie dms text = lz78_calls spec_trie dms text /\
  lzw_calls ext_trie dms text = lzw_calls spec_trie dms text.
Proof. intros. split; [apply ext_lz78_calls|apply ext_lzw_calls]; auto. lia. Qed.

Theorem ext_trie_roundtrip : forall c text, bytes_ok text -> ~ In 0 text ->
  N.of_nat (length text) + 258 < 2 ^ 32 -> coder_ok c ->
  (coder_ok_char c \/ last text 0 < 128 ->
   exists f, lz78_compress ext_trie 0 c text = Some f /\
    forall fuel, (length text <= fuel)%nat -> lz78_decompress c fuel f = Some text) /\
  (exists f, lzw_compress ext_trie 0 c text = Some f /\
    forall fuel, (length text <= fuel)%nat -> lzw_decompress c 0 fuel f = Some text) /\
  (forall dms, 257 <= dms < 2 ^ 32 ->
    (forall a b s, 256 <= a <= dms -> 256 <= b <= dms -> c_dec c (RInt 0 a) s = c_dec c (RInt 0 b) s) ->
    exists f, lzw_compress ext_trie dms c text = Some f /\
    forall fuel, (length text <= fuel)%nat -> lzw_decompress c dms fuel f = Some text).
Proof.
  intros c text Hb H0 Hl Hc. unfold lz78_compress, lzw_compress.
  split; [|split].
  - intros Hx. rewrite ext_lz78_calls by (auto; lia). 
    destruct Hx as [Hx|Hx].
    + apply (lz78_char_pf (2 ^ 32) spec_trie 0); auto using spec_trie_ok; lia.
    + apply (lz78_pf (2 ^ 32) spec_trie 0); auto using spec_trie_ok; lia.
  - rewrite ext_lzw_calls by (auto; lia). apply (lzw_pf (2 ^ 32) spec_trie); auto using spec_trie_ok. lia.
  - intros dms Hd Hr. rewrite ext_lzw_calls by (auto; lia).
    apply (lzw_bounded_pf (2 ^ 32) spec_trie); auto using spec_trie_ok. lia.
Qed.

(** ** The hypotheses are met *)
Example roll_banana :
  let text := [98; 97; 110; 97; 110; 97; 98; 97; 110] in
  NoDup (map (fun w => fingerprint wordpack (0 :: w)) (lz78_dict text)) /\
  (do f <- rlz78_compress wordpack 0 (simple_coder BitC) text; lz78_decompress (simple_coder BitC) 9 f) = Some text /\
  (do f <- rlzw_compress wordpack 0 (simple_coder BitC) text; lzw_decompress (simple_coder BitC) 0 9 f) = Some text /\
  length (lz78_dict text) = 6%nat.
Proof.
  cbv zeta. split; [|split; [|split]].
  - vm_compute. repeat constructor; simpl; intuition discriminate.
  - vm_compute; reflexivity.
  - vm_compute; reflexivity.
  - reflexivity.
Qed.
(** A Karp-Rabin table under which the phrases of a text are told apart. *)
Example kr_abab :
  let text := [97; 98; 97; 98; 97] in
  let tab := map (fun c => N.of_nat c * 1000003 + 17) (seq 0 256) in
  NoDup (map (fun w => fingerprint (karp_rabin tab) (0 :: w)) (lz78_dict text)) /\
  (do f <- rlz78_compress (karp_rabin tab) 0 (simple_coder Ascii) text; lz78_decompress (simple_coder Ascii) 5 f) = Some text.
Proof.
  cbv zeta. split.
  - vm_compute. repeat constructor; simpl; intuition discriminate.
  - vm_compute; reflexivity.
Qed.
Example ext_abab : let text := [97; 98; 97; 98; 97; 98; 99] in
  (do f <- lzw_compress ext_trie 258 (simple_coder Ascii) text; lzw_decompress (simple_coder Ascii) 258 7 f) = Some text.
Proof. cbv zeta. vm_compute; reflexivity. Qed.

Print Assumptions lz78_rolling_roundtrip.
Print Assumptions lzw_rolling_roundtrip.
Print Assumptions wordpack_short_phrases.
Print Assumptions zbackup_short_phrases.
Print Assumptions lz78_rolling_loses.
Print Assumptions rolling_keys_64bit.
Print Assumptions lz78_registered_rollers_lose.
Print Assumptions wordpack_ascii_refuted.
Print Assumptions rolling_letters_refuted.
Print Assumptions ext_trie_same_calls.
Print Assumptions ext_trie_roundtrip.
