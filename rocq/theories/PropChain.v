(** Properties C28 (chains) and C50 (the driver's file header). *)
From Verif Require Import Base Escape EscapeProofs PropEscape InputObj InputSpec InputProofs Chain.
From Verif Require Import BitIO IntCodes Coders CodersProofs ByteComp ByteCompProofs PropByteComp.
Local Open Scope nat_scope.

(** An input that respects the restrictions: no forbidden byte, and a final NUL if asked for. *)
Definition respects (r : restr) (s : list N) : Prop :=
  exists body, bytes_ok body /\ s = body ++ (if r_nt r then [0%N] else []) /\ (forall x, In x (r_esc r) -> ~ In x body).
(** A compressor that is lossless on the inputs its declared restrictions admit *)
Definition lossless (c : compressor) : Prop :=
  usable (cp_restr c) /\
  forall s, respects (cp_restr c) s -> exists z, cp_comp c s = Some z /\ bytes_ok z /\ cp_dec c z = Some s.

Lemma none_usable : usable (mk_restrictions [] false).
Proof. exists [], false. split; auto. split; [constructor|left; auto]. Qed.
Lemma or_none r : usable r -> restr_or (mk_restrictions [] false) r = r.
Proof.
  intros (e & n & -> & _). destruct (restrictions_semilattice (mk_restrictions [] false) (mk_restrictions e n)
      (mk_restrictions [] false)) as (_ & _ & C & _); try (eexists _, _; reflexivity). rewrite C.
  destruct (restrictions_semilattice (mk_restrictions e n) (mk_restrictions e n)
      (mk_restrictions [] false)) as (_ & _ & _ & _ & D); try (eexists _, _; reflexivity). exact D.
Qed.
Lemma no_restr r : usable r -> has_restrictions r = false -> r = mk_restrictions [] false.
Proof.
  intros (e & n & -> & _ & _) H. unfold has_restrictions, has_no_restrictions in H.
  apply negb_false_iff, andb_true_iff in H. destruct H as [H1 H2]. apply noesc_nil in H1. apply negb_true_iff in H2.
  cbn [mk_restrictions r_nt] in H2. subst n. cbn [mk_restrictions r_esc] in H1. unfold mk_restrictions. rewrite H1. reflexivity.
Qed.

(** what the restricted input shows, and that un-restricting the output gives the data *)
Lemma view_and_back r data : usable r -> bytes_ok data ->
  exists s, shows r data s /\ respects r s /\ ostream_unrestrict r s = Some data.
Proof.
  intros (e & n & -> & H1 & H2) Hd.
  destruct (restriction_removes_forbidden e n data (fun _ => 0%N) H1 H2 Hd) as (body & B1 & B2 & B3 & _).
  destruct (unrestriction_lossless e n data H1 H2 Hd) as (buf & C1 & C2 & _).
  rewrite B3 in C1. injection C1 as <-. exists (body ++ terminator n). split; auto. split; auto.
  exists body. split; auto. split; [cbn [mk_restrictions r_nt]; destruct n; reflexivity|].
  intros x Hx. apply B2. cbn [mk_restrictions r_esc] in Hx. apply (norm_in e) in Hx. auto.
Qed.
Lemma shows_none data b : bytes_ok data -> shows (mk_restrictions [] false) data b <-> b = data.
Proof.
  intros Hd. destruct (all_agree (mk_restrictions [] false) data (fun _ => 0%N) none_usable Hd) as (x & X1 & _ & _ & X4 & _).
  unfold shows. rewrite X1, (X4 eq_refl). split; congruence.
Qed.
Lemma fresh_ok src r : usable r -> bytes_ok (src_data src) ->
  exists s, shows r (src_data src) s /\
    fresh_view (if has_restrictions r then in_restrict (input_of src) r else input_of src) = Some s.
Proof.
  intros U Hd.
  assert (E : (if has_restrictions r then in_restrict (input_of src) r else input_of src) = mk_input src 0 None r).
  { destruct (has_restrictions r) eqn:H.
    - unfold in_restrict, input_of. cbn [i_src i_from i_to i_restr]. rewrite or_none by auto. reflexivity.
    - rewrite (no_restr r U H). reflexivity. }
  rewrite E. destruct (all_agree r (src_data src) (fun k => nth (0 + length (src_data src) + k) (src_data src) 0%N) U Hd) as (b & B1 & B2 & _ & _ & B5).
  exists b. split; auto. assert (RG : in_range (src_data src) 0 None) by (split; lia).
  assert (PT : part (src_data src) 0 None = src_data src) by (rewrite part_tail by auto; reflexivity).
  unfold fresh_view. destruct src as [d|d|d]; cbn [i_src src_data] in *.
  - unfold as_view, mem_view. cbn [i_src i_from i_to i_restr]. rewrite vslice_part, PT by auto. exact B1.
  - unfold as_view, file_view. cbn [i_src i_from i_to i_restr]. rewrite vslice_part, PT by auto. exact B2.
  - unfold do_access, find_or_construct. cbn [i_from i_to i_restr pool0 p_root p_kids p_open p_next Nat.eqb same_to andb].
    rewrite B5. reflexivity.
Qed.
Lemma fresh_plain src : bytes_ok (src_data src) -> fresh_view (input_of src) = Some (src_data src).
Proof.
  intros Hd. destruct (fresh_ok src (mk_restrictions [] false) none_usable Hd) as (s & S1 & S2).
  apply shows_none in S1; auto. subst s. exact S2.
Qed.
Lemma out_write_ok k ov contents r x y : usable r -> ostream_unrestrict r x = Some y ->
  exists o', out_write (if has_restrictions r then out_unrestrict (output_of k ov) r else output_of k ov) contents x =
    Some (o', match k with OFile => if ov then [] else contents | _ => contents end ++ y).
Proof.
  intros U H.
  assert (E : (if has_restrictions r then out_unrestrict (output_of k ov) r else output_of k ov) = mk_output k ov r).
  { destruct (has_restrictions r) eqn:X.
    - unfold out_unrestrict, output_of. cbn [o_kind o_over o_restr]. rewrite or_none by auto. reflexivity.
    - rewrite (no_restr r U X). reflexivity. }
  rewrite E. unfold out_write. cbn [o_kind o_over o_restr].
  assert (W : (if has_no_restrictions r then Some x else ostream_unrestrict r x) = Some y).
  { destruct (has_no_restrictions r) eqn:X; auto.
    rewrite (no_restr r U) in H by (unfold has_restrictions; rewrite X; auto).
    cbn [ostream_unrestrict] in H. rewrite <- H.
    unfold ostream_unrestrict. cbn [escape_map mk_restrictions r_esc sort_bytes uniq r_nt obind].
    f_equal. clear. induction x as [|c x IH]; [reflexivity|]. cbn [push_all].
    unfold push_unescape at 1. cbn [em_has_escape em_eb andb em_nt]. rewrite andb_false_r. cbn [app].
    destruct (push_all (mk_em [] [] false) (false, false) x) as [st o] eqn:P. cbn [snd app] in *. f_equal. exact IH. }
  rewrite W. cbn [obind]. destruct k; eexists; reflexivity.
Qed.

Lemma stage_ok c src : lossless c -> bytes_ok (src_data src) ->
  exists z, run_compress c (input_of src) = Some z /\ bytes_ok z /\
    forall src' k ov contents, src_data src' = z ->
      run_decompress c (input_of src') (output_of k ov) contents =
        Some (match k with OFile => if ov then [] else contents | _ => contents end ++ src_data src).
Proof.
  intros [U L] Hd. destruct (view_and_back (cp_restr c) (src_data src) U Hd) as (s & S1 & S2 & S3).
  destruct (fresh_ok src (cp_restr c) U Hd) as (s' & T1 & T2). unfold shows in *. rewrite S1 in T1. injection T1 as <-.
  destruct (L s S2) as (z & Z1 & Z2 & Z3). exists z. unfold run_compress. rewrite T2. cbn [obind]. split; auto. split; auto.
  intros src' k ov contents E. unfold run_decompress. rewrite fresh_plain by (rewrite E; auto). rewrite E. cbn [obind].
  rewrite Z3. cbn [obind]. destruct (out_write_ok k ov contents (cp_restr c) s (src_data src) U S3) as (o' & W).
  rewrite W. reflexivity.
Qed.

(** C28. For any two compressors that are lossless on the inputs their restrictions
    admit, the chain is lossless on every input, from memory, a file or a stream, and
    whatever the kind of the output. *)
Theorem chain_lossless : forall c1 c2 src, lossless c1 -> lossless c2 -> bytes_ok (src_data src) ->
  exists z, chain_compress c1 c2 (input_of src) = Some z /\ bytes_ok z /\
    forall src' k ov contents, src_data src' = z ->
      chain_decompress c1 c2 (input_of src') (output_of k ov) contents =
        Some (match k with OFile => if ov then [] else contents | _ => contents end ++ src_data src).
Proof.
  intros c1 c2 src L1 L2 Hd. destruct (stage_ok c1 src L1 Hd) as (z1 & A1 & A2 & A3).
  destruct (stage_ok c2 (SView z1) L2 A2) as (z & B1 & B2 & B3).
  exists z. unfold chain_compress. rewrite A1. cbn [obind]. split; auto. split; auto.
  intros src' k ov contents E. unfold chain_decompress. rewrite (B3 src' OMem false [] E). cbn [obind app src_data].
  apply (A3 (SView z1)). reflexivity.
Qed.
Print Assumptions chain_lossless.
(** so chains of chains, of any length and nesting, are lossless too. *)
Theorem chain_compositional : forall c1 c2, lossless c1 -> lossless c2 -> lossless (chain_compressor c1 c2).
Proof.
  intros c1 c2 L1 L2. split; [exact none_usable|]. intros s (body & B1 & B2 & _).
  cbn [chain_compressor cp_restr mk_restrictions r_nt] in B2. rewrite app_nil_r in B2. subst s.
  destruct (chain_lossless c1 c2 (SView body) L1 L2 B1) as (z & Z1 & Z2 & Z3).
  exists z. cbn [chain_compressor cp_comp cp_dec]. split; auto. split; auto.
  rewrite (Z3 (SView z) OMem false [] eq_refl). reflexivity.
Qed.
Print Assumptions chain_compositional.

(** concrete compressors meet the hypothesis: the move-to-front encoder, the no-op, and
    one that insists on NUL-terminated NUL-free texts *)
Definition mtf_compressor : compressor := mk_compressor (mk_restrictions [] false) mtf_encode mtf_decode.
Lemma mtf_lossless : lossless mtf_compressor.
Proof.
  split; [exact none_usable|]. intros s (body & B1 & B2 & _). cbn in B2. rewrite app_nil_r in B2. subst s.
  apply mtf_roundtrip. auto.
Qed.
Definition strict_compressor : compressor :=
  mk_compressor (mk_restrictions [0%N] true)
    (fun s => if forallb (fun b => negb (b =? 0)%N) (removelast s) && (last s 1%N =? 0)%N then Some (removelast s) else None)
    (fun z => Some (z ++ [0%N])).
Lemma strict_lossless : lossless strict_compressor.
Proof.
  split.
  - exists [0%N], true. split; auto. split; [repeat constructor|apply six_escape_bytes_suffice; cbn; lia].
  - intros s (body & B1 & B2 & B3). cbn in B2, B3. subst s. exists body. cbn [strict_compressor cp_comp cp_dec].
    rewrite removelast_last, last_last. rewrite N.eqb_refl, andb_true_r.
    replace (forallb (fun b => negb (b =? 0)%N) body) with true; auto. symmetry. apply forallb_forall.
    intros x Hx. apply negb_true_iff, N.eqb_neq. intros ->. apply (B3 0%N); auto.
Qed.
Example chain_ex : chain_compress strict_compressor mtf_compressor (input_of (SView [7; 0; 7]%N)) = Some [7; 255; 255; 2]%N /\
  chain_decompress strict_compressor mtf_compressor (input_of (SFile [7; 255; 255; 2]%N)) (output_of OFile true) [1; 2; 3]%N = Some [7; 0; 7]%N.
Proof. split; vm_compute; reflexivity. Qed.

(** C50. What the driver writes, it reads back: for every algorithm id without a
    percent sign and of at most 1023 bytes, whatever the output files contained before, and however
    the archive is read back. *)
Lemma header_ok id rest : ~ In percent id -> forall n acc err, n + length id <= 1023 ->
  read_header (id ++ percent :: rest) n acc err = Some (acc ++ id).
Proof.
  induction id as [|c id IH]; intros Hn n acc err H.
  - cbn [app read_header]. cbn [length] in H. replace (1023 <? n) with false by (symmetry; apply Nat.ltb_ge; lia).
    rewrite N.eqb_refl, app_nil_r. reflexivity.
  - cbn [app read_header]. cbn [length] in H. replace (1023 <? n) with false by (symmetry; apply Nat.ltb_ge; lia).
    replace (c =? percent)%N with false by (symmetry; apply N.eqb_neq; intros ->; apply Hn; left; auto).
    rewrite IH by (try lia; intros X; apply Hn; right; auto). rewrite <- app_assoc. reflexivity.
Qed.
Lemma header_long id rest : ~ In percent id -> forall n acc err, 1023 < n + length id -> id <> [] \/ err = true ->
  n <= 1024 -> read_header (id ++ percent :: rest) n acc err = None.
Proof.
  induction id as [|c id IH]; intros Hn n acc err H He Hle.
  - cbn [app read_header]. cbn [length] in H. replace (1023 <? n) with true by (symmetry; apply Nat.ltb_lt; lia). reflexivity.
  - cbn [app read_header]. cbn [length] in H. destruct (1023 <? n) eqn:E; auto. apply Nat.ltb_ge in E.
    replace (c =? percent)%N with false by (symmetry; apply N.eqb_neq; intros ->; apply Hn; left; auto).
    apply IH; try lia; auto. intros X; apply Hn; right; auto.
Qed.
Lemma no_percent id : ~ In percent id -> existsb (N.eqb percent) id = false.
Proof.
  intros H. apply not_true_iff_false. intros X. apply existsb_exists in X. destruct X as (y & Y1 & Y2).
  apply N.eqb_eq in Y2. subst y. auto.
Qed.
Lemma plain_write o contents l : o_restr o = mk_restrictions [] false ->
  out_write o contents l = Some (match o_kind o with OFile => mk_output OFile false (o_restr o) | _ => o end,
     match o_kind o with OFile => if o_over o then [] else contents | _ => contents end ++ l).
Proof.
  intros E. unfold out_write. rewrite E. cbn [has_no_restrictions has_no_escape_restrictions mk_restrictions r_esc sort_bytes uniq r_nt negb andb obind].
  destruct (o_kind o); auto.
Qed.
Lemma driver_written reg raw id c src old : reg id = Some c -> lossless c -> (raw = false -> ~ In percent id) ->
  bytes_ok (src_data src) ->
  exists z, run_compress c (input_of src) = Some z /\ bytes_ok z /\
    (exists s, cp_dec c z = Some s /\ ostream_unrestrict (cp_restr c) s = Some (src_data src)) /\
    driver_compress reg raw id src old = Some ((if raw then [] else id ++ [percent]) ++ z).
Proof.
  intros R [U L] Hp Hd. destruct (view_and_back (cp_restr c) (src_data src) U Hd) as (s & S1 & S2 & S3).
  destruct (fresh_ok src (cp_restr c) U Hd) as (s' & T1 & T2). unfold shows in *. rewrite S1 in T1. injection T1 as <-.
  destruct (L s S2) as (z & Z1 & Z2 & Z3). exists z.
  assert (RC : run_compress c (input_of src) = Some z) by (unfold run_compress; rewrite T2; exact Z1).
  split; auto. split; auto. split; [exists s; auto|]. unfold driver_compress. rewrite R. cbn [obind]. destruct raw.
  - cbn [obind]. rewrite RC. cbn [obind]. rewrite plain_write by reflexivity. reflexivity.
  - rewrite no_percent by auto. rewrite plain_write by reflexivity. cbn [obind output_of o_kind o_over o_restr app].
    rewrite RC. cbn [obind]. rewrite plain_write by reflexivity. reflexivity.
Qed.
Lemma none_good data f : in_range data f None -> good_request data f None (mk_restrictions [] false).
Proof.
  intros R. split; [exact none_usable|]. split; auto. split; auto. split; [intros _ X; discriminate|].
  intros X. exfalso. apply X. reflexivity.
Qed.
Lemma access_plain data f : bytes_ok data -> in_range data f None ->
  as_view (mk_input (SView data) f None (mk_restrictions [] false)) = Some (skipn f data) /\
  as_view (mk_input (SFile data) f None (mk_restrictions [] false)) = Some (skipn f data).
Proof.
  intros Hd R. unfold as_view, mem_view, file_view. cbn [i_src i_from i_to i_restr]. rewrite vslice_part by auto. cbn [obind].
  destruct (all_agree (mk_restrictions [] false) (part data f None)
    (fun k => nth (f + length (part data f None) + k) data 0%N) none_usable (bytes_part data f None Hd)) as (b & B1 & B2 & _ & B4 & _).
  rewrite B1, B2, (B4 eq_refl), part_tail by auto. auto.
Qed.

Theorem driver_roundtrip : forall reg id c src w old old', reg id = Some c -> lossless c -> bytes_ok id ->
  ~ In percent id -> length id <= 1023 -> bytes_ok (src_data src) ->
  exists archive, driver_compress reg false id src old = Some archive /\
    driver_decompress reg false None w archive old' = Some (src_data src) /\
    driver_decompress reg false (Some id) w archive old' = Some (src_data src).
Proof.
  intros reg id c src w old old' R L Hi Hp Hl Hd.
  destruct (driver_written reg false id c src old R L (fun _ => Hp) Hd) as (z & _ & Z2 & (s & Z3 & Z4) & Z5).
  set (arch := (id ++ [percent]) ++ z) in *. exists arch. split; auto.
  assert (Ba : bytes_ok arch).
  { unfold arch, bytes_ok. rewrite !Forall_app. split; [split; [exact Hi|constructor; [reflexivity|constructor]]|exact Z2]. }
  assert (HH : read_header arch 0 [] false = Some id).
  { unfold arch. rewrite <- app_assoc. cbn [app]. rewrite header_ok by (auto; lia). reflexivity. }
  assert (RG : in_range arch (length id + 1) None) by (split; unfold arch; rewrite ?app_length; cbn [length]; lia).
  assert (SK : skipn (length id + 1) arch = z).
  { unfold arch. replace (length id + 1) with (length (id ++ [percent])) by (rewrite app_length; reflexivity). apply skipn_app_exact. }
  destruct (access_plain arch (length id + 1) Ba RG) as [V1 V2]. rewrite SK in V1, V2.
  assert (RW : in_range arch 0 None) by (split; lia).
  destruct (access_plain arch 0 Ba RW) as [W1 W2]. cbn [skipn] in W1, W2.
  destruct L as [U _].
  assert (OUT : exists o', out_write (if has_restrictions (cp_restr c) then out_unrestrict (output_of OFile true) (cp_restr c)
     else output_of OFile true) old' s = Some (o', [] ++ src_data src)) by (apply (out_write_ok OFile true old' (cp_restr c) s (src_data src) U Z4)).
  destruct OUT as (o' & OUT). cbn [app] in OUT.
  assert (FRONT : (match w with
       | FromMemory =>
           do s <- as_stream true (input_of (SView arch)); do h <- read_header s 0 [] false;
           do b <- as_view (in_slice (input_of (SView arch)) (length h + 1) None); Some (h, b)
       | FromFile =>
           do s <- as_stream true (input_of (SFile arch)); do h <- read_header s 0 [] false;
           do b <- as_view (in_slice (input_of (SFile arch)) (length h + 1) None); Some (h, b)
       | FromStdin =>
           do (st1, x) <- do_access arch pool0 (AStream 0 0 None (mk_restrictions [] false));
           match x with
           | RBytes s =>
               do h <- read_header s 0 [] false;
               do (st2, _) <- do_access arch st1 (AClose 0);
               do (_, y) <- do_access arch st2 (AView 1 (length h + 1) None (mk_restrictions [] false));
               match y with RBytes b => Some (h, b) | _ => None end
           | _ => None
           end
       end) = Some (id, z)).
  { destruct w.
    - assert (S1 : as_stream true (input_of (SView arch)) = Some arch).
      { unfold as_stream, mem_stream. cbn [input_of i_src i_from i_to i_restr]. rewrite vslice_part by auto. cbn [obind].
        unfold apply_istream. rewrite part_tail by auto. reflexivity. }
      rewrite S1. cbn [obind]. rewrite HH. cbn [obind].
      change (in_slice (input_of (SView arch)) (length id + 1) None) with (mk_input (SView arch) (length id + 1) None (mk_restrictions [] false)).
      rewrite V1. reflexivity.
    - assert (S1 : as_stream true (input_of (SFile arch)) = Some arch) by reflexivity.
      rewrite S1. cbn [obind]. rewrite HH. cbn [obind].
      change (in_slice (input_of (SFile arch)) (length id + 1) None) with (mk_input (SFile arch) (length id + 1) None (mk_restrictions [] false)).
      rewrite V2. reflexivity.
    - destruct (access_ok arch pool0 (AStream 0 0 None (mk_restrictions [] false)) 0 None (mk_restrictions [] false) Ba (pool0_ok arch)
        eq_refl (none_good arch 0 RW)) as (st1 & x & A1 & A2 & A3 & A4 & A5); [intros h _ []|intros X; exfalso; apply X; reflexivity|].
      rewrite A1. cbn [obind]. destruct A2 as (b & -> & A2). apply shows_none in A2; [|apply bytes_part; auto].
      rewrite part_tail in A2 by auto. cbn [skipn] in A2. subst b. rewrite HH. cbn [obind].
      destruct (close_ok arch st1 0 A3) as (st2 & B1 & B2 & B3 & B4); [rewrite A4; left; auto|].
      rewrite B1. cbn [obind].
      destruct (access_ok arch st2 (AView 1 (length id + 1) None (mk_restrictions [] false)) (length id + 1) None (mk_restrictions [] false) Ba B2
        eq_refl (none_good arch (length id + 1) RG)) as (st3 & y & C1 & C2 & _).
      + rewrite B3, A4. cbn. auto.
      + intros _. rewrite B4. exact A5.
      + rewrite C1. cbn [obind]. destruct C2 as (b & -> & C2). apply shows_none in C2; [|apply bytes_part; auto].
        rewrite part_tail in C2 by auto. rewrite SK in C2. subst b. reflexivity. }
  unfold driver_decompress. cbn match. rewrite FRONT. cbn [obind]. rewrite R. cbn [obind]. rewrite Z3. cbn [obind]. rewrite OUT.
  cbn [obind]. auto.
Qed.
Print Assumptions driver_roundtrip.

(** without a header the algorithm has to be given again *)
Theorem driver_raw_roundtrip : forall reg id c src w old old', reg id = Some c -> lossless c -> bytes_ok (src_data src) ->
  exists archive, driver_compress reg true id src old = Some archive /\
    driver_decompress reg true (Some id) w archive old' = Some (src_data src).
Proof.
  intros reg id c src w old old' R L Hd.
  destruct (driver_written reg true id c src old R L (fun H => ltac:(discriminate H)) Hd) as (z & _ & Z2 & (s & Z3 & Z4) & Z5).
  cbn [app] in Z5. exists z. split; auto. destruct L as [U _].
  destruct (out_write_ok OFile true old' (cp_restr c) s (src_data src) U Z4) as (o' & OUT). cbn [app] in OUT.
  assert (RW : in_range z 0 None) by (split; lia).
  destruct (access_plain z 0 Z2 RW) as [W1 W2]. cbn [skipn] in W1, W2.
  assert (FRONT : (match w with
       | FromMemory => do b <- as_view (input_of (SView z)); Some (@nil N, b)
       | FromFile => do b <- as_view (input_of (SFile z)); Some ([], b)
       | FromStdin => do (_, x) <- do_access z pool0 (AView 0 0 None (mk_restrictions [] false));
                      match x with RBytes b => Some ([], b) | _ => None end
       end) = Some ([], z)).
  { destruct w.
    - unfold input_of. rewrite W1. reflexivity.
    - unfold input_of. rewrite W2. reflexivity.
    - pose proof (fresh_plain (SStream z) Z2) as F. unfold fresh_view in F. cbn [input_of i_src i_from i_to i_restr src_data] in F.
      destruct (do_access z pool0 (AView 0 0 None (mk_restrictions [] false))) as [[st x]|]; [|discriminate].
      cbn [obind] in *. destruct x; try discriminate. injection F as ->. reflexivity. }
  unfold driver_decompress. rewrite FRONT. cbn [obind]. rewrite R. cbn [obind]. rewrite Z3. cbn [obind]. rewrite OUT. reflexivity.
Qed.
Print Assumptions driver_raw_roundtrip.
(** a longer id is written but never read back *)
Theorem driver_long_id_refuted : forall reg id c src w old old', reg id = Some c -> lossless c -> bytes_ok id ->
  ~ In percent id -> 1023 < length id -> bytes_ok (src_data src) ->
  exists archive, driver_compress reg false id src old = Some archive /\
    forall given, w <> FromStdin -> driver_decompress reg false given w archive old' = None.
Proof.
  intros reg id c src w old old' R L Hi Hp Hl Hd.
  destruct (driver_written reg false id c src old R L (fun _ => Hp) Hd) as (z & _ & Z2 & _ & Z5).
  set (arch := (id ++ [percent]) ++ z) in *. exists arch. split; auto. intros given Hw.
  assert (HH : read_header arch 0 [] false = None).
  { unfold arch. rewrite <- app_assoc. cbn [app]. apply header_long; auto; try lia; left; intros ->; cbn [length] in Hl; lia. }
  assert (RW : in_range arch 0 None) by (split; lia).
  assert (S1 : as_stream true (input_of (SView arch)) = Some arch).
  { unfold as_stream, mem_stream. cbn [input_of i_src i_from i_to i_restr]. rewrite vslice_part by auto. cbn [obind].
    unfold apply_istream. rewrite part_tail by auto. reflexivity. }
  assert (S2 : as_stream true (input_of (SFile arch)) = Some arch) by reflexivity.
  unfold driver_decompress. destruct w; [rewrite S1|rewrite S2|congruence]; cbn [obind]; rewrite HH; reflexivity.
Qed.
Print Assumptions driver_long_id_refuted.
(** and an id with a percent sign is refused *)
Theorem driver_percent_refused : forall reg id src old, In percent id -> driver_compress reg false id src old = None.
Proof.
  intros reg id src old H. unfold driver_compress. destruct (reg id); auto. cbn [obind].
  replace (existsb (N.eqb percent) id) with true; auto. symmetry. apply existsb_exists. exists percent. split; [auto|apply N.eqb_refl].
Qed.
Print Assumptions driver_percent_refused.
Example driver_ex : let reg := fun id => match id with [109; 116; 102]%N => Some mtf_compressor | _ => None end in
  driver_compress reg false [109; 116; 102]%N (SStream [5; 5]%N) [1; 2; 3; 4; 5; 6]%N = Some [109; 116; 102; 37; 5; 0]%N /\
  driver_decompress reg false None FromStdin [109; 116; 102; 37; 5; 0]%N [9; 9; 9]%N = Some [5; 5]%N.
Proof. split; vm_compute; reflexivity. Qed.
