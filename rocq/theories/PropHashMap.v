(** C45: HashMap behaves like a map; the hash tries built on it. *)
From Coq Require Import Permutation.
From Verif Require Import Base BitIO IntCodes Coders LZ Tries HashMap HashMapSpec HashMapProofs
  HashTermProofs HashTableProofs HashRefuteProofs HashSimProofs PropTries.
Local Open Scope N_scope.

(** C45. Whatever the hash function, prober and size manager: whenever the calls of a history return, every
    insert answers like an insert into a finite map that never overwrites, and entries() counts the keys -
    through every collision, growth and explicit reserve. *)
Theorem hashmap_is_map : forall fuel c n lf ops answers,
  proper_values ops -> inserts ops < 2 ^ 32 ->
  ht_run fuel c n (ht_new lf) ops = Some answers -> answers = map_answers f_empty ops.
Proof.
  intros fuel c n lf ops l HV HI HR. eapply run_ok; eauto.
  - apply (fresh_inv c 4 lf).
  - apply (fresh_rel c).
Qed.
Print Assumptions hashmap_is_map.

Definition linear_conf (h : N -> N) (sm : sizeman) : hconf := mk_hconf h pr_linear sm.
(** C45. With linear probing (the default) and load factors between 0.3f (the default) and 0.95f, the calls
    do return: with power-of-two sizes (the default) always, with the modulo and prime sizes after a reserve
    of at least 10. *)
Theorem hashmap_returns : forall h n lf hint rem ops,
  lf_30 <= lf <= lf_95 -> proper_values ops -> existsb is_reserve ops = false ->
  inserts ops <= 2 ^ 28 -> hint < 2 ^ 31 ->
  exists F, forall fuel, (F <= fuel)%nat ->
    (ht_run fuel (linear_conf h sm_pow2) n (ht_new lf) ops = Some (map_answers f_empty ops)) /\
    (ht_run fuel (linear_conf h sm_pow2) n (ht_new lf) (HReserve hint rem :: ops) = Some (ADone :: map_answers f_empty ops)) /\
    (10 <= hint -> forall sm, sm = sm_noob \/ sm = sm_prime ->
       ht_run fuel (linear_conf h sm) n (ht_new lf) (HReserve hint rem :: ops) = Some (ADone :: map_answers f_empty ops)).
Proof.
  intros h n lf hint rem ops LF HV HR HI HH. exists (S (S (N.to_nat (2 ^ 32)))). intros fuel HF.
  destruct fuel as [| fuel]; [lia |]. assert (HF' : (N.to_nat (2 ^ 32) < fuel)%nat) by lia. clear HF.
  assert (GEN : forall c (P : N -> Prop) s, growing c P -> P s ->
            ht_run (S fuel) c n (ht_fresh s lf) ops = Some (map_answers f_empty ops)).
  { intros c P s G PS. destruct (run_total c P n fuel G HF' ops (ht_fresh s lf)) as [l El]; auto.
    - apply fresh_ready; auto.
    - rewrite El. f_equal. eapply run_ok; eauto.
      + apply (fresh_inv c s lf).
      + apply (fresh_rel c).
      + cbn [f_empty f_count]. change (2 ^ 28) with 268435456 in HI. change (2 ^ 32) with 4294967296. lia. }
  assert (RES : forall c (P : N -> Prop), growing c P -> P (sm_min (hc_sm c) hint) ->
            ht_run (S fuel) c n (ht_new lf) (HReserve hint rem :: ops) = Some (ADone :: map_answers f_empty ops)).
  { intros c P G PS. cbn [ht_run ht_do]. unfold ht_reserve, ht_reserve_with. cbn [ht_new ht_fresh h_entries h_lf].
    change (0 <? 0) with false. cbv iota. cbn [obind].
    assert (E := GEN c P _ G PS). unfold ht_fresh in E |- *. rewrite E. reflexivity. }
  split; [| split].
  - apply (GEN _ is_pow2); [apply pow2_growing |]. exists 2. split; [lia | reflexivity].
  - apply (RES _ is_pow2); [apply pow2_growing |]. cbn [linear_conf hc_sm sm_pow2 sm_min].
    set (q := N.max hint 3). assert (Q : 3 <= q < 2 ^ 31) by (unfold q; change (2 ^ 31) with 2147483648 in *; lia). clearbody q.
    assert (S1 : 2 <= N.size q).
    { rewrite N.size_log2 by lia. assert (N.log2 3 <= N.log2 q) by (apply N.log2_le_mono; lia). change (N.log2 3) with 1 in H. lia. }
    assert (S2 : N.size q <= 31).
    { rewrite N.size_log2 by lia. assert (N.log2 q < 31); [| lia]. apply N.log2_lt_pow2; lia. }
    exists (N.size q). split; [lia |]. unfold w32. apply N.mod_small. apply N.pow_lt_mono_r; lia.
  - intros H10 sm [-> | ->].
    + apply (RES _ ge10); [apply noob_growing |]. cbn [linear_conf hc_sm sm_noob sm_min]. unfold ge10.
      change (2 ^ 31) with 2147483648 in HH. change (2 ^ 32) with 4294967296. lia.
    + apply (RES _ ge10); [apply prime_growing |]. cbn [linear_conf hc_sm sm_prime sm_min]. unfold ge10.
      destruct (next_prime_ok hint HH) as [N1 N2]. unfold w32. rewrite N.mod_small by exact N2. lia.
Qed.
Print Assumptions hashmap_returns.

(** six keys, five of which collide; the table grows from 4 to 32 slots *)
Example hashmap_returns_ex :
  ht_run 100 (linear_conf noop sm_pow2) 1000 (ht_new lf_30)
    [HInsert 0 7 1000; HInsert 64 8 999; HInsert 128 9 998; HInsert 0 1 997; HInsert 192 2 996; HInsert 5 3 995;
     HInsert 64 9 994; HEntries; HInsert 256 4 993; HEntries] =
  Some [AInsert 7 true; AInsert 8 true; AInsert 9 true; AInsert 7 false; AInsert 2 true; AInsert 3 true;
        AInsert 8 false; AEntries 5; AInsert 4 true; AEntries 6].
Proof. vm_compute. reflexivity. Qed.
Example hashmap_returns_ex_hyp :
  let ops := [HInsert 0 7 1000; HInsert 64 8 999; HInsert 0 1 997; HEntries] in
  proper_values ops /\ existsb is_reserve ops = false /\ map_answers f_empty ops = [AInsert 7 true; AInsert 8 true; AInsert 7 false; AEntries 2].
Proof.
  split; [| split; reflexivity]. intros k v rem H. cbn in H. unfold undef_id.
  repeat (destruct H as [H | H]; [first [discriminate H | injection H as <- <- <-; vm_compute; discriminate] |]); destruct H.
Qed.

(** C45. The hash tries on the real tables: with any configuration, what LZ78 and LZW write (if they finish) is
    what they write with the finite map of C15; with the default prober and sizes they finish and the
    text comes back. *)
Theorem hash_tries_use_the_map : forall fuel c h sm n lf res co text f,
  N.of_nat (length text) + 257 < 2 ^ 32 ->
  (lz78_compress (table_trie fuel c n lf res) 0 co text = Some f -> lz78_compress hash_trie 0 co text = Some f) /\
  (lzw_compress (table_trie fuel c n lf res) 0 co text = Some f -> lzw_compress hash_trie 0 co text = Some f) /\
  (lz78_compress (plus_trie fuel h sm n lf res) 0 co text = Some f -> lz78_compress hash_trie 0 co text = Some f) /\
  (lzw_compress (plus_trie fuel h sm n lf res) 0 co text = Some f -> lzw_compress hash_trie 0 co text = Some f).
Proof.
  intros fuel c h sm n lf res co text f HL.
  assert (LIM : limit false = 2 ^ 32 - 1) by reflexivity.
  assert (H0 : forall P : Prop, false = true -> P) by discriminate.
  assert (SIM : forall x y : option (list N), agree false x y -> x = Some f -> y = Some f).
  { intros x y [E | [_ E]] H; congruence. }
  split; [| split; [| split]]; intros H.
  - destruct fuel as [| fuel].
    { unfold lz78_compress, lz78_calls in H. cbn [table_trie t_init] in H. destruct (0 <? res); discriminate. }
    refine (SIM _ _ _ H).
    apply (lz78_sim (table_trie (S fuel) c n lf res) hash_trie (Rtab false c (fun _ => True)) (2 ^ 32 - 1)); [apply tab_root | apply tab_size | | | lia].
    + intros. apply (tab_find false c (fun _ => True) fuel n lf res (H0 _)); assumption.
    + apply (tab_init false c (fun _ => True) fuel n lf res (H0 _)).
  - destruct fuel as [| fuel].
    { unfold lzw_compress, lzw_calls in H. cbn [table_trie t_init] in H. destruct (0 <? res); discriminate. }
    refine (SIM _ _ _ H).
    apply (lzw_sim (table_trie (S fuel) c n lf res) hash_trie (Rtab false c (fun _ => True)) (2 ^ 32 - 1)); [apply tab_root | apply tab_size | | | lia].
    + intros. apply (tab_find false c (fun _ => True) fuel n lf res (H0 _)); assumption.
    + apply (tab_init false c (fun _ => True) fuel n lf res (H0 _)).
  - refine (SIM _ _ _ H).
    apply (lz78_sim (plus_trie fuel h sm n lf res) hash_trie (Rplus h sm) (2 ^ 32 - 1)); [apply plus_ok_root | apply plus_ok_size | | | lia].
    + intros. apply (plus_ok_find h sm fuel n lf res); assumption.
    + apply (plus_ok_init h sm fuel n lf res).
  - refine (SIM _ _ _ H).
    apply (lzw_sim (plus_trie fuel h sm n lf res) hash_trie (Rplus h sm) (2 ^ 32 - 1)); [apply plus_ok_root | apply plus_ok_size | | | lia].
    + intros. apply (plus_ok_find h sm fuel n lf res); assumption.
    + apply (plus_ok_init h sm fuel n lf res).
Qed.
Print Assumptions hash_tries_use_the_map.

(** LZ78 and LZW through a hash trie with its default table come back, for every NUL-free text. *)
Theorem hash_trie_table_roundtrip : forall h n lf res text,
  lf_30 <= lf <= lf_95 -> res < 2 ^ 31 -> bytes_ok text -> ~ In 0 text -> N.of_nat (length text) + 256 <= 2 ^ 28 ->
  exists F, forall fuel, (F <= fuel)%nat ->
  let t := table_trie fuel (linear_conf h sm_pow2) n lf res in
  (forall c, coder_ok_char c ->
     exists f, lz78_compress t 0 c text = Some f /\
       forall fuel', (length text <= fuel')%nat -> lz78_decompress c fuel' f = Some text) /\
  (forall c, coder_ok c ->
     exists f, lzw_compress t 0 c text = Some f /\
       forall fuel', (length text <= fuel')%nat -> lzw_decompress c 0 fuel' f = Some text).
Proof.
  intros h n lf res text LF HR HB H0 HL. exists (S (S (N.to_nat (2 ^ 32)))). intros fuel HF.
  destruct fuel as [| fuel]; [lia |]. assert (HF' : (N.to_nat (2 ^ 32) < fuel)%nat) by lia. clear HF. cbv zeta.
  assert (HTOT : true = true -> growing (linear_conf h sm_pow2) is_pow2 /\ (N.to_nat (2 ^ 32) < fuel)%nat /\ lf_ok lf /\
    (0 < res -> is_pow2 (sm_min (hc_sm (linear_conf h sm_pow2)) res)) /\ (res = 0 -> is_pow2 4)).
  { intros _. split; [apply pow2_growing |]. split; [exact HF' |]. split; [exact LF |]. split.
    - intros _. cbn [linear_conf hc_sm sm_pow2 sm_min].
      set (q := N.max res 3). assert (Q : 3 <= q < 2 ^ 31) by (unfold q; change (2 ^ 31) with 2147483648 in *; lia). clearbody q.
      assert (S1 : 2 <= N.size q).
      { rewrite N.size_log2 by lia. assert (N.log2 3 <= N.log2 q) by (apply N.log2_le_mono; lia). change (N.log2 3) with 1 in H. lia. }
      assert (S2 : N.size q <= 31).
      { rewrite N.size_log2 by lia. assert (N.log2 q < 31); [| lia]. apply N.log2_lt_pow2; lia. }
      exists (N.size q). split; [lia |]. unfold w32. apply N.mod_small. apply N.pow_lt_mono_r; lia.
    - intros _. exists 2. split; [lia | reflexivity]. }
  assert (HL2 : N.of_nat (length text) + 258 < 2 ^ 32) by (change (2 ^ 28) with 268435456 in HL; change (2 ^ 32) with 4294967296; lia).
  destruct (hash_tries_roundtrip hash_trie text (or_introl eq_refl) HB H0 HL2) as [R1 R2].
  assert (LIM : limit true = 2 ^ 28) by reflexivity.
  split; intros c Hc.
  - destruct (R1 c Hc) as (f & E & D). exists f. split; [| exact D]. rewrite <- E.
    destruct (lz78_sim (table_trie (S fuel) (linear_conf h sm_pow2) n lf res) hash_trie (Rtab true (linear_conf h sm_pow2) is_pow2) (2 ^ 28) true) with (co := c) (text := text) as [Q | [Q _]]; auto; try discriminate.
    + apply tab_size.
    + intros. apply (tab_find true (linear_conf h sm_pow2) is_pow2 fuel n lf res HTOT); assumption.
    + apply (tab_init true (linear_conf h sm_pow2) is_pow2 fuel n lf res HTOT).
    + lia.
  - destruct (R2 c Hc) as (f & E & D). exists f. split; [| exact D]. rewrite <- E.
    destruct (lzw_sim (table_trie (S fuel) (linear_conf h sm_pow2) n lf res) hash_trie (Rtab true (linear_conf h sm_pow2) is_pow2) (2 ^ 28) true) with (co := c) (text := text) as [Q | [Q _]]; auto; try discriminate.
    + apply tab_size.
    + intros. apply (tab_find true (linear_conf h sm_pow2) is_pow2 fuel n lf res HTOT); assumption.
    + apply (tab_init true (linear_conf h sm_pow2) is_pow2 fuel n lf res HTOT).
Qed.
Print Assumptions hash_trie_table_roundtrip.
Example hash_trie_table_roundtrip_ex :
  (do f <- lz78_compress (table_trie 300 (linear_conf mix sm_pow2) 20 lf_30 8) 0 (simple_coder Ascii)
             [97; 98; 97; 98; 97; 98; 99; 97; 98; 99; 97; 97; 97; 97; 98; 98; 99; 99; 100; 255];
   lz78_decompress (simple_coder Ascii) 100 f)
  = Some [97; 98; 97; 98; 97; 98; 99; 97; 98; 99; 97; 97; 97; 97; 98; 98; 99; 99; 100; 255].
Proof. vm_compute. reflexivity. Qed.
Example plus_trie_ex :
  lz78_compress (plus_trie 300 mix sm_dir 20 lf_30 8) 0 (simple_coder Ascii)
             [97; 98; 97; 98; 97; 98; 99; 97; 98; 99; 97; 97; 97; 97; 98; 98; 99; 99; 100; 255]
  = lz78_compress hash_trie 0 (simple_coder Ascii)
             [97; 98; 97; 98; 97; 98; 99; 97; 98; 99; 97; 97; 97; 97; 98; 98; 99; 99; 100; 255] /\
  lz78_compress hash_trie 0 (simple_coder Ascii)
             [97; 98; 97; 98; 97; 98; 99; 97; 98; 99; 97; 97; 97; 97; 98; 98; 99; 99; 100; 255] <> None.
Proof. vm_compute. split; [reflexivity | discriminate]. Qed.

(** *** Where the calls do not return *)
Ltac step_root E M :=
  match goal with
  | |- context [ht_roots ?f ?c ?n ?r [0] ?m] =>
      destruct (ht_roots f c n r [0] m) as [M |] eqn:E; [| reflexivity];
      let v := eval vm_compute in (ht_roots 50 c n r [0] m) in
      match v with Some ?x =>
        let H := fresh in assert (H : ht_roots 50 c n r [0] m = Some x) by (vm_compute; reflexivity);
        pose proof (roots1_det _ _ _ _ _ _ _ _ E H); subst M; clear E H end
  end; cbn [obind].
Ltac step_find :=
  match goal with
  | |- context [ht_find ?f ?c ?n ?st ?p ?ch] =>
      let E := fresh in let r := fresh in
      destruct (ht_find f c n st p ch) as [r |] eqn:E; [| reflexivity];
      let v := eval vm_compute in (ht_find 50 c n st p ch) in
      match v with Some ?x =>
        let H := fresh in assert (H : ht_find 50 c n st p ch = Some x) by (vm_compute; reflexivity);
        pose proof (find_det _ _ _ _ _ _ _ _ _ E H); subst r; clear E H end
  end.

(** C45. Quadratic probing with power-of-two sizes and the identity hash never ends on a text of three bytes. *)
Theorem hashmap_quad_pow2_refuted : forall fuel co,
  lz78_compress (table_trie fuel (mk_hconf noop pr_quad sm_pow2) 3 lf_30 2) 0 co [16; 32; 48] = None.
Proof.
  intros fuel co. unfold lz78_compress, lz78_calls. cbn [table_trie t_init t_root].
  change (if 0 <? 2 then ht_reserve fuel (mk_hconf noop pr_quad sm_pow2) 3 3 (ht_new lf_30) 2 else Some (ht_new lf_30))
    with (Some (ht_fresh 4 lf_30)). cbn [obind].
  change (map N.of_nat (seq 0 (N.to_nat 1))) with [0].
  step_root E M. cbn [lz78_loop table_trie t_find t_root t_size].
  step_find. cbn [obind]. step_find. cbn [obind].
  match goal with |- context [ht_find fuel ?c 3 (?M, 1) 0 48] => 
    assert (F : ht_find fuel c 3 (M, 1) 0 48 = None); [| rewrite !F; reflexivity] end.
  cbn [ht_find h_entries create_node]. destruct fuel as [| fuel]; [reflexivity |].
  cbn [ht_insert hc_hash]. cbv zeta. change (create_node 0 48) with 48. cbn [hc_sm sm_mod sm_pow2 h_size].
  change (N.land (noop 48) (w32 (8 + 2 ^ 32 - 1))) with 0.
  rewrite (quad8_stuck 48); [reflexivity | reflexivity | | cbn; tauto].
  intros j Hj. cbn in Hj. destruct Hj as [<- | [<- | [<- | []]]]; cbn [h_keys h_vals];
    do 2 eexists; (split; [reflexivity | split; [discriminate | split; [reflexivity | discriminate]]]).
Qed.
Print Assumptions hashmap_quad_pow2_refuted.

(** A table that cannot grow: its inserts of [s] new keys do not return. *)
Lemma stuck_run : forall c n s, 0 < s < 2 ^ 32 -> sm_min (hc_sm c) s = s ->
  (forall e, e < s -> over s lf_95 e = false) -> over s lf_95 s = true ->
  grow (sm_direct (hc_sm c)) s lf_95 s n 0 = (lf_95, s) ->
  forall fuel ks, NoDup ks -> N.of_nat (length ks) = s ->
  ht_run fuel c n (ht_fresh s lf_95) (map (fun k => HInsert k 1 0) ks) = None.
Proof.
  intros c n s Hs Hmin Ho1 Ho2 Hg fuel ks0 ND0 HL0.
  assert (GEN : forall ks m, inv c m -> counted m -> h_size m = s -> h_lf m = lf_95 -> h_entries m < s ->
    NoDup ks -> (forall k, In k ks -> ~ In k (map fst (content m))) -> N.of_nat (length ks) + h_entries m = s ->
    ht_run fuel c n m (map (fun k => HInsert k 1 0) ks) = None).
  { induction ks as [| k ks IH]; intros m I CN MS ML ME ND NK HL; [cbn [length] in HL; lia |].
    cbn [length] in HL. cbn [map ht_run ht_do]. apply NoDup_cons_iff in ND. destruct ND as [N1 N2].
    assert (V : 1 <> undef_id) by discriminate.
    destruct (N.eq_dec (h_entries m) (s - 1)) as [E | E].
    - rewrite (stuck_insert c n 0 s Hs Hmin Ho1 Ho2 Hg fuel m k 1 I CN MS ML E V (NK k (or_introl eq_refl))). reflexivity.
    - destruct (ht_insert fuel c n 0 m k 1) as [[m1 [x b]] |] eqn:EI; [| reflexivity]. cbn [obind].
      assert (W : w32 (h_entries m + 1) = h_entries m + 1) by (unfold w32; apply N.mod_small; lia).
      destruct (insert_nogrow _ _ _ _ _ _ _ _ _ _ EI) as [Q1 Q2].
      { rewrite MS, ML, W. apply Ho1. lia. }
      assert (J := insert_ok fuel c n 0 m k 1 _ I V EI). cbn [ins_ok] in J. destruct J as [I1 J]. destruct b.
      + destruct J as (-> & _ & P1 & C1). specialize (C1 CN ltac:(lia)).
        assert (E1 : h_entries m1 = h_entries m + 1).
        { rewrite C1. apply Permutation_length in P1. rewrite P1. cbn [length]. unfold counted in CN. lia. }
        rewrite IH; auto; try congruence; try lia.
        intros q Hq C. apply (Permutation_in (l' := map fst ((k, 1) :: content m))) in C; [| apply Permutation_map; exact P1].
        cbn [map fst] in C. destruct C as [C | C]; [subst q; contradiction | exact (NK q (or_intror Hq) C)].
      + exfalso. destruct J as [_ J]. apply (NK k (or_introl eq_refl)). apply (in_map fst _ _ J). }
  destruct (fresh_inv c s lf_95) as [FI FC].
  apply GEN; auto.
  - unfold counted. rewrite FC. reflexivity.
  - cbn [ht_fresh h_entries]. lia.
  - intros k _. rewrite FC. intros [].
  - cbn [ht_fresh h_entries]. lia.
Qed.

(** C45. Small tables with the modulo or the prime sizes: an insert that fills the table reserves the size the
    table has and repeats itself for ever - whatever the hash function, the prober and the keys. *)
Theorem hashmap_small_tables_refuted : forall h pr n fuel ks, 0 < n -> NoDup ks ->
  (length ks = 4%nat ->
     ht_run fuel (mk_hconf h pr sm_noob) n (ht_new lf_95) (map (fun k => HInsert k 1 0) ks) = None) /\
  (length ks = 5%nat ->
     ht_run fuel (mk_hconf h pr sm_prime) n (ht_new lf_95) (HReserve 5 0 :: map (fun k => HInsert k 1 0) ks) = None).
Proof.
  intros h pr n fuel ks Hn ND.
  assert (X : forall z, expected_remaining z n 0 = 0).
  { intros z. unfold expected_remaining. replace (0 * 2 <? n) with true by (symmetry; apply N.ltb_lt; lia).
    rewrite N.mul_0_r. apply N.div_0_l. lia. }
  split; intros HL.
  - apply (stuck_run (mk_hconf h pr sm_noob) n 4); [split; reflexivity | reflexivity | | reflexivity | | exact ND | lia].
    + intros e He. assert (e = 0 \/ e = 1 \/ e = 2 \/ e = 3) as C by lia. decompose [or] C; subst e; reflexivity.
    + unfold grow. rewrite X. reflexivity.
  - cbn [ht_run ht_do].
    replace (ht_reserve fuel (mk_hconf h pr sm_prime) n 0 (ht_new lf_95) 5) with (Some (ht_fresh 5 lf_95)) by reflexivity.
    cbn [obind].
    rewrite (stuck_run (mk_hconf h pr sm_prime) n 5); [reflexivity | split; reflexivity | reflexivity | | reflexivity | | exact ND | lia].
    + intros e He. assert (e = 0 \/ e = 1 \/ e = 2 \/ e = 3 \/ e = 4) as C by lia. decompose [or] C; subst e; reflexivity.
    + unfold grow. rewrite X. reflexivity.
Qed.
Print Assumptions hashmap_small_tables_refuted.
