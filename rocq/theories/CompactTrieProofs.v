(** The compact trie over the real table against the one over an ideal map (Tries.v). *)
From Verif Require Import Base IntCodes IntCodesProofs Coders LZ Tries HashTrieProofs UtilArith PropUtil CompactHash CompactSparseProofs CompactGroupProofs CompactInsertProofs CompactTableProofs CompactCoreProofs CompactKeyProofs CompactGrowProofs CompactMapProofs CompactOpsProofs CompactRunProofs CompactTrie.

Lemma core_index t dd m k : rep t dd m -> CompactHash.t_size t + 1 < cap t / 2 -> (k < 2 ^ N.of_nat (real_width t))%N -> 7 <= t_log t ->
  insert_core t k 0 = None \/
  exists t1 l dd1 m1 d, insert_core t k 0 = Some (t1, l) /\ rep t1 dd1 m1 /\ (forall x, m1 x = match m k with Some _ => m x | None => upd_map m k 0 x end) /\
    dd1 (fst (decompose t1 k) + d) = d /\ tsl t1 (fst (decompose t1 k) + d) = Some (snd (decompose t1 k), match m k with Some v => v | None => 0%N end) /\
    l = loc_of (t_bs t1) ((fst (decompose t1 k) + d) mod cap t1) /\ real_width t1 = real_width t /\
    CompactHash.t_size t1 = match m k with Some _ => CompactHash.t_size t | None => S (CompactHash.t_size t) end /\ t_log t1 = t_log t /\ t_width t1 = t_width t.
Proof.
  intros R Hs Hk Hl. pose proof (insert_core_rep t dd m k 0 R Hs Hk) as X. destruct (m k) as [v0|] eqn:Em.
  - destruct X as (l & d & X1 & X2 & X3 & X4). right. exists t, l, dd, m, d. rewrite X1. auto 10.
  - destruct X as (ge & term & Hr & X). destruct ((ge <? term) && (term mod cap t =? 0)); [rewrite X; auto|]. right.
    destruct X as (t1 & l & dd1 & X1 & X2 & X3 & X4 & X5 & X6 & X7 & X8 & _).
    assert (Ec : cap t1 = cap t) by (unfold cap; rewrite X4; reflexivity). assert (Er : real_width t1 = real_width t) by (unfold real_width; rewrite X4, X5; reflexivity).
    assert (Ed : decompose t1 k = decompose t k) by (unfold decompose; rewrite Er, X4; reflexivity).
    pose proof (not_stale t dd _ ge term (r_inv _ _ _ R) Hr Hl ltac:(lia)) as Hns. destruct X6 as [X6 _]. specialize (X6 Hns).
    destruct Hr as (R1 & _). exists t1, l, dd1, (upd_map m k 0), (ge - (fst (decompose t k) + cap t)). rewrite Ed. set (a := fst (decompose t k)) in *. set (q := snd (decompose t k)) in *. set (d := ge - (a + cap t)) in *. assert (Ege : ge = a + d + cap t) by (unfold d; lia).
    split; [auto|]. split; [auto|]. split; [auto|]. split; [|split; [|split; [|auto 10]]].
    + rewrite <- X8 at 2. rewrite Ege. symmetry. rewrite <- Ec. apply (g_pd _ _ _ _ _ (ti_g _ _ (r_inv _ _ _ X2))).
    + rewrite <- X7. rewrite Ege. symmetry. rewrite <- Ec. apply (per_sl t1).
    + rewrite X6, Ege, Ec. f_equal. replace (a + d + cap t) with (a + d + 1 * cap t) by lia. pose proof (cap_pos t). rewrite Nat.mod_add by lia. reflexivity.
Qed.

Definition crel (s : cst) (m : list (N * N)) : Prop :=
  (exists dd, rep (fst s) dd (hm_get m)) /\ CompactHash.t_size (fst s) = length m /\ t_width (fst s) = snd s /\ 7 <= t_log (fst s).
Lemma hm_get_set m k v x : hm_get (hm_set m k v) x = upd_map (hm_get m) k v x.
Proof.
  unfold upd_map. induction m as [|[y u] m IH]; cbn [hm_set hm_get].
  - rewrite (N.eqb_sym k x). reflexivity.
  - destruct (N.eqb_spec y k) as [->|Hn]; cbn [hm_get].
    + rewrite (N.eqb_sym k x). destruct (x =? k)%N; reflexivity.
    + rewrite IH. destruct (N.eqb_spec y x) as [->|]; [|reflexivity]. destruct (N.eqb_spec x k); [contradiction|reflexivity].
Qed.
Lemma hm_set_len m k v : length (hm_set m k v) = match hm_get m k with Some _ => length m | None => S (length m) end.
Proof. induction m as [|[y u] m IH]; cbn [hm_set hm_get]; [reflexivity|]. destruct (N.eqb_spec y k); cbn [length]; [reflexivity|]. rewrite IH. destruct (hm_get m k); reflexivity. Qed.
Lemma create_node_64 p c : (create_node p c < 2 ^ 64)%N.
Proof. unfold create_node. eapply N.lt_le_trans; [apply N.mod_upper_bound; discriminate|]. apply N.pow_le_mono_r; lia. Qed.

Lemma cst_index_ok s m key : crel s m -> length m + 1 < big -> (key < 2 ^ 64)%N -> snd s <= 64 ->
  cst_index s key = None \/
  exists s' l, cst_index s key = Some (s', l, match hm_get m key with Some v => v | None => 0%N end) /\ snd s' <= 64 /\ (hm_get m key <> None -> crel s' m) /\
    forall v, exists s'', cst_write s' l v = Some s'' /\ snd s'' = snd s' /\ crel s'' (hm_set m key v).
Proof.
  intros ((dd & R) & Hsz & Hw & Hlog) Hb Hk Hkw. destruct s as [t kw]. cbn [fst snd] in *. unfold cst_index, index. cbn [fst snd]. set (kw' := cst_width kw key).
  pose proof (bits_for_le64 key Hk) as B1. pose proof (bits_for_bound key) as B2. assert (Hkw' : kw <= kw' <= 64 /\ bits_forn key <= kw') by (unfold kw', cst_width, bits_forn; lia).
  assert (Hkey : (key < 2 ^ N.of_nat kw')%N). { eapply N.lt_le_trans; [exact B2|]. apply N.pow_le_mono_r; [lia|]. unfold bits_forn in Hkw'. lia. }
  destruct (grow_rep t dd (hm_get m) kw' R ltac:(lia)) as [X|(t1 & dd1 & X1 & X2 & X3 & X4 & X5 & X6)].
  { intros En. apply needs_log; auto; [lia|]. apply (r_log _ _ _ R). }
  { rewrite X. auto. }
  rewrite X1. cbn [obind]. assert (Hlog1 : 7 <= t_log t1) by (rewrite X6; destruct (needs_capacity t); lia).
  assert (Hk1 : (key < 2 ^ N.of_nat (real_width t1))%N) by (apply fits_rw; unfold fits; rewrite X4; auto).
  destruct (core_index t1 dd1 (hm_get m) key X2 X5 Hk1 Hlog1) as [Y|(t2 & l & dd2 & m2 & d & Y1 & Y2 & Y3 & Y4 & Y5 & Y6 & Y7 & Y8 & Y9 & Y10)]; [rewrite Y; auto|].
  right. rewrite Y1. cbn [obind]. pose proof (get_loc _ _ _ Y5) as Yg. rewrite <- Y6 in Yg. rewrite Yg. cbn [obind snd]. exists (t2, kw'), l. split; [reflexivity|]. split; [cbn [snd]; lia|]. split.
  - intros Hp. split; [|cbn [fst snd]; split; [|split; [congruence|lia]]].
    + exists dd2. cbn [fst]. apply (rep_ext _ _ m2); auto. intros x. rewrite Y3. destruct (hm_get m key); [reflexivity|congruence].
    + destruct (hm_get m key); congruence.
  - intros v. rewrite <- Y7 in Hk1. destruct (put_new t2 dd2 m2 key _ v d l Y2 Hk1 Y4 Y5 Y6) as (t3 & Z1 & Z2 & Z3 & Z4 & Z5). unfold cst_write. cbn [fst snd].
    destruct (get_at (t_bs t2) l) as [e|]; [|discriminate]. cbn [obind] in *. destruct (put_at (t_bs t2) l (fst e, v)) as [bs|]; [|discriminate]. cbn [obind] in *. apply Some_inj in Z1. subst t3.
    exists (set_bs t2 bs, kw'). split; [reflexivity|]. split; [reflexivity|]. split; [|cbn [fst snd]; split; [|split; [congruence|lia]]].
    + exists dd2. cbn [fst]. apply (rep_ext _ _ (upd_map m2 key v)); auto. intros x. rewrite hm_get_set. unfold upd_map. rewrite Y3. unfold upd_map. destruct (x =? key)%N; [reflexivity|]. destruct (hm_get m key); reflexivity.
    + rewrite Z3, Y8, X3, Hsz, hm_set_len. destruct (hm_get m key); reflexivity.
Qed.
Lemma cst_find_ok s m p c : crel s m -> length m + 1 < big -> snd s <= 64 ->
  cst_find s p c = None \/
  exists id isnew s' m', cst_find s p c = Some (id, isnew, s') /\ csh_find m p c = Some (id, isnew, m') /\ crel s' m' /\ snd s' <= 64 /\ (isnew = false -> m' = m) /\ (isnew = true -> 0 < length m' <= S (length m)).
Proof.
  intros H Hb Hk. destruct (cst_index_ok s m (create_node p c) H Hb (create_node_64 p c) Hk) as [X|(s' & l & X1 & X2 & X3 & X4)]; unfold cst_find.
  - rewrite X. auto.
  - rewrite X1. cbn [obind]. right. unfold csh_find. replace (cst_size s) with (N.of_nat (length m)) by (unfold cst_size; rewrite (proj1 (proj2 H)); reflexivity).
    set (val := match hm_get m (create_node p c) with Some v => v | None => 0%N end) in *. destruct (N.eqb_spec val 0) as [Ev|Ev].
    + destruct (X4 (w32 (N.of_nat (length m)))) as (s'' & Y1 & Y2 & Y3). rewrite Y1. cbn [obind]. do 4 eexists. split; [reflexivity|]. split; [reflexivity|]. split; [auto|]. split; [lia|]. split; [discriminate|]. intros _. rewrite hm_set_len.
      destruct (hm_get m (create_node p c)) eqn:E; [|lia]. destruct m; [discriminate|cbn [length]; lia].
    + do 4 eexists. split; [reflexivity|]. split; [reflexivity|]. split; [apply X3; intros E; unfold val in Ev; rewrite E in Ev; congruence|]. split; [lia|]. split; [auto|discriminate].
Qed.
Lemma cst_roots_ok cs : forall s m, crel s m -> length m + length cs + 1 < big -> snd s <= 64 ->
  cst_roots cs s = None \/ exists s', cst_roots cs s = Some s' /\ crel s' (csh_roots cs m) /\ snd s' <= 64.
Proof.
  induction cs as [|c cs IH]; intros s m H Hb Hk; cbn [cst_roots csh_roots length] in *.
  - right. exists s. auto.
  - unfold cst_root. destruct (cst_index_ok s m (create_node 0 c) H ltac:(lia) (create_node_64 0 c) Hk) as [X|(s' & l & X1 & X2 & X3 & X4)]; [rewrite X; auto|].
    rewrite X1. cbn [obind]. replace (cst_size s) with (N.of_nat (length m)) by (unfold cst_size; rewrite (proj1 (proj2 H)); reflexivity).
    destruct (X4 (w32 (N.of_nat (length m)))) as (s'' & Y1 & Y2 & Y3). rewrite Y1. cbn [obind]. apply IH; auto; [|lia]. rewrite hm_set_len. destruct (hm_get m (create_node 0 c)); lia.
Qed.
Lemma cst_new_rel r : 7 <= cst_log r <= 17 -> crel (cst_new r) [].
Proof.
  intros H. split; [|cbn; split; [reflexivity|split; [reflexivity|lia]]]. exists (fun _ => 0). cbn [cst_new fst]. apply (rep_ext _ _ (fun _ => None)); [reflexivity|]. apply new_rep; lia.
Qed.
Lemma csh_roots_len cs : forall m, length (csh_roots cs m) <= length m + length cs.
Proof. induction cs as [|c cs IH]; intros m; cbn [csh_roots length]; [lia|]. specialize (IH (hm_set m (create_node 0 c) (w32 (N.of_nat (length m))))). rewrite hm_set_len in IH. destruct (hm_get m (create_node 0 c)); lia. Qed.

Section Loop.
Variable r : N.
Lemma lzw_loop_sim : forall text s m node fc cs, crel s m -> snd s <= 64 -> lzw_loop csh_trie 0 m node fc text = Some cs -> length m + length cs < big ->
  lzw_loop (compact_trie r) 0 s node fc text = None \/ lzw_loop (compact_trie r) 0 s node fc text = Some cs.
Proof.
  induction text as [|c text IH]; intros s m node fc cs H Hk Hc Hb; cbn [lzw_loop] in *; [auto|]. cbn [csh_trie compact_trie t_find t_root LZ.t_size t_reset] in *.
  assert (Hcs : 1 <= length cs). { revert Hc. clear. revert m node fc c cs. induction text as [|c' text IH]; intros m node fc c cs.
    - cbn [lzw_loop]. destruct (csh_find m node c) as [[[i n] m']|]; [|discriminate]. destruct n; [|intros X; apply Some_inj in X; subst; cbn; lia]. destruct (N.of_nat (length m') =? 0)%N; cbn [csh_trie t_reset obind]; intros X; apply Some_inj in X; subst; cbn [length]; lia.
    - destruct (csh_find m node c) as [[[i n] m']|]; [|discriminate]. destruct n; [destruct (N.of_nat (length m') =? 0)%N; cbn [csh_trie t_reset obind]; (destruct (lzw_loop csh_trie 0 _ _ _ _); [|discriminate]; cbn [obind]; intros X; apply Some_inj in X; subst; cbn [length]; lia)|].
      intros X. cbn [lzw_loop csh_trie t_find t_root LZ.t_size t_reset] in X. apply IH in X. auto. }
  destruct (cst_find_ok s m node c H ltac:(lia) Hk) as [X|(id & isnew & s' & m' & X1 & X2 & X3 & X4 & X5 & X6)]; [rewrite X; auto|]. rewrite X1. rewrite X2 in Hc. destruct isnew.
  - specialize (X6 eq_refl). assert (Hz : (N.of_nat (length m') =? 0)%N = false) by (apply N.eqb_neq; lia). rewrite Hz in Hc. unfold cst_size. rewrite (proj1 (proj2 X3)), Hz.
    destruct (lzw_loop csh_trie 0 m' c (fc + 1) text) as [cs'|] eqn:E; [|discriminate]. cbn [obind] in Hc. apply Some_inj in Hc. subst cs. cbn [length] in Hb.
    destruct (IH s' m' c (fc + 1)%N cs' X3 X4 E ltac:(lia)) as [Y|Y]; rewrite Y; auto.
  - rewrite (X5 eq_refl) in *. apply (IH s' m id fc cs); auto.
Qed.
End Loop.
Lemma lzw_reserve_log n res : (n < 2 ^ 64)%N -> lzw_reserve n = Some res -> 7 <= cst_log res <= 17.
Proof.
  intros Hn H. unfold lzw_reserve in H. rewrite isqrt_spec in H by auto. cbn [obind] in H. apply Some_inj in H. subst res. change (2 ^ (N.of_nat 8 / 2) - 1)%N with 15%N.
  set (x := N.min (N.sqrt n) 15). assert (Hx : (x <= 15)%N) by (unfold x; lia). clearbody x.
  assert (A : forallb (fun i => (7 <=? cst_log (N.of_nat i * 2 + 256)) && (cst_log (N.of_nat i * 2 + 256) <=? 17)) (seq 0 16) = true) by (vm_compute; reflexivity).
  rewrite forallb_forall in A. specialize (A (N.to_nat x)). rewrite N2Nat.id in A. assert (In (N.to_nat x) (seq 0 16)) as Hi by (apply in_seq; lia). specialize (A Hi). apply andb_true_iff in A. destruct A as [A1 A2]. apply Nat.leb_le in A1, A2. auto.
Qed.
Local Opaque big new_tbl.
Lemma lzw_compact_calls text cs : bytes_ok text -> ~ In 0%N text -> (N.of_nat (length text) < 2 ^ 31)%N -> lzw_calls spec_trie 0 text = Some cs -> 256 + length cs < big - 2 ->
  forall c f, lzw_compact c text = Some f -> c_enc c [] cs = Some f.
Proof.
  intros Hb H0 Hl Hcs Hn c f Hf. unfold lzw_compact in Hf. destruct (lzw_reserve (N.of_nat (length text))) as [res|] eqn:Er; [|discriminate]. cbn [obind] in Hf.
  assert (H64 : (N.of_nat (length text) < 2 ^ 64)%N) by (eapply N.lt_trans; [exact Hl|reflexivity]). pose proof (lzw_reserve_log _ _ H64 Er) as Hlog. assert (H32 : (N.of_nat (length text) + 256 < 2 ^ 32)%N) by (change (2 ^ 31)%N with 2147483648%N in Hl; change (2 ^ 32)%N with 4294967296%N; lia). destruct (hash_calls_pf text Hb H0 H32) as (_ & _ & _ & A). rewrite <- A in Hcs. clear A.
  unfold lzw_compress in Hf. destruct (lzw_calls (compact_trie res) 0 text) as [cs'|] eqn:E; [|discriminate]. cbn [obind] in Hf. replace cs with cs'; [auto|].
  assert (Hlen : length (map N.of_nat (seq 0 (N.to_nat 256))) = 256) by (rewrite map_length, seq_length; reflexivity).
  unfold lzw_calls in E, Hcs. change (t_init (compact_trie res) 256) with (cst_roots (map N.of_nat (seq 0 (N.to_nat 256))) (cst_new res)) in E.
  change (t_init csh_trie 256) with (Some (csh_roots (map N.of_nat (seq 0 (N.to_nat 256))) [])) in Hcs.
  set (rts := map N.of_nat (seq 0 (N.to_nat 256))) in *. clearbody rts.
  destruct (cst_roots_ok rts (cst_new res) [] (cst_new_rel res Hlog)) as [X|(s' & X1 & X2 & X3)].
  - cbn [length]. rewrite Hlen. lia.
  - cbn [cst_new snd]. lia.
  - change (t_st (compact_trie res)) with cst in E. rewrite X in E. discriminate.
  - change (t_st (compact_trie res)) with cst in E. rewrite X1 in E. cbn [obind] in E, Hcs. destruct text as [|x text]; [congruence|].
    change (t_root (compact_trie res) s' x) with x in E. change (t_root csh_trie (csh_roots rts []) x) with x in Hcs.
    pose proof (csh_roots_len rts []) as L. rewrite Hlen in L. cbn [length] in L.
    destruct (lzw_loop_sim res text s' _ x 0%N cs X2 X3 Hcs) as [Y|Y]; [lia| |]; rewrite Y in E; [discriminate|apply Some_inj in E; auto].
Qed.
