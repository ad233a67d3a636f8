From Coq Require Import Permutation.
From Verif Require Import Base BitIO IntCodes Coders LZ Tries HashMap HashMapSpec HashMapProofs HashTermProofs HashTableProofs.
Local Open Scope N_scope.

(** *** Two tries that answer alike, the first of which may fail (unless [tot]) *)
Section Sim.
  Variables (T1 T2 : trie) (R : t_st T1 -> t_st T2 -> Prop) (lim : N) (tot : bool).
  Hypothesis Hroot : forall s1 s2 c, R s1 s2 -> t_root T1 s1 c = t_root T2 s2 c.
  Hypothesis Hsize : forall s1 s2, R s1 s2 -> t_size T1 s1 = t_size T2 s2.
  Hypothesis Hfind : forall s1 s2 p c, R s1 s2 -> t_size T1 s1 < lim ->
    match t_find T1 s1 p c with
    | Some (id, b, s1') => exists s2', t_find T2 s2 p c = Some (id, b, s2') /\ R s1' s2' /\
                             0 < t_size T1 s1' <= t_size T1 s1 + 1
    | None => tot = false
    end.

  Definition agree {A} (x y : option A) : Prop := x = y \/ (tot = false /\ x = None).

  Lemma lz78_loop_sim : forall text s1 s2 node parent fc lastc, R s1 s2 ->
    t_size T1 s1 + N.of_nat (length text) <= lim ->
    agree (lz78_loop T1 0 s1 node parent fc lastc text) (lz78_loop T2 0 s2 node parent fc lastc text).
  Proof.
    induction text as [| c text IH]; intros s1 s2 node parent fc lastc HR HL; [left; reflexivity |].
    cbn [lz78_loop length] in *. assert (F := Hfind s1 s2 node c HR ltac:(lia)).
    destruct (t_find T1 s1 node c) as [[[id b] s1'] |]; [| right; auto].
    destruct F as (s2' & -> & HR' & HS). destruct b.
    - rewrite <- (Hroot s1' s2') by exact HR'. rewrite <- (Hsize s1' s2') by exact HR'.
      replace (t_size T1 s1' =? 0) with false by (symmetry; apply N.eqb_neq; lia).
      destruct (IH s1' s2' (t_root T1 s1' 0) (t_root T1 s1' 0) (fc + 1) c HR' ltac:(lia)) as [E | [E1 E2]].
      + rewrite E. left. reflexivity.
      + rewrite E2. right. auto.
    - apply IH; [exact HR' | lia].
  Qed.
  Lemma lzw_loop_sim : forall text s1 s2 node fc, R s1 s2 ->
    t_size T1 s1 + N.of_nat (length text) <= lim ->
    agree (lzw_loop T1 0 s1 node fc text) (lzw_loop T2 0 s2 node fc text).
  Proof.
    induction text as [| c text IH]; intros s1 s2 node fc HR HL; [left; reflexivity |].
    cbn [lzw_loop length] in *. assert (F := Hfind s1 s2 node c HR ltac:(lia)).
    destruct (t_find T1 s1 node c) as [[[id b] s1'] |]; [| right; auto].
    destruct F as (s2' & -> & HR' & HS). destruct b.
    - rewrite <- (Hroot s1' s2') by exact HR'. rewrite <- (Hsize s1' s2') by exact HR'.
      replace (t_size T1 s1' =? 0) with false by (symmetry; apply N.eqb_neq; lia).
      destruct (IH s1' s2' (t_root T1 s1' c) (fc + 1) HR' ltac:(lia)) as [E | [E1 E2]].
      + rewrite E. left. reflexivity.
      + rewrite E2. right. auto.
    - apply IH; [exact HR' | lia].
  Qed.

  Hypothesis Hinit : forall k, k = 1 \/ k = 256 ->
    match t_init T1 k with
    | Some s1 => exists s2, t_init T2 k = Some s2 /\ R s1 s2 /\ t_size T1 s1 <= k
    | None => tot = false
    end.
  Lemma lz78_sim : forall co text, N.of_nat (length text) + 1 <= lim ->
    agree (lz78_compress T1 0 co text) (lz78_compress T2 0 co text).
  Proof.
    intros co text HL. unfold lz78_compress, lz78_calls. assert (F := Hinit 1 (or_introl eq_refl)).
    destruct (t_init T1 1) as [s1 |]; [| right; auto]. destruct F as (s2 & -> & HR & HS). cbn [obind].
    rewrite <- (Hroot s1 s2) by exact HR.
    destruct (lz78_loop_sim text s1 s2 (t_root T1 s1 0) (t_root T1 s1 0) 0 0 HR ltac:(lia)) as [E | [E1 E2]].
    - rewrite E. left. reflexivity.
    - rewrite E2. right. auto.
  Qed.
  Lemma lzw_sim : forall co text, N.of_nat (length text) + 256 <= lim ->
    agree (lzw_compress T1 0 co text) (lzw_compress T2 0 co text).
  Proof.
    intros co text HL. unfold lzw_compress, lzw_calls. assert (F := Hinit 256 (or_intror eq_refl)).
    destruct (t_init T1 256) as [s1 |]; [| right; auto]. destruct F as (s2 & -> & HR & HS). cbn [obind].
    destruct text as [| c text]; [left; reflexivity |].
    rewrite <- (Hroot s1 s2) by exact HR. cbn [length] in HL.
    destruct (lzw_loop_sim text s1 s2 (t_root T1 s1 c) 0 HR ltac:(lia)) as [E | [E1 E2]].
    - rewrite E. left. reflexivity.
    - rewrite E2. right. auto.
  Qed.
End Sim.

(** *** HashTrie on the table against the finite map *)
Definition amap (m : hmap) (a : list (N * N)) : Prop :=
  (forall k v, hm_get a k = Some v <-> In (k, v) (content m)) /\ h_entries m = N.of_nat (length a) /\ counted m.

Lemma hm_get_app : forall a k v q, hm_get (a ++ [(k, v)]) q =
  match hm_get a q with Some x => Some x | None => if k =? q then Some v else None end.
Proof.
  induction a as [| [k' v'] a IH]; intros k v q; cbn [hm_get app]; [reflexivity |].
  destruct (k' =? q); [reflexivity | apply IH].
Qed.

Lemma insert_amap : forall fuel c n rem m k v a m' x b, inv c m -> amap m a -> v <> undef_id -> h_entries m + 1 < 2 ^ 32 ->
  ht_insert fuel c n rem m k v = Some (m', (x, b)) ->
  inv c m' /\ amap m' (snd (hm_insert a k v)) /\ fst (hm_insert a k v) = (x, b) /\
  h_entries m' = (if b then h_entries m + 1 else h_entries m) /\ (b = true -> x = v) /\ (b = false -> h_entries m <> 0).
Proof.
  intros fuel c n rem m k v a m' x b I (A1 & A2 & A3) HV HB H.
  assert (J := insert_ok fuel c n rem m k v _ I HV H). cbn [ins_ok] in J. destruct J as [I1 J]. unfold hm_insert.
  destruct b.
  - destruct J as (-> & J1 & J2 & J3). specialize (J3 A3 HB).
    assert (EN : hm_get a k = None).
    { destruct (hm_get a k) as [y |] eqn:EY; [| reflexivity]. exfalso. apply J1. apply A1 in EY. apply (in_map fst _ _ EY). }
    assert (PL := Permutation_length J2). cbn [length] in PL. unfold counted in A3.
    rewrite EN. cbn [fst snd]. split; [exact I1 |]. split; [| split; [reflexivity | split; [lia | auto]]].
    + split; [| split].
      * intros q y. rewrite hm_get_app. destruct (hm_get a q) as [z |] eqn:EQ.
        -- apply A1 in EQ. split.
           ++ intros HH. apply Some_inj in HH. subst z. eapply Permutation_in; [symmetry; exact J2 |]. right. exact EQ.
           ++ intros HH. apply (Permutation_in _ J2) in HH. destruct HH as [HH | HH].
              ** exfalso. injection HH as -> ->. apply J1. apply (in_map fst _ _ EQ).
              ** apply A1 in HH, EQ. congruence.
        -- destruct (k =? q) eqn:EK.
           ++ apply N.eqb_eq in EK. subst q. split.
              ** intros HH. apply Some_inj in HH. subst y. eapply Permutation_in; [symmetry; exact J2 |]. left. reflexivity.
              ** intros HH. apply (Permutation_in _ J2) in HH. destruct HH as [HH | HH]; [congruence |].
                 apply A1 in HH. congruence.
           ++ apply N.eqb_neq in EK. split; [discriminate |]. intros HH. apply (Permutation_in _ J2) in HH.
              destruct HH as [HH | HH]; [congruence |]. apply A1 in HH. congruence.
      * rewrite app_length. cbn [length]. lia.
      * exact J3.
    + split; [reflexivity | discriminate].
  - destruct J as [-> J]. assert (EG := J). apply A1 in EG. rewrite EG. cbn [fst snd].
    split; [exact I1 |]. split; [split; auto |]. split; [reflexivity |]. split; [reflexivity |]. split; [discriminate |].
    intros _ C. unfold counted in A3. rewrite C in A3. destruct (content m); [destruct J | discriminate].
Qed.

(** the optional termination part of the relation *)
Definition tpart (tot : bool) (c : hconf) (P : N -> Prop) (m : hmap) : Prop := tot = true -> ready c P m.
Definition Rtab (tot : bool) (c : hconf) (P : N -> Prop) (st : hmap * N) (a : list (N * N)) : Prop :=
  inv c (fst st) /\ amap (fst st) a /\ tpart tot c P (fst st).

Section Table.
  Variables (tot : bool) (c : hconf) (P : N -> Prop) (fuel : nat) (n lf res : N).
  Hypothesis Htot : tot = true -> growing c P /\ (N.to_nat (2 ^ 32) < fuel)%nat /\ lf_ok lf /\
    (0 < res -> P (sm_min (hc_sm c) res)) /\ (res = 0 -> P 4).
  Definition limit : N := if tot then 2 ^ 28 else 2 ^ 32 - 1.

  Lemma limit_le : limit <= 2 ^ 32 - 1.
  Proof. unfold limit. destruct tot; [| lia]. change (2 ^ 28) with 268435456. change (2 ^ 32) with 4294967296. lia. Qed.

  Lemma tab_insert : forall m rem k a, inv c m -> amap m a -> tpart tot c P m -> h_entries m < limit ->
    match ht_insert (S fuel) c n rem m k (h_entries m) with
    | Some (m', (x, b)) => inv c m' /\ amap m' (snd (hm_insert a k (h_entries m))) /\ tpart tot c P m' /\
         fst (hm_insert a k (h_entries m)) = (x, b) /\ (if b then h_entries m else x) = x /\
         0 < h_entries m' <= h_entries m + 1
    | None => tot = false
    end.
  Proof.
    intros m rem k a I A T HL. assert (LL := limit_le).
    assert (HV : h_entries m <> undef_id) by (unfold undef_id; lia).
    destruct (ht_insert (S fuel) c n rem m k (h_entries m)) as [[m' [x b]] |] eqn:E.
    - destruct (insert_amap _ _ _ _ _ _ _ a _ _ _ I A HV ltac:(lia) E) as (J1 & J2 & J3 & J4 & J5 & J6).
      split; [exact J1 |]. split; [exact J2 |]. split; [| split; [exact J3 |]].
      + intros Et. destruct (Htot Et) as (G & HF & _). specialize (T Et).
        unfold limit in HL. rewrite Et in HL.
        destruct (insert_total c P n rem fuel m k (h_entries m) G T HV ltac:(lia) HF) as (m2 & x2 & b2 & E2 & R2).
        rewrite E in E2. injection E2 as -> -> ->. exact R2.
      + destruct b; [specialize (J5 eq_refl); split; [auto | lia] | specialize (J6 eq_refl); split; [reflexivity | lia]].
    - destruct tot eqn:Et; [| reflexivity]. exfalso. destruct (Htot eq_refl) as (G & HF & _). specialize (T eq_refl).
      unfold limit in HL. rewrite Et in HL.
      destruct (insert_total c P n rem fuel m k (h_entries m) G T HV ltac:(lia) HF) as (m2 & x2 & b2 & E2 & R2). congruence.
  Qed.

  Lemma tab_roots : forall cs m rem a, inv c m -> amap m a -> tpart tot c P m -> h_entries m + N.of_nat (length cs) <= limit ->
    match ht_roots (S fuel) c n rem cs m with
    | Some m' => inv c m' /\ amap m' (hash_roots cs a) /\ tpart tot c P m' /\ h_entries m' <= h_entries m + N.of_nat (length cs)
    | None => tot = false
    end.
  Proof.
    induction cs as [| ch cs IH]; intros m rem a I A T HL.
    - cbn [ht_roots hash_roots length]. repeat split; try apply I; try apply A; try apply T; auto. lia.
    - cbn [ht_roots hash_roots length] in *.
      assert (F := tab_insert m rem (create_node 0 ch) a I A T ltac:(lia)).
      destruct (ht_insert (S fuel) c n rem m (create_node 0 ch) (h_entries m)) as [[m' [x b]] |]; [| exact F].
      destruct F as (I1 & A1 & T1 & _ & _ & B1). cbn [obind].
      assert (EA : N.of_nat (length a) = h_entries m) by (destruct A as (_ & A2 & _); lia). rewrite EA.
      specialize (IH m' rem _ I1 A1 T1 ltac:(lia)).
      destruct (ht_roots (S fuel) c n rem cs m') as [m'' |]; [| exact IH].
      destruct IH as (J1 & J2 & J3 & J4). split; [exact J1 |]. split; [exact J2 |]. split; [exact J3 |]. lia.
  Qed.

  Definition tT := table_trie (S fuel) c n lf res.
  Lemma tab_find : forall s1 s2 p ch, Rtab tot c P s1 s2 -> t_size tT s1 < limit ->
    match t_find tT s1 p ch with
    | Some (id, b, s1') => exists s2', t_find hash_trie s2 p ch = Some (id, b, s2') /\ Rtab tot c P s1' s2' /\
                             0 < t_size tT s1' <= t_size tT s1 + 1
    | None => tot = false
    end.
  Proof.
    intros [m rem] a p ch (I & A & T) HL. cbn [fst] in *. cbn [tT table_trie t_find t_size ht_find] in *.
    assert (F := tab_insert m (rem - 1) (create_node p ch) a I A T HL).
    destruct (ht_insert (S fuel) c n (rem - 1) m (create_node p ch) (h_entries m)) as [[m' [x b]] |]; [| exact F].
    destruct F as (I1 & A1 & T1 & F1 & F2 & B1). cbn [obind].
    assert (LL := limit_le).
    assert (EA : w32 (N.of_nat (length a)) = h_entries m).
    { destruct A as (_ & A2 & _). rewrite <- A2. unfold w32. apply N.mod_small. lia. }
    cbn [hash_trie t_find]. unfold hash_find. rewrite EA.
    destruct (hm_insert a (create_node p ch) (h_entries m)) as [[x' b'] a'] eqn:EI. cbn [fst snd] in *.
    injection F1 as -> ->. exists a'. rewrite F2.
    split; [destruct b; [rewrite F2; reflexivity | reflexivity] |].
    split; [repeat split; try apply I1; try apply A1; try apply T1; auto |]. exact B1.
  Qed.
  Lemma tab_init : forall k, k = 1 \/ k = 256 ->
    match t_init tT k with
    | Some s1 => exists s2, t_init hash_trie k = Some s2 /\ Rtab tot c P s1 s2 /\ t_size tT s1 <= k
    | None => tot = false
    end.
  Proof.
    intros k Hk. cbn [tT table_trie t_init t_size hash_trie].
    assert (E : exists s, (if 0 <? res then ht_reserve (S fuel) c n n (ht_new lf) res else Some (ht_new lf)) = Some (ht_fresh s lf) /\
              (tot = true -> P s)).
    { destruct (0 <? res) eqn:E0.
      - exists (sm_min (hc_sm c) res). split; [reflexivity |]. intros Et. apply (Htot Et). apply N.ltb_lt. exact E0.
      - exists 4. split; [reflexivity |]. intros Et. apply (Htot Et). apply N.ltb_ge in E0. lia. }
    destruct E as (s & -> & HS). cbn [obind].
    destruct (fresh_inv c s lf) as [FI FC].
    assert (FA : amap (ht_fresh s lf) []).
    { split; [| split].
      - intros q v. rewrite FC. cbn. split; [discriminate | tauto].
      - reflexivity.
      - unfold counted. rewrite FC. reflexivity. }
    assert (FT : tpart tot c P (ht_fresh s lf)).
    { intros Et. destruct (Htot Et) as (G & HF & LF & _). apply fresh_ready; auto. }
    assert (F := tab_roots (map N.of_nat (seq 0 (N.to_nat k))) (ht_fresh s lf) n [] FI FA FT).
    rewrite map_length, seq_length, N2Nat.id in F. change (h_entries (ht_fresh s lf)) with 0 in F.
    specialize (F ltac:(unfold limit; destruct Hk as [Hk | Hk]; rewrite Hk; case tot; apply N.leb_le; reflexivity)).
    destruct (ht_roots (S fuel) c n n (map N.of_nat (seq 0 (N.to_nat k))) (ht_fresh s lf)) as [m |].
    - cbn [obind]. destruct F as (F1 & F2 & F3 & F4). eexists. split; [reflexivity |].
      split; [| cbn [t_size]; lia]. split; [exact F1 |]. split; [exact F2 | exact F3].
    - cbn [obind]. exact F.
  Qed.
  Lemma tab_root : forall s1 s2 ch, Rtab tot c P s1 s2 -> t_root tT s1 ch = t_root hash_trie s2 ch.
  Proof. reflexivity. Qed.
  Lemma tab_size : forall s1 s2, Rtab tot c P s1 s2 -> t_size tT s1 = t_size hash_trie s2.
  Proof. intros [m rem] a (_ & (_ & A & _) & _). cbn. cbn [fst] in A. exact A. Qed.
End Table.

(** *** HashTriePlus *)
Section Plus.
  Variables (h : N -> N) (sm : sizeman) (fuel : nat) (n lf res : N).
  Let c1 := plus_conf h.
  Let c2 := mk_hconf h pr_linear sm.
  Definition Rplus (st : hmap * hmap * N) (a : list (N * N)) : Prop :=
    let '(m1, m2, _) := st in
    if h_entries m2 =? 0 then inv c1 m1 /\ amap m1 a else inv c2 m2 /\ amap m2 a.
  Definition pT := plus_trie fuel h sm n lf res.

  Lemma no_undef : forall e, e < 2 ^ 32 - 1 -> e <> undef_id.
  Proof. unfold undef_id. intros. lia. Qed.

  Lemma plus_ok_find : forall s1 s2 p ch, Rplus s1 s2 -> t_size pT s1 < 2 ^ 32 - 1 ->
    match t_find pT s1 p ch with
    | Some (id, b, s1') => exists s2', t_find hash_trie s2 p ch = Some (id, b, s2') /\ Rplus s1' s2' /\
                             0 < t_size pT s1' <= t_size pT s1 + 1
    | None => false = false
    end.
  Proof.
    intros [[m1 m2] rem] a p ch HR HL. cbn [pT plus_trie t_find t_size hash_trie] in *.
    unfold plus_find. fold c1 c2. unfold Rplus in HR. unfold plus_size in HL |- *. unfold hash_find.
    destruct (h_entries m2 =? 0) eqn:E2; cbn [negb].
    - destruct HR as [I A].
      assert (EA : w32 (N.of_nat (length a)) = h_entries m1).
      { destruct A as (_ & A2 & _). rewrite <- A2. unfold w32. apply N.mod_small. lia. }
      rewrite EA.
      destruct (ht_insert fuel c1 n (rem - 1) m1 (create_node p ch) (h_entries m1)) as [[m' [x b]] |] eqn:EI; [| reflexivity].
      destruct (insert_amap _ _ _ _ _ _ _ a _ _ _ I A (no_undef _ HL) ltac:(lia) EI) as (J1 & J2 & J3 & J4 & J5 & J6).
      cbn [obind].
      destruct (hm_insert a (create_node p ch) (h_entries m1)) as [[x' b'] a'] eqn:EH. cbn [fst snd] in *.
      injection J3 as -> ->.
      destruct b; [| exists a'; unfold Rplus, plus_size; rewrite E2; specialize (J6 eq_refl); repeat split; try apply J1; try apply J2; lia].
      specialize (J5 eq_refl). subst x.
      assert (BASE : exists s2', Some (h_entries m1, true, a') = Some (h_entries m1, true, s2') /\
                Rplus (m', m2, rem - 1) s2' /\ 0 < t_size pT (m', m2, rem - 1) <= h_entries m1 + 1).
      { exists a'. unfold Rplus. cbn [pT plus_trie t_size]. unfold plus_size. rewrite E2.
        split; [reflexivity |]. split; [split; assumption |]. lia. }
      destruct (over (h_size m') (h_lf m') (w32 (h_entries m' + 1))); [| exact BASE].
      destruct (10 * ((h_entries m' + 1 + expected_remaining (h_entries m') n (rem - 1)) * 20 / 19) <? 19 * h_size m'); [| exact BASE].
      set (hint := w32 ((h_entries m' + 1 + expected_remaining (h_entries m') n (rem - 1)) * 20 / 19)). clearbody hint.
      unfold ht_incorporate, ht_reserve.
      set (mm := mk_hmap (h_size m') (h_keys m') (h_vals m') (h_entries m') (h_lf m2)).
      destruct (ht_reserve_with (ht_insert fuel c2 n (rem - 1)) c2 mm hint) as [m2' |] eqn:ER; [| reflexivity].
      cbn [obind].
      change (content m') with (content mm) in J2. destruct J2 as (A1 & A2 & A3). unfold counted in A3.
      destruct (reserve_ok c2 _ (insert_ok fuel c2 n (rem - 1)) mm hint m2') as (K1 & K2 & K3); auto.
      { change (content mm) with (content m'). apply (content_nodup c1 m' J1). }
      change (content mm) with (content m') in K2, K3.
      specialize (K3 ltac:(lia)). assert (PL := Permutation_length K2).
      exists a'. cbn [pT plus_trie t_size]. unfold Rplus, plus_size.
      assert (E2' : (h_entries m2' =? 0) = false) by (apply N.eqb_neq; lia). rewrite E2'.
      split; [reflexivity |]. split; [split; [exact K1 |] | lia].
      split; [| split].
      + intros q y. rewrite A1. split; intros HH.
        * eapply Permutation_in; [symmetry; exact K2 | exact HH].
        * eapply Permutation_in; [exact K2 | exact HH].
      + lia.
      + exact K3.
    - destruct HR as [I A].
      assert (EA : w32 (N.of_nat (length a)) = h_entries m2).
      { destruct A as (_ & A2 & _). rewrite <- A2. unfold w32. apply N.mod_small. lia. }
      rewrite EA.
      destruct (ht_insert fuel c2 n (rem - 1) m2 (create_node p ch) (h_entries m2)) as [[m' [x b]] |] eqn:EI; [| reflexivity].
      destruct (insert_amap _ _ _ _ _ _ _ a _ _ _ I A (no_undef _ HL) ltac:(lia) EI) as (J1 & J2 & J3 & J4 & J5 & J6).
      cbn [obind].
      destruct (hm_insert a (create_node p ch) (h_entries m2)) as [[x' b'] a'] eqn:EH. cbn [fst snd] in *.
      injection J3 as -> ->. apply N.eqb_neq in E2.
      exists a'. unfold Rplus, plus_size.
      assert (E2' : (h_entries m' =? 0) = false) by (apply N.eqb_neq; destruct b; lia). rewrite E2'.
      split; [destruct b; reflexivity |]. split; [split; assumption |]. destruct b; lia.
  Qed.
  Lemma plus_ok_init : forall k, k = 1 \/ k = 256 ->
    match t_init pT k with
    | Some s1 => exists s2, t_init hash_trie k = Some s2 /\ Rplus s1 s2 /\ t_size pT s1 <= k
    | None => false = false
    end.
  Proof.
    intros k Hk. unfold pT. destruct fuel as [| f].
    { cbn [plus_trie t_init]. destruct (0 <? res); destruct Hk as [Hk | Hk]; rewrite Hk; reflexivity. }
    assert (T := tab_init false c1 (fun _ => True) f n lf res ltac:(discriminate) k Hk).
    cbn [plus_trie t_init t_size table_trie tT] in *. fold c1.
    match type of T with match obind ?p _ with _ => _ end => destruct p as [m |] end; [| reflexivity]. cbn [obind] in *.
    match type of T with match obind ?p _ with _ => _ end => destruct p as [m' |] end; [| reflexivity]. cbn [obind] in *.
    destruct T as (s2 & T1 & (T2 & T3 & _) & T4). exists s2. split; [exact T1 |].
    unfold Rplus, plus_size. cbn [ht_new ht_fresh h_entries N.eqb fst] in *. split; [split; assumption | exact T4].
  Qed.
  Lemma plus_ok_root : forall s1 s2 ch, Rplus s1 s2 -> t_root pT s1 ch = t_root hash_trie s2 ch.
  Proof. reflexivity. Qed.
  Lemma plus_ok_size : forall s1 s2, Rplus s1 s2 -> t_size pT s1 = t_size hash_trie s2.
  Proof.
    intros [[m1 m2] rem] a HR. cbn [pT plus_trie t_size hash_trie]. unfold Rplus in HR. unfold plus_size.
    destruct (h_entries m2 =? 0); destruct HR as [_ (_ & A & _)]; exact A.
  Qed.
End Plus.
