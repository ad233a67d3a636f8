(** SLE coder: encoder and decoder agree. *)
From Coq Require Import Permutation Sorted.
From Verif Require Import Base BitIO BitIOProofs IntCodes IntCodesProofs Coders CodersProofs LooseCoders SLE CounterProofs.
Local Open Scope N_scope.

(** ** k-mer symbols *)
Lemma lor_lt a b n : a < 2 ^ n -> b < 2 ^ n -> N.lor a b < 2 ^ n.
Proof.
  intros Ha Hb. destruct (N.eq_dec (N.lor a b) 0) as [->|Hz]; [apply N.neq_0_lt_0, N.pow_nonzero; discriminate|].
  apply N.log2_lt_pow2; [lia|]. rewrite N.log2_lor.
  assert (Hn : n <> 0).
  { intros ->. change (2 ^ 0) with 1 in *. assert (a = 0) by lia. assert (b = 0) by lia. subst. apply Hz. reflexivity. }
  apply N.max_lub_lt.
  - destruct (N.eq_dec a 0) as [->|]; [cbn; lia|]. apply N.log2_lt_pow2; lia.
  - destruct (N.eq_dec b 0) as [->|]; [cbn; lia|]. apply N.log2_lt_pow2; lia.
Qed.
Lemma testbit_small a n m : a < 2 ^ n -> n <= m -> N.testbit a m = false.
Proof.
  intros Ha Hm. destruct (N.eq_dec a 0) as [->|]; [apply N.bits_0|].
  apply N.bits_above_log2. assert (N.log2 a < n) by (apply N.log2_lt_pow2; lia). lia.
Qed.

Lemma compile_loop_ok rk : forall i acc, (8 * (i + length rk) <= 64)%nat -> Forall (fun c => c < 256) rk ->
  acc < 2 ^ N.of_nat (8 * i) ->
  exists s, compile_loop i rk acc = Some s /\ s < 2 ^ N.of_nat (8 * (i + length rk)) /\
    (forall m, m < N.of_nat (8 * i) -> N.testbit s m = N.testbit acc m) /\
    forall p n, (p < length rk)%nat -> n < 8 -> N.testbit s (n + N.of_nat (8 * (i + p))) = N.testbit (nth p rk 0) n.
Proof.
  induction rk as [|c rk IH]; intros i acc Hl Hb Ha; cbn [compile_loop length].
  - exists acc. rewrite Nat.add_0_r. split; auto. split; auto. split; auto. intros; lia.
  - cbn [length] in Hl. destruct (Nat.ltb_spec (8 * i) 64) as [Hi|]; [|lia].
    inversion Hb as [|? ? Hc Hb']; subst.
    assert (Hsh : N.shiftl c (N.of_nat (8 * i)) < 2 ^ N.of_nat (8 * (i + 1))).
    { rewrite N.shiftl_mul_pow2. replace (N.of_nat (8 * (i + 1))) with (8 + N.of_nat (8 * i)) by lia.
      rewrite N.pow_add_r. change (2 ^ 8) with 256. apply N.mul_lt_mono_pos_r; auto.
      apply N.neq_0_lt_0, N.pow_nonzero; discriminate. }
    assert (Hw : w64 (N.shiftl c (N.of_nat (8 * i))) = N.shiftl c (N.of_nat (8 * i))).
    { apply w64_small. eapply N.lt_le_trans; [exact Hsh|]. apply N.pow_le_mono_r; lia. }
    rewrite Hw. set (acc' := N.lor acc (N.shiftl c (N.of_nat (8 * i)))).
    assert (Ha' : acc' < 2 ^ N.of_nat (8 * (i + 1))).
    { apply lor_lt; auto. eapply N.lt_le_trans; [exact Ha|]. apply N.pow_le_mono_r; lia. }
    destruct (IH (i + 1)%nat acc') as (s & E1 & E2 & E3 & E4); auto; [lia|].
    exists s. split; auto. split.
    { replace (i + S (length rk))%nat with (i + 1 + length rk)%nat by lia. auto. }
    split.
    + intros m Hm. rewrite E3 by lia. unfold acc'. rewrite N.lor_spec, N.shiftl_spec_low by lia. apply orb_false_r.
    + intros [|p] n Hp Hn.
      * rewrite Nat.add_0_r, E3 by lia. unfold acc'. rewrite N.lor_spec.
        rewrite (testbit_small acc (N.of_nat (8 * i))) by (auto; lia). cbn [orb nth].
        rewrite N.shiftl_spec_high' by lia. f_equal. lia.
      * cbn [nth]. rewrite <- E4 by lia. f_equal. f_equal. lia.
Qed.

Lemma mask_bit m : m < 56 -> N.testbit kmer_mask m = false.
Proof. intros H. unfold kmer_mask. apply N.shiftl_spec_low. auto. Qed.
Lemma byte_bits a b : b < 256 -> (forall n, n < 8 -> N.testbit a n = N.testbit b n) -> N.land a 255 = b.
Proof.
  intros Hb H. apply N.bits_inj. intros n. rewrite N.land_spec.
  destruct (N.lt_ge_cases n 8) as [Hn|Hn].
  - rewrite H by auto. replace (N.testbit 255 n) with true; [apply andb_true_r|].
    change 255 with (N.ones 8). symmetry. apply N.ones_spec_low. auto.
  - rewrite (testbit_small b 8 n) by (auto; change (2 ^ 8) with 256; auto).
    rewrite (testbit_small 255 8 n) by (auto; reflexivity). apply andb_false_r.
Qed.

Lemma compile_ok kmer : (length kmer <= 7)%nat -> Forall (fun c => c < 256) kmer ->
  exists x, compile_kmer kmer = Some x /\ x < 2 ^ 64 /\ is_kmer x = true /\ decompile_kmer (length kmer) x = Some kmer.
Proof.
  intros Hl Hb. unfold compile_kmer.
  destruct (compile_loop_ok (rev kmer) 0 0) as (s & E1 & E2 & _ & E4).
  { rewrite rev_length. lia. }
  { apply Forall_forall. intros c Hc. apply in_rev in Hc. rewrite Forall_forall in Hb. auto. }
  { reflexivity. }
  rewrite E1. cbn [obind]. exists (N.lor s kmer_mask). split; auto.
  rewrite rev_length in *. cbn [Nat.add] in *.
  split.
  { apply lor_lt; [|reflexivity]. eapply N.lt_le_trans; [exact E2|]. apply N.pow_le_mono_r; lia. }
  split.
  { unfold is_kmer. apply N.eqb_eq. apply N.bits_inj. intros n. rewrite N.land_spec, N.lor_spec.
    destruct (N.testbit s n), (N.testbit kmer_mask n); reflexivity. }
  unfold decompile_kmer. destruct (Nat.leb_spec (length kmer) 8); [|lia]. f_equal.
  rewrite <- (rev_involutive kmer) at 2. f_equal.
  apply (nth_ext _ _ 0 0).
  { rewrite map_length, seq_length, rev_length. auto. }
  intros i Hi. rewrite map_length, seq_length in Hi.
  set (f := fun i => N.land (N.shiftr (N.lor s kmer_mask) (N.of_nat (8 * i))) 255).
  rewrite (nth_indep _ 0 (f 0%nat)) by (rewrite map_length, seq_length; auto).
  rewrite map_nth, seq_nth by auto. unfold f. cbn [Nat.add].
  apply byte_bits.
  { assert (Hr : Forall (fun c => c < 256) (rev kmer)).
    { apply Forall_forall. intros c Hc. apply in_rev in Hc. rewrite Forall_forall in Hb. auto. }
    rewrite Forall_forall in Hr. apply Hr, nth_In. rewrite rev_length. auto. }
  intros n Hn. rewrite N.shiftr_spec', N.lor_spec, mask_bit by lia. rewrite orb_false_r.
  rewrite E4 by auto. reflexivity.
Qed.
Lemma lit_not_kmer x : x < 256 -> is_kmer x = false.
Proof.
  intros H. unfold is_kmer. apply N.eqb_neq. intros E.
  assert (N.testbit (N.land x kmer_mask) 56 = N.testbit kmer_mask 56) by (rewrite E; auto).
  rewrite N.land_spec in H0. rewrite (testbit_small x 8 56) in H0; [|auto|lia].
  cbn [andb] in H0. vm_compute in H0. discriminate.
Qed.

Lemma roll_ok k buf c : (1 <= k)%nat -> (length buf <= k)%nat -> exists o b, kmer_roll k buf c = Some (o, b) /\
  (1 <= length b <= k)%nat /\ (o = None /\ (length buf < k)%nat /\ b = buf ++ [c] \/ length buf = k /\ exists x t, buf = x :: t /\ o = Some x /\ b = t ++ [c]).
Proof.
  intros Hk Hb. unfold kmer_roll. destruct (Nat.eqb_spec (length buf) k) as [E|E].
  - destruct buf as [|x t]; [cbn in E; lia|]. exists (Some x), (t ++ [c]). split; auto. rewrite app_length. cbn [length] in *.
    split; [lia|]. right. split; auto. exists x, t. auto.
  - exists None, (buf ++ [c]). split; auto. rewrite app_length. cbn [length]. split; [lia|]. left. split; auto. split; [lia|auto].
Qed.
(** ** the symbols of an alphabet: announced literals and k-mers of announced literals *)
Definition sym_ok (A : N -> Prop) (k : nat) (x : N) : Prop :=
  A x \/ exists km, length km = k /\ Forall A km /\ compile_kmer km = Some x.
Section Alphabet.
Context (A : N -> Prop).
Hypothesis HA : forall c, A c -> c < 256.
Lemma A_bytes l : Forall A l -> Forall (fun c => c < 256) l.
Proof. apply Forall_impl. exact HA. Qed.
Lemma sym_lt k x : (k <= 7)%nat -> sym_ok A k x -> x < 2 ^ 64.
Proof.
  intros Hk [H|(km & H1 & H2 & H3)]; [apply HA in H; rewrite pow64; lia|].
  destruct (compile_ok km) as (y & E1 & E2 & _); auto using A_bytes; [lia|]. congruence.
Qed.

Lemma roll_bytes k buf c o b : kmer_roll k buf c = Some (o, b) -> Forall A buf -> A c ->
  Forall A b.
Proof.
  unfold kmer_roll. intros E Hb Hc. destruct (length buf =? k)%nat.
  - destruct buf as [|x t]; [discriminate|]. injection E as <- <-. inversion Hb; subst. apply Forall_app; auto.
  - injection E as <- <-. apply Forall_app; auto.
Qed.

Lemma sle_count_ok k : (1 <= k <= 7)%nat -> forall lits last buf al km,
  Forall (fun l => A (fst l)) lits -> (length buf <= k)%nat -> Forall A buf ->
  NoDup (keys al) -> (forall x, In x (keys al) -> A x) ->
  (forall x, In x (keys km) -> sym_ok A k x) ->
  (km <> [] -> al <> []) ->
  exists al' km', sle_count k lits last buf al km = Some (al', km') /\
    NoDup (keys al') /\ (forall x, In x (keys al') -> A x) /\
    (forall x, In x (keys km') -> sym_ok A k x) /\
    (forall x, In x (keys al') <-> In x (keys al) \/ In x (map fst lits)) /\ (km' <> [] -> al' <> []).
Proof.
  intros Hk. induction lits as [|[c pos] lits IH]; intros last buf al km Hl Hb1 Hb2 Ha1 Ha2 Hkm Hne; cbn [sle_count].
  - exists al, km. split; auto. split; auto. split; auto. split; auto. split; auto. intros; cbn; tauto.
  - inversion Hl as [|? ? Hc Hl']; subst. cbn [fst] in Hc.
    assert (St : exists buf' km', (if (1 <? k)%nat then
                  let buf := if negb (pos =? last + 1) then [] else buf in
                  do (_, buf) <- kmer_roll k buf c;
                  if (length buf =? k)%nat
                  then do x <- compile_kmer buf; Some (buf, increase km x)
                  else Some (buf, km)
                else Some (buf, km)) = Some (buf', km') /\ (length buf' <= k)%nat /\ Forall A buf' /\
                (forall x, In x (keys km') -> sym_ok A k x)).
    { destruct (1 <? k)%nat; [|eauto 8].
      set (b0 := if negb (pos =? last + 1) then [] else buf).
      assert (H0 : (length b0 <= k)%nat /\ Forall A b0).
      { unfold b0. destruct (negb _); cbn; auto. split; [lia|constructor]. }
      destruct H0 as [H01 H02]. cbn zeta.
      destruct (roll_ok k b0 c) as (o & b & E & Hlen & _); auto; [lia|]. 
      pose proof (roll_bytes _ _ _ _ _ E H02 Hc) as Hbb. rewrite E. cbn [obind].
      destruct (Nat.eqb_spec (length b) k) as [Ek|Ek].
      - destruct (compile_ok b) as (x & Ex & _); auto using A_bytes; [lia|]. rewrite Ex. cbn [obind].
        exists b, (increase km x). split; auto. split; [lia|]. split; auto.
        intros y Hy. unfold increase in Hy. apply setCount_keys in Hy. destruct Hy as [->|Hy]; auto.
        right. exists b. auto.
      - exists b, km. split; auto. split; [lia|]. auto. }
    destruct St as (buf' & km' & E & S1 & S2 & S3). cbn zeta in E. cbn zeta. rewrite E. cbn [obind].
    destruct (IH pos buf' (increase al c) km') as (al'' & km'' & R1 & R2 & R3 & R4 & R5 & R6); auto.
    + apply setCount_nodup; auto.
    + intros x Hx. unfold increase in Hx. apply setCount_keys in Hx. destruct Hx as [->|Hx]; auto.
    + intros _ Hz. assert (Hi : In c (keys (increase al c))) by (unfold increase; apply setCount_keys; auto).
      rewrite Hz in Hi. destruct Hi.
    + exists al'', km''. split; auto. split; auto. split; auto. split; auto. split; auto.
      intros x. rewrite R5. unfold increase. rewrite setCount_keys. cbn [map fst In]. clear. firstorder congruence.
Qed.

Lemma keys_len256 al : NoDup (keys al) -> (forall x, In x (keys al) -> A x) -> (length al <= 256)%nat.
Proof.
  intros H1 H2. rewrite <- (map_length fst). fold (keys al).
  rewrite <- (seq_length 256 0). rewrite <- (map_length N.of_nat (seq 0 256)).
  apply NoDup_incl_length; auto. intros x Hx. apply H2, HA in Hx.
  apply in_map_iff. exists (N.to_nat x). split; [lia|]. apply in_seq. lia.
Qed.

Lemma merge_ok k l : forall eta al, (1 <= eta) -> eta < 2 ^ 64 -> NoDup (keys al) -> (forall x, In x (keys al) -> sym_ok A k x) ->
  (forall x, In x (map fst l) -> sym_ok A k x) ->
  let al' := merge_kmers eta l al in
  NoDup (keys al') /\ (forall x, In x (keys al') -> sym_ok A k x) /\ (forall x, In x (keys al) -> In x (keys al')) /\
  (length al' <= length al + N.to_nat eta)%nat.
Proof.
  induction l as [|[x n] l IH]; intros eta al H1 H2 H3 H4 H5; cbn [merge_kmers].
  - split; auto. split; auto. split; auto. lia.
  - assert (Ee : w64 (eta + (2 ^ 64 - 1)) = eta - 1).
    { replace (eta + (2 ^ 64 - 1)) with (eta + 2 ^ 64 - 1) by (rewrite pow64 in *; lia). apply w64_sub; lia. }
    rewrite Ee. cbn zeta.
    assert (K1 : NoDup (keys (setCount al x n))) by (apply setCount_nodup; auto).
    assert (K2 : forall y, In y (keys (setCount al x n)) -> sym_ok A k y).
    { intros y Hy. apply setCount_keys in Hy. destruct Hy as [->|Hy]; auto. apply H5. left. auto. }
    assert (K3 : forall y, In y (keys al) -> In y (keys (setCount al x n))) by (intros; apply setCount_keys; auto).
    pose proof (setCount_len al x n) as K4.
    destruct (N.eqb_spec (eta - 1) 0) as [E0|E0].
    + split; auto. split; auto. split; auto. lia.
    + destruct (IH (eta - 1) (setCount al x n)) as (Q1 & Q2 & Q3 & Q4); auto; try lia.
      { intros y Hy. apply H5. right. auto. }
      split; auto. split; auto. split; auto. lia.
Qed.

Lemma sle_alphabet_ok k ub lits : (1 <= k <= 7)%nat -> Forall (fun l => A (fst l)) lits ->
  exists al, sle_alphabet k ub lits = Some al /\ NoDup (keys al) /\ (forall x, In x (keys al) -> sym_ok A k x) /\
    (forall x, In x (map fst lits) -> In x (keys al)) /\ (length al < 2048)%nat.
Proof.
  intros Hk Hl. unfold sle_alphabet.
  destruct (sle_count_ok k Hk lits 0 [] [] []) as (al & km & E & A1 & A2 & A3 & A4 & A5); auto.
  { cbn; lia. } { constructor. } { intros x []. } { intros x []. }
  rewrite E. cbn [obind]. eexists. split; [reflexivity|].
  pose proof (keys_len256 al A1 A2) as Hlen.
  assert (Hs : forall x, In x (keys al) -> sym_ok A k x) by (intros; left; auto).
  assert (Hin : forall x, In x (map fst lits) -> In x (keys al)) by (intros; apply A4; auto).
  destruct (1 <? k)%nat; [|split; auto; split; auto; split; auto; lia].
  destruct (getSorted km) as [|e km'] eqn:Eks.
  { cbn [merge_kmers]. split; auto. split; auto. split; auto. lia. }
  assert (Hkm : km <> []) by (intros ->; discriminate).
  assert (Hal : (1 <= length al)%nat) by (pose proof (A5 Hkm); destruct al; [congruence|cbn; lia]).
  set (sigma := getNumItems al).
  assert (Hsig : 1 <= sigma <= 256) by (unfold sigma, getNumItems; lia).
  assert (Hw : w64 (sigma + (2 ^ 64 - 1)) = sigma - 1).
  { replace (sigma + (2 ^ 64 - 1)) with (sigma + 2 ^ 64 - 1) by (rewrite pow64; lia). apply w64_sub; [lia|rewrite pow64; lia]. }
  rewrite Hw. set (sb := bits_for (sigma - 1)).
  assert (Hsb : sb <= 8) by (apply bits_for_min; [lia|change (2 ^ 8) with 256; lia]).
  assert (Hb : sigma - 1 < 2 ^ sb) by apply bits_for_bound.
  set (add := if shl1 ub sb =? sigma then 1 else 2).
  assert (Hadd : 1 <= add <= 2) by (unfold add; destruct (_ =? _); lia).
  unfold shl1. destruct (N.ltb_spec (sb + add) 64) as [_|]; [|lia].
  assert (Hp : 2 ^ (sb + add) <= 2 ^ 10) by (apply N.pow_le_mono_r; lia). change (2 ^ 10) with 1024 in Hp.
  assert (Hp2 : 2 * 2 ^ sb <= 2 ^ (sb + add)).
  { rewrite N.pow_add_r. assert (2 ^ 1 <= 2 ^ add) by (apply N.pow_le_mono_r; lia). change (2 ^ 1) with 2 in *. nia. }
  set (P := 2 ^ (sb + add)) in *. set (Q := 2 ^ sb) in *.
  assert (Heta : w64 (P + (2 ^ 64 - sigma)) = P - sigma).
  { replace (P + (2 ^ 64 - sigma)) with (P + 2 ^ 64 - sigma) by (rewrite pow64; lia). apply w64_sub; [lia|rewrite pow64; lia]. }
  rewrite Heta.
  destruct (merge_ok k (e :: km') (P - sigma) al) as (M1 & M2 & M3 & M4); auto.
  { lia. } { rewrite pow64. lia. }
  { intros x Hx. apply A3. rewrite <- Eks in Hx.
    eapply Permutation_in; [apply Permutation_map, getSorted_perm|exact Hx]. }
  cbn zeta in *. split; auto. split; auto. split; auto. lia.
Qed.

End Alphabet.

(** ** the code of the ranks *)
Lemma rd_small v n rest : (n <= 64)%nat -> v < 2 ^ N.of_nat n -> rd_int lrb n (write_int v n ++ rest) = (v, rest).
Proof. intros H1 H2. rewrite rd_int_ok by auto. rewrite N.mod_small by auto. reflexivity. Qed.
Ltac rds := first [assumption | match goal with |- (_ <= _)%nat => lia end
  | match goal with |- _ < ?p => let q := eval vm_compute in p in change p with q; lia end].
Lemma read_rank_ok sb r rest : (sb <= 64)%nat -> r < 2 ^ N.of_nat sb ->
  read_rank lrb sb (rank_bits sb r ++ rest) = (r, rest).
Proof.
  intros Hs Hr. unfold read_rank, rank_bits.
  destruct (Nat.ltb_spec sb 4); [apply rd_small; auto|].
  destruct (Nat.ltb_spec sb 6).
  { destruct (N.ltb_spec r 4); cbn [app lrb]; apply rd_small; rds. }
  destruct (Nat.eqb_spec sb 6).
  { repeat match goal with |- context[r <? ?n] => destruct (N.ltb_spec r n) end;
      rewrite <- app_assoc, rd_small by rds; cbn iota; unfold add_int;
      rewrite rd_small by rds; first [reflexivity | f_equal; lia]. }
  repeat match goal with |- context[r <? ?n] => destruct (N.ltb_spec r n) end;
      rewrite <- app_assoc, rd_small by rds; cbn iota; unfold add_int;
      rewrite rd_small by rds; first [reflexivity | f_equal; lia].
Qed.
Lemma rank_bits_ne sb r : (1 <= sb)%nat -> rank_bits sb r <> [].
Proof.
  intros Hs. unfold rank_bits. destruct (Nat.ltb_spec sb 4).
  - destruct sb; [lia|discriminate].
  - repeat match goal with |- context[if ?b then _ else _] => destruct b end; discriminate.
Qed.

(** ** MinDistributedRange *)
Lemma mind_ok v mn mx : mn <= v -> v < 2 ^ 64 -> mx < 2 ^ 64 ->
  mind_bits v mn mx <> [] /\
  exists dv, (mn <= mx /\ v - mn < 2 ^ bits_for (mx - mn) -> dv = v) /\
    forall rest, mind_read lrb mn mx (mind_bits v mn mx ++ rest) = (dv, rest).
Proof.
  intros H1 H2 H3. unfold mind_bits, mind_read. rewrite (w64_sub v mn) by auto.
  set (bits := bits_forn (w64 (mx + 2 ^ 64 - mn))).
  assert (Hb : (1 <= bits <= 64)%nat).
  { unfold bits, bits_forn. pose proof (bits_for_pos (w64 (mx + 2 ^ 64 - mn))).
    pose proof (bits_for_le64 _ (w64_lt (mx + 2 ^ 64 - mn))). lia. }
  assert (Hx : mn <= mx /\ v - mn < 2 ^ bits_for (mx - mn) -> v - mn < 2 ^ N.of_nat bits).
  { intros [G1 G2]. unfold bits, bits_forn. rewrite N2Nat.id, w64_sub by auto. auto. }
  assert (Hval : forall u, u = v - mn -> w64 (mn + u) = v) by (intros u ->; rewrite w64_small; lia).
  destruct (Nat.leb_spec bits 5).
  { split; [destruct bits; [lia|discriminate]|].
    exists (w64 (mn + (v - mn) mod 2 ^ N.of_nat bits)). split.
    - intros G. apply Hval. apply N.mod_small. auto.
    - intros rest. rewrite rd_int_ok by lia. reflexivity. }
  destruct (N.ltb_spec (v - mn) 8) as [C1|C1].
  { split; [discriminate|]. exists v. split; auto. intros rest. rewrite <- app_assoc, rd_small by rds. cbn iota.
    rewrite rd_small by rds. f_equal. apply Hval. lia. }
  destruct (N.ltb_spec (v - mn) 16) as [C2|C2].
  { split; [discriminate|]. exists v. split; auto. intros rest. rewrite <- app_assoc, rd_small by rds. cbn iota.
    unfold add_int. rewrite rd_small by rds. f_equal. apply Hval. lia. }
  destruct (N.ltb_spec (v - mn) 32) as [C3|C3].
  { split; [discriminate|]. exists v. split; auto. intros rest. rewrite <- app_assoc, rd_small by rds. cbn iota.
    unfold add_int. rewrite rd_small by rds. f_equal. apply Hval. lia. }
  split; [discriminate|]. exists (w64 (mn + (v - mn) mod 2 ^ N.of_nat bits)). split.
  - intros G. apply Hval. apply N.mod_small. auto.
  - intros rest. rewrite <- app_assoc, rd_small by rds. cbn iota. rewrite rd_int_ok by lia. reflexivity.
Qed.
