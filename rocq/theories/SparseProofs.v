(** Proofs about the sparse inverse suffix array of SAComp.v, for any permutation. *)
From Verif Require Import Base IntCodes IntCodesProofs IntVec IntVecProofs RankSelect RankSelectProofs SAComp SACompProofs.
Local Open Scope nat_scope.

Lemma least (P : nat -> bool) m : P m = true -> exists k, k <= m /\ P k = true /\ forall j, j < k -> P j = false.
Proof.
  induction m as [m IH] using lt_wf_ind. intros H.
  destruct (existsb P (seq 0 m)) eqn:E.
  - apply existsb_exists in E. destruct E as (k & Hk & E). apply in_seq in Hk.
    destruct (IH k ltac:(lia) E) as (q & Hq & A & B). exists q. split; [lia|]. auto.
  - exists m. split; auto. split; auto. intros j Hj. destruct (P j) eqn:F; auto.
    assert (X : existsb P (seq 0 m) = true) by (apply existsb_exists; exists j; split; auto; apply in_seq; lia). congruence.
Qed.

(** ** cycles of a permutation *)
Section Cycles.
  Variables (f : nat -> nat) (n : nat).
  Hypothesis Hb : forall i, i < n -> f i < n.
  Hypothesis Hi : forall i j, i < n -> j < n -> f i = f j -> i = j.
  Definition itr (k i : nat) : nat := Nat.iter k f i.
  Lemma itr_lt k i : i < n -> itr k i < n.
  Proof. induction k; intros H; auto. change (f (itr k i) < n). auto. Qed.
  Lemma itr_add a b i : itr (a + b) i = itr a (itr b i).
  Proof. induction a; auto. change (f (itr (a + b) i) = f (itr a (itr b i))). rewrite IHa. auto. Qed.
  Lemma itr_S k i : itr (S k) i = f (itr k i).
  Proof. reflexivity. Qed.
  Lemma itr_S' k i : itr (S k) i = itr k (f i).
  Proof. rewrite <- (Nat.add_1_r k). rewrite itr_add. auto. Qed.
  Lemma itr_inj k i j : i < n -> j < n -> itr k i = itr k j -> i = j.
  Proof. induction k; intros A B E; auto. apply IHk; auto. apply Hi; auto; apply itr_lt; auto. Qed.
  Lemma period i : i < n -> exists p, 1 <= p <= n /\ itr p i = i /\ forall k, 1 <= k < p -> itr k i <> i.
  Proof.
    intros H. assert (X : exists m, m < n /\ itr (S m) i = i).
    { destruct (existsb (fun m => itr (S m) i =? i) (seq 0 n)) eqn:E.
      - apply existsb_exists in E. destruct E as (m & Hm & E). apply in_seq in Hm. apply Nat.eqb_eq in E. exists m. split; [lia|auto].
      - exfalso. assert (ND : NoDup (map (fun k => itr k i) (seq 0 (S n)))).
        { apply (NoDup_nth _ 0). rewrite map_length, seq_length.
          assert (G : forall a b, a < b < S n -> itr a i <> itr b i).
          { intros a b Hab F. replace b with (a + (b - a)) in F by lia. rewrite itr_add in F. apply itr_inj in F; auto; [|apply itr_lt; auto].
            assert (Y : existsb (fun m => itr (S m) i =? i) (seq 0 n) = true); [|congruence].
            apply existsb_exists. exists (b - a - 1). split; [apply in_seq; lia|]. apply Nat.eqb_eq. rewrite F at 2. f_equal. lia. }
          intros a b Ha Hb'. rewrite !(map_ext_nth _ _ _ 0 0) by (rewrite seq_length; auto). rewrite !seq_nth by auto. simpl.
          intros F. destruct (Nat.lt_total a b) as [L|[L|L]]; auto; exfalso; [apply (G a b)|apply (G b a)]; auto; lia. }
        apply (NoDup_incl_length (l' := seq 0 n)) in ND; [rewrite map_length, !seq_length in ND; lia|].
        intros x Hx. apply in_map_iff in Hx. destruct Hx as (k & <- & _). apply in_seq. pose proof (itr_lt k i H). lia. }
    destruct X as (m & Hm & E).
    destruct (least (fun m => itr (S m) i =? i) m) as (q & Hq & A & B); [apply Nat.eqb_eq; auto|].
    apply Nat.eqb_eq in A. exists (S q). split; [lia|]. split; auto. intros k Hk. specialize (B (k - 1) ltac:(lia)).
    apply Nat.eqb_neq in B. replace (S (k - 1)) with k in B by lia. auto.
  Qed.
  Lemma itr_mul p i q : itr p i = i -> itr (q * p) i = i.
  Proof. intros E. induction q; auto. simpl. rewrite itr_add, IHq. auto. Qed.
  Definition cyc (a b : nat) : Prop := exists k, itr k a = b.
  Lemma cyc_bound a b : a < n -> cyc a b -> exists k, k < n /\ f (itr k a) = b.
  Proof.
    intros Ha (k & E). destruct (period a Ha) as (p & Hp & P & _).
    assert (D : k = k / p * p + k mod p) by (rewrite Nat.mul_comm; apply Nat.div_mod; lia).
    assert (M : k mod p < p) by (apply Nat.mod_upper_bound; lia).
    rewrite D, Nat.add_comm, itr_add, itr_mul in E by auto.
    destruct (k mod p) as [|r]; [exists (p - 1)|exists r].
    - split; [lia|]. rewrite <- E. rewrite <- itr_S. replace (S (p - 1)) with p by lia. auto.
    - split; [lia|]. auto.
  Qed.
  Lemma cyc_sym a b : a < n -> cyc a b -> cyc b a.
  Proof.
    intros Ha (k & E). destruct (period a Ha) as (p & Hp & P & _). exists (k * p - k). rewrite <- E, <- itr_add.
    replace (k * p - k + k) with (k * p) by nia. apply itr_mul. auto.
  Qed.
  Lemma cyc_trans a b c : cyc a b -> cyc b c -> cyc a c.
  Proof. intros (k & E) (m & F). exists (m + k). rewrite itr_add, E. auto. Qed.
  Lemma cyc_lt a b : a < n -> cyc a b -> b < n.
  Proof. intros Ha (k & E). rewrite <- E. apply itr_lt. auto. Qed.
  Lemma itr_distinct i p a b : i < n -> (forall k, 1 <= k < p -> itr k i <> i) -> a < b < p -> itr a i <> itr b i.
  Proof.
    intros H M Hab F. replace b with (a + (b - a)) in F by lia. rewrite itr_add in F. apply itr_inj in F; auto; [|apply itr_lt; auto].
    apply (M (b - a)); auto. lia.
  Qed.
End Cycles.

(** ** bit vectors *)
Definition bvec (n : nat) (v : pvec) : Prop := wf v /\ pv_w v = 1 /\ pv_n v = n.
Definition bit (v : pvec) (q : nat) : bool := getb (pv_ws v) q.
Lemma bit_el n v q : bvec n v -> q < n -> nth q (contents v) 0%N = if bit v q then 1%N else 0%N.
Proof.
  intros (W & Ew & En) Hq. rewrite contents_nth by lia. unfold bit.
  rewrite (getb_el (pv_ws v) 1 (pv_n v)) by (try apply W; try (rewrite <- Ew; apply wf_room; auto); lia).
  rewrite Nat.div_1_r, Nat.mod_1_r, Ew.
  assert (B : (el (pv_ws v) 1 q < 2 ^ N.of_nat 1)%N).
  { apply (get_w_ok _ 1 (pv_n v)); [apply W|rewrite <- Ew; apply wf_room; auto|lia]. }
  unfold tb. generalize dependent (el (pv_ws v) 1 q). intros x B. change (2 ^ N.of_nat 1)%N with 2%N in B.
  assert (C : x = 0%N \/ x = 1%N) by lia. destruct C as [-> | ->]; reflexivity.
Qed.
Lemma bget n v q : bvec n v -> q < n -> pv_get v q = Some (if bit v q then 1%N else 0%N).
Proof. intros H Hq. rewrite <- (bit_el n) by auto. apply get_ok; [apply H|]. destruct H as (_ & _ & ->). auto. Qed.
Lemma bset n v q (b : bool) : bvec n v -> q < n -> exists v', pv_set v q (if b then 1 else 0)%N = Some v' /\ bvec n v' /\
  forall x, x < n -> bit v' x = if x =? q then b else bit v x.
Proof.
  intros H Hq. pose proof H as (W & Ew & En). destruct (set_ok v q (if b then 1 else 0)%N W ltac:(lia)) as (v' & E & W' & Ew' & _ & C).
  assert (N' : pv_n v' = n). { rewrite <- (contents_len v'), C, upd_length, contents_len. auto. }
  assert (B' : bvec n v') by (split; auto; split; [lia|auto]).
  exists v'. split; auto. split; auto. intros x Hx. pose proof (bit_el n v' x B' Hx) as X. rewrite C in X.
  rewrite nth_upd in X by (rewrite contents_len; lia). rewrite (bit_el n) in X by auto.
  rewrite Ew in X. destruct (x =? q), b, (bit v' x), (bit v x); auto; vm_compute in X; discriminate.
Qed.
Lemma bsized n : bvec n (pv_sized n 1 true) /\ forall q, q < n -> bit (pv_sized n 1 true) q = false.
Proof.
  assert (B : bvec n (pv_sized n 1 true)). { split; [apply sized_ok; lia|]. split; reflexivity. }
  split; auto. intros q Hq. pose proof (bit_el n _ q B Hq) as X. rewrite (proj2 (sized_ok n 1 true ltac:(lia))) in X.
  rewrite nth_repeat in X. destruct (bit _ q); auto. discriminate.
Qed.

Section Sparse.
  Variables (sa : list nat) (t : nat).
  Let n := length sa.
  Notation f := (fun i => nth i sa 0).
  Hypothesis Hb : forall i, i < n -> f i < n.
  Hypothesis Hinj : forall i j, i < n -> j < n -> f i = f j -> i = j.
  Lemma f_ne i : i < n -> nth_error sa i = Some (f i).
  Proof. intros. apply nth_error_nth'. auto. Qed.

  Lemma walk1_ok m : forall fuel i j k v has, m <= fuel -> itr f m j = i -> j < n -> bvec n v -> bvec n has ->
    exists v' has' k', sp_walk1 fuel sa t i j k v has = Some (v', has', k') /\ bvec n v' /\ bvec n has' /\
      forall q, q < n -> bit v q = true -> bit v' q = true.
  Proof.
    induction m as [|m IH]; intros fuel i j k v has Hf E Hj Bv Bh.
    - simpl in E. subst. destruct fuel; simpl; rewrite Nat.eqb_refl; exists v, has, k; auto.
    - destruct fuel as [|fuel]; [lia|]. cbn [sp_walk1]. destruct (j =? i) eqn:Z; [exists v, has, k; auto|].
      assert (X : exists h, (if k mod t =? 0 then pv_set has j 1 else Some has) = Some h /\ bvec n h).
      { destruct (k mod t =? 0); [|exists has; auto]. destruct (bset n has j true Bh Hj) as (h & A & B & _). exists h; auto. }
      destruct X as (h & -> & B1). cbn [obind].
      destruct (bset n v j true Bv Hj) as (v1 & E1 & B2 & B3). cbv iota in E1. rewrite E1. cbn [obind]. rewrite f_ne by auto. cbn [obind].
      destruct (IH fuel i (f j) (k + 1) v1 h) as (v' & h' & k' & A & B & C & D); auto; [lia|rewrite itr_S' in E; exact E|].
      exists v', h', k'. split; auto. split; auto. split; auto. intros q Hq F. apply D; auto. rewrite B3 by auto. destruct (q =? j); auto.
  Qed.
  Lemma pass1_ok m : forall i v has, i + m = n -> bvec n v -> bvec n has -> (forall q, q < i -> bit v q = true) ->
    exists v' has', sp_pass1 m sa t i v has = Some (v', has') /\ bvec n v' /\ bvec n has' /\ forall q, q < n -> bit v' q = true.
  Proof.
    induction m as [|m IH]; intros i v has Hm Bv Bh D; cbn [sp_pass1].
    - exists v, has. split; auto. split; auto. split; auto. intros; apply D; lia.
    - rewrite (bget n) by (auto; lia). cbn [obind]. destruct (bit v i) eqn:Z.
      + change (1 =? 0)%N with false. cbv iota. apply IH; auto; try lia. intros q Hq. destruct (Nat.eq_dec q i) as [->|]; auto. apply D. lia.
      + change (0 =? 0)%N with true. cbv iota.
        destruct (bset n v i true Bv ltac:(lia)) as (v1 & E1 & B2 & B3). cbv iota in E1. rewrite E1. cbn [obind].
        rewrite f_ne by lia. cbn [obind].
        destruct (period f n Hb Hinj i ltac:(lia)) as (p & Hp & P & _).
        destruct (walk1_ok (p - 1) (length sa) i (f i) 1 v1 has) as (v2 & h2 & k2 & E2 & B4 & B5 & B6); auto.
        * fold n. lia.
        * pose proof (itr_S' f (p - 1) i) as X. replace (S (p - 1)) with p in X by lia. rewrite P in X. symmetry. exact X.
        * apply Hb. lia.
        * rewrite E2. cbn [obind].
          assert (X : exists h, (if t <? k2 then pv_set h2 i 1 else Some h2) = Some h /\ bvec n h).
          { destruct (t <? k2); [|exists h2; auto]. destruct (bset n h2 i true B5 ltac:(lia)) as (h & A & B & _). exists h; auto. }
          destruct X as (h & -> & B7). cbn [obind]. apply IH; auto; try lia. intros q Hq. apply B6; [lia|]. rewrite B3 by lia.
          destruct (q =? i) eqn:Y; auto. apply D. lia.
  Qed.

  Variables (has : pvec) (r : rankds).
  Hypothesis Bh : bvec n has.
  Hypothesis Hr : forall x, x < n -> rank1 r x = Some (cntb (bit has) (x + 1)).
  Hypothesis Hn : (N.of_nat n < 2 ^ 32)%N.
  Definition cutvec (sc : pvec) : Prop := wf sc /\ pv_w sc = bits_of n /\ pv_n sc = cntb (bit has) n.
  Definition cut (sc : pvec) (q : nat) : nat := N.to_nat (nth (cntb (bit has) (q + 1) - 1) (contents sc) 0%N).
  Lemma cnt_has q : q < n -> bit has q = true -> 1 <= cntb (bit has) (q + 1) <= cntb (bit has) n.
  Proof.
    intros Hq H. split; [|apply cntb_mono; lia]. rewrite Nat.add_1_r, cntb_S, H. lia.
  Qed.
  Lemma cnt_inj q q' : q < n -> q' < n -> bit has q = true -> bit has q' = true ->
    cntb (bit has) (q + 1) - 1 = cntb (bit has) (q' + 1) - 1 -> q = q'.
  Proof.
    intros A B C D E. pose proof (cnt_has q A C). pose proof (cnt_has q' B D).
    apply (isel_fun (bit has) (cntb (bit has) (q + 1))); split; auto.
    - rewrite (Nat.add_1_r q), cntb_S, C. auto.
    - replace (cntb (bit has) (q + 1)) with (cntb (bit has) (q' + 1)) by lia. rewrite (Nat.add_1_r q'), cntb_S, D. auto.
  Qed.
  Lemma cut_set sc j i : cutvec sc -> j < n -> bit has j = true -> i < n ->
    exists sc', (do x <- rank1 r j; pv_set sc (x - 1) (N.of_nat i)) = Some sc' /\ cutvec sc' /\
      forall q, q < n -> bit has q = true -> cut sc' q = if q =? j then i else cut sc q.
  Proof.
    intros (W & Ew & En) Hj Hh Hi. rewrite Hr by auto. cbn [obind]. pose proof (cnt_has j Hj Hh) as C.
    destruct (set_ok sc (cntb (bit has) (j + 1) - 1) (N.of_nat i) W ltac:(lia)) as (sc' & E & W' & Ew' & _ & Cn).
    exists sc'. split; auto. split.
    { split; auto. split; [lia|]. rewrite <- (contents_len sc'), Cn, upd_length, contents_len. auto. }
    intros q Hq Hqh. unfold cut. rewrite Cn. pose proof (cnt_has q Hq Hqh). rewrite nth_upd by (rewrite contents_len; lia).
    destruct (q =? j) eqn:Z.
    - apply Nat.eqb_eq in Z. subst. rewrite Nat.eqb_refl. rewrite Ew. apply (cap_bits n i); [lia|auto].
    - destruct (cntb (bit has) (q + 1) - 1 =? cntb (bit has) (j + 1) - 1) eqn:Y; auto. apply Nat.eqb_eq in Y. apply cnt_inj in Y; auto. lia.
  Qed.
  (** every shortcut of a finished position stays on its cycle *)
  Definition good (D : nat -> Prop) (sc : pvec) : Prop :=
    forall q, q < n -> bit has q = true -> D q -> cyc f q (cut sc q).
  Lemma walk2_ok i0 p (Z : nat -> Prop) : i0 < n -> 1 <= p <= n -> itr f p i0 = i0 ->
    (forall k, 1 <= k < p -> itr f k i0 <> i0) ->
    (forall k, ~ Z (itr f k i0)) ->
    forall m k fuel i v sc, k + m = p -> 1 <= k -> m <= fuel ->
    bvec n v -> cutvec sc -> cyc f i0 i ->
    (forall q, q < n -> (bit v q = false <-> Z q \/ exists a, a < k /\ itr f a i0 = q)) ->
    good (fun q => Z q \/ exists a, 1 <= a < k /\ itr f a i0 = q) sc ->
    exists v' sc' i', sp_walk2 fuel sa r has i (itr f k i0) v sc = Some (v', sc', i', i0) /\
      bvec n v' /\ cutvec sc' /\ cyc f i0 i' /\
      (forall q, q < n -> (bit v' q = false <-> Z q \/ exists a, a < p /\ itr f a i0 = q)) /\
      good (fun q => Z q \/ exists a, 1 <= a < p /\ itr f a i0 = q) sc'.
  Proof.
    intros H0 Hp P M NZ. induction m as [|m IH]; intros k fuel i v sc Hk H1 Hf Bv Cv Ci V G.
    - replace k with p in * by lia. rewrite P.
      assert (F : bit v i0 = false). { apply V; auto. right. exists 0. split; [lia|auto]. }
      exists v, sc, i. split; [|auto]. destruct fuel; cbn [sp_walk2]; rewrite (bget n) by auto; cbn [obind]; rewrite F; reflexivity.
    - destruct fuel as [|fuel]; [lia|].
      set (j := itr f k i0). assert (Hj : j < n) by (apply itr_lt; auto).
      assert (F : bit v j = true).
      { destruct (bit v j) eqn:F; auto. apply V in F; auto. destruct F as [F|(a & Ha & E)]; [exfalso; apply (NZ k); auto|].
        exfalso. apply (itr_distinct f n Hb Hinj i0 p a k); auto. lia. }
      cbn [sp_walk2]. rewrite (bget n) by auto. cbn [obind]. rewrite F. change (1 =? 0)%N with false. cbv iota.
      rewrite (bget n) by auto. cbn [obind].
      assert (Hi : i < n) by (apply (cyc_lt f n Hb i0); auto).
      assert (Cj : cyc f i0 j) by (exists k; auto).
      assert (X : exists sc1 i1, (if ((if bit has j then 1 else 0) =? 0)%N then Some (sc, i)
             else do x <- rank1 r j; do sc <- pv_set sc (x - 1) (N.of_nat i); Some (sc, j)) = Some (sc1, i1) /\
             cutvec sc1 /\ cyc f i0 i1 /\ good (fun q => Z q \/ exists a, 1 <= a < k + 1 /\ itr f a i0 = q) sc1).
      { destruct (bit has j) eqn:Hh.
        - change (1 =? 0)%N with false. cbv iota. destruct (cut_set sc j i Cv Hj Hh Hi) as (sc1 & E & C1 & Q).
          exists sc1, j. split. { destruct (rank1 r j); cbn [obind] in E |- *; [|discriminate]. rewrite E. reflexivity. }
          split; auto. split; auto. intros q Hq Hqh HD. rewrite Q by auto. destruct (q =? j) eqn:Y.
          + apply Nat.eqb_eq in Y. subst. apply (cyc_trans f j i0 i); auto. apply (cyc_sym f n Hb Hinj); auto.
          + apply G; auto. destruct HD as [HD|(a & Ha & E')]; auto. right. exists a. split; auto.
            destruct (Nat.eq_dec a k) as [->|]; [|lia]. fold j in E'. lia.
        - change (0 =? 0)%N with true. cbv iota. exists sc, i. split; auto. split; auto. split; auto.
          intros q Hq Hqh HD. apply G; auto. destruct HD as [HD|(a & Ha & E')]; auto. right. exists a. split; auto.
          destruct (Nat.eq_dec a k) as [->|]; [|lia]. fold j in E'. congruence. }
      destruct X as (sc1 & i1 & -> & C1 & Ci1 & G1). cbn [obind].
      destruct (bset n v j false Bv Hj) as (v1 & E1 & B1 & V1). cbv iota in E1. rewrite E1. cbn [obind].
      rewrite f_ne by auto. cbn [obind]. assert (EJ : nth j sa 0 = itr f (k + 1) i0) by (rewrite Nat.add_1_r; reflexivity). rewrite EJ.
      apply IH; auto; try lia. intros q Hq. rewrite V1 by auto. destruct (q =? j) eqn:Y.
      + apply Nat.eqb_eq in Y. subst q. split; auto. intros _. right. exists k. split; [lia|auto].
      + rewrite V by auto. split; intros [HZ|(a & Ha & E)]; auto; right; exists a; split; auto; try lia.
        destruct (Nat.eq_dec a k) as [->|]; [fold j in E; lia|lia].
  Qed.
  Lemma pass2_ok m : forall i v sc (Z : nat -> Prop), n - i <= m -> bvec n v -> cutvec sc ->
    (forall q, q < n -> (bit v q = false <-> Z q)) -> (forall q, q < n -> Z q -> Z (f q)) -> (forall q, q < i -> q < n -> Z q) ->
    good Z sc ->
    exists sc', sp_pass2 m sa r has i v sc = Some sc' /\ cutvec sc' /\ good (fun _ => True) sc'.
  Proof.
    induction m as [|m IH]; intros i v sc Z Hm Bv Cv V ZC D G.
    - cbn [sp_pass2]. fold n. replace (i <? n) with false by lia. exists sc. split; auto. split; auto.
      intros q Hq Hqh _. apply G; auto. apply D; lia.
    - cbn [sp_pass2]. fold n. destruct (i <? n) eqn:L.
      2:{ exists sc. split; auto. split; auto. intros q Hq Hqh _. apply G; auto. apply D; lia. }
      assert (Hi : i < n) by lia. rewrite (bget n) by auto. cbn [obind]. destruct (bit v i) eqn:F.
      2:{ change (0 =? 0)%N with true. cbv iota. apply (IH (i + 1) v sc Z); auto; try lia. intros q Hq Hqn.
          destruct (Nat.eq_dec q i) as [->|]; [apply V; auto|apply D; lia]. }
      change (1 =? 0)%N with false. cbv iota.
      destruct (bset n v i false Bv Hi) as (v1 & E1 & B1 & V1). cbv iota in E1. rewrite E1. cbn [obind].
      rewrite f_ne by auto. cbn [obind].
      destruct (period f n Hb Hinj i Hi) as (p & Hp & P & M).
      assert (ZI : forall k q, q < n -> Z q -> Z (itr f k q)).
      { induction k as [|k IHk]; intros q Hq HZ; auto. rewrite itr_S. apply ZC; auto. apply itr_lt; auto. }
      assert (NZ : forall k, ~ Z (itr f k i)).
      { intros k HZ. destruct (cyc_sym f n Hb Hinj i (itr f k i) Hi) as (a & Ea); [exists k; auto|].
        apply (ZI a) in HZ; [|apply itr_lt; auto]. rewrite Ea in HZ. apply V in HZ; auto. congruence. }
      assert (Ni : ~ Z i) by (apply (NZ 0)).
      destruct (walk2_ok i p Z Hi Hp P M NZ (p - 1) 1 (length sa) i v1 sc) as (v2 & sc2 & i2 & E2 & B2 & C2 & Ci & V2 & G2); auto; try lia.
      { exists 0; auto. }
      { intros q Hq. rewrite V1 by auto. destruct (q =? i) eqn:Y.
        - apply Nat.eqb_eq in Y. subst q. split; auto. intros _. right. exists 0. split; auto.
        - rewrite V by auto. split; auto. intros [HZ|(a & Ha & E)]; auto. replace a with 0 in E by lia. simpl in E. lia. }
      { intros q Hq Hqh [HZ|(a & Ha & E)]; [apply G; auto|lia]. }
      change (itr f 1 i) with (f i) in E2. cbv beta in E2. change (length sa) with n. fold n in E2.
      assert (E2' : sp_walk2 n sa r has i (nth i sa 0) v1 sc = Some (v2, sc2, i2, i)) by exact E2. rewrite E2'. cbn [obind].
      rewrite (bget n) by auto. cbn [obind].
      assert (Hi2 : i2 < n) by (apply (cyc_lt f n Hb i); auto).
      assert (X : exists sc3, (if ((if bit has i then 1 else 0) =? 0)%N then Some sc2
             else do x <- rank1 r i; pv_set sc2 (x - 1) (N.of_nat i2)) = Some sc3 /\
             cutvec sc3 /\ good (fun q => Z q \/ exists a, a < p /\ itr f a i = q) sc3).
      { destruct (bit has i) eqn:Hh.
        - change (1 =? 0)%N with false. cbv iota. destruct (cut_set sc2 i i2 C2 Hi Hh Hi2) as (sc3 & E & C3 & Q).
          exists sc3. split; auto. split; auto. intros q Hq Hqh HD. rewrite Q by auto. destruct (q =? i) eqn:Y.
          + apply Nat.eqb_eq in Y. subst. auto.
          + apply G2; auto. destruct HD as [HD|(a & Ha & E')]; auto. right. exists a. split; auto. split; [|lia].
            destruct a; [simpl in E'; lia|lia].
        - change (0 =? 0)%N with true. cbv iota. exists sc2. split; auto. split; auto.
          intros q Hq Hqh HD. apply G2; auto. destruct HD as [HD|(a & Ha & E')]; auto. right. exists a. split; auto. split; [|lia].
          destruct a; [simpl in E'; congruence|lia]. }
      destruct X as (sc3 & -> & C3 & G3). cbn [obind].
      apply (IH (i + 1) v2 sc3 (fun q => Z q \/ exists a, a < p /\ itr f a i = q)); auto; try lia.
      + intros q Hq [HZ|(a & Ha & E)]; [left; apply ZC; auto|]. right.
        destruct (Nat.eq_dec (S a) p) as [Ep|].
        * exists 0. split; [lia|]. rewrite <- E. pose proof (itr_S f a i) as X. rewrite Ep, P in X. exact X.
        * exists (S a). split; [lia|]. rewrite <- E. reflexivity.
      + intros q Hq Hqn. destruct (Nat.eq_dec q i) as [->|]; [right; exists 0; split; [lia|auto]|left; apply D; lia].
  Qed.

  (** queries *)
  Variable sc : pvec.
  Hypothesis Cv : cutvec sc.
  Hypothesis G : good (fun _ => True) sc.
  Notation d := (mk_sparse sa has r sc).
  Lemma find_plain m : forall fuel i j, m <= fuel -> j < n -> f (itr f m j) = i ->
    exists y, sp_find fuel d i j false = Some y /\ y < n /\ f y = i.
  Proof.
    induction m as [|m IH]; intros fuel i j Hf Hj E.
    - simpl in E. exists j. split; auto. destruct fuel; cbn [sp_find sp_sa]; rewrite f_ne by auto; cbn [obind]; rewrite E, Nat.eqb_refl; auto.
    - destruct fuel as [|fuel]; [lia|]. cbn [sp_find sp_sa]. rewrite f_ne by auto. cbn [obind]. destruct (f j =? i) eqn:Z.
      + apply Nat.eqb_eq in Z. exists j. auto.
      + change (0 =? 0)%N with true. cbv iota. apply IH; auto; [lia|]. rewrite itr_S' in E. auto.
  Qed.
  Lemma find_ok m : forall fuel i j, m + n <= fuel -> j < n -> f (itr f m j) = i ->
    exists y, sp_find fuel d i j true = Some y /\ y < n /\ f y = i.
  Proof.
    induction m as [|m IH]; intros fuel i j Hf Hj E.
    - simpl in E. exists j. split; auto. destruct fuel; cbn [sp_find sp_sa]; rewrite f_ne by auto; cbn [obind]; rewrite E, Nat.eqb_refl; auto.
    - destruct fuel as [|fuel]; [lia|]. cbn [sp_find sp_sa sp_has sp_rank sp_cuts]. rewrite f_ne by auto. cbn [obind]. destruct (f j =? i) eqn:Z.
      + apply Nat.eqb_eq in Z. exists j. auto.
      + rewrite (bget n) by auto. cbn [obind]. destruct (bit has j) eqn:Hh.
        2:{ change (0 =? 0)%N with true. cbv iota. apply IH; auto; [lia|]. rewrite itr_S' in E. auto. }
        change (1 =? 0)%N with false. cbv iota. rewrite Hr by auto. cbn [obind].
        pose proof (cnt_has j Hj Hh). rewrite get_ok by (destruct Cv as (? & ? & ?); auto; lia). cbn [obind].
        change (N.to_nat (nth (cntb (bit has) (j + 1) - 1) (contents sc) 0%N)) with (cut sc j).
        assert (C1 : cyc f j (cut sc j)) by (apply G; auto).
        assert (Hc : cut sc j < n) by (apply (cyc_lt f n Hb j); auto).
        assert (C2 : cyc f (cut sc j) i).
        { apply (cyc_trans f _ j); [apply (cyc_sym f n Hb Hinj); auto|]. exists (S (S m)). auto. }
        destruct (cyc_bound f n Hb Hinj (cut sc j) i Hc C2) as (k & Hk & Ek).
        apply (find_plain k); auto. lia.
  Qed.
End Sparse.

Lemma sparse_ok sa t : t <> 0 -> 0 < length sa -> (N.of_nat (length sa) < 2 ^ 32)%N ->
  (forall i, i < length sa -> nth i sa 0 < length sa) ->
  (forall i j, i < length sa -> j < length sa -> nth i sa 0 = nth j sa 0 -> i = j) ->
  exists d, sparse_new sa t = Some d /\ forall i, i < length sa -> sparse_get d (nth i sa 0) = Some i.
Proof.
  intros Ht Hp Hn Hb Hinj. unfold sparse_new. replace (t =? 0) with false by lia.
  set (n := length sa) in *. destruct (bsized n) as [B0 Z0].
  destruct (pass1_ok sa t Hb Hinj n 0 (pv_sized n 1 true) (pv_sized n 1 true)) as (v & has & E & Bv & Bh & V); auto; [intros; lia|].
  rewrite E. cbn [obind]. pose proof Bh as (Wh & Ewh & Enh).
  destruct (rank_new_ok has Wh Ewh) as (r & Er & R); [fold n in Enh; rewrite Enh; lia|].
  rewrite Er. cbn [obind]. fold n in Enh, Bh, Bv. 
  assert (Hr : forall x, x < n -> rank1 r x = Some (cntb (bit has) (x + 1))) by (intros x Hx; apply R; lia).
  rewrite Hr by lia. cbn [obind]. replace (n - 1 + 1) with n by lia.
  assert (Hw : 1 <= bits_of n <= 64).
  { unfold bits_of. pose proof (bits_for_pos (N.of_nat n)). pose proof (bits_for_le64 (N.of_nat n)). unfold bits_forn in *. lia. }
  destruct (filled_width_ok (cntb (bit has) n) 0 (bits_of n) 64 Hw) as (sc & Es & W & Ew & C).
  rewrite Es. cbn [obind].
  assert (Cv : cutvec sa has sc).
  { split; auto. split; [auto|]. rewrite <- (contents_len sc). destruct C as [_ C]. rewrite C, repeat_length. auto. }
  destruct (pass2_ok sa Hb Hinj has r Bh Hr Hn n 0 v sc (fun q => n <= q)) as (sc' & E2 & C2 & G2); auto; try lia.
  - intros q Hq. rewrite V by auto. split; intros; [discriminate|lia].
  - intros q Hq Hqh HD. lia.
  - rewrite E2. cbn [obind]. eexists. split; auto. intros i Hi. unfold sparse_get. cbn [sp_sa]. fold n.
    destruct (cyc_bound (fun i => nth i sa 0) n Hb Hinj (nth i sa 0) (nth i sa 0)) as (k & Hk & Ek); [apply Hb; auto|exists 0; auto|].
    destruct (find_ok sa Hb Hinj has r Bh Hr Hn sc' C2 G2 k (2 * n) (nth i sa 0) (nth i sa 0)) as (y & Ey & Hy & F); auto; [lia|].
    rewrite Ey. f_equal. apply Hinj; auto.
Qed.
