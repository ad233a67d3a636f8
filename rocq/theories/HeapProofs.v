(** ArrayMaxHeap: contents for every history; order for histories that remove only the maximum. *)
From Coq Require Import Permutation.
From Verif Require Import Base LZSS Strategies StrategySpec MaxQueues SACompProofs ArraysProofs MSLProofs.
Local Open Scope nat_scope.

Lemma parent_lt q : 0 < q -> parent q < q.
Proof. unfold parent. lia. Qed.
Lemma parent_child q p : 0 < q -> parent q = p -> q = lc p \/ q = rc p.
Proof. unfold parent, lc, rc. lia. Qed.
Lemma parent_lc p : parent (lc p) = p.
Proof. unfold parent, lc. lia. Qed.
Lemma parent_rc p : parent (rc p) = p.
Proof. unfold parent, rc. lia. Qed.
Lemma lc_gt p : p < lc p /\ p < rc p /\ lc p < rc p.
Proof. unfold lc, rc. lia. Qed.

Global Opaque parent lc rc.

Section Heap.
  Variables (n u : nat).
  Notation hp h q := (nth q (h_heap h) 0).
  Notation ps h x := (nth x (h_pos h) u).
  Notation ky h x := (nth x (h_key h) 0).

  (** lengths; n items, room for u of them *)
  Definition dims (h : heap) : Prop :=
    length (h_key h) = n /\ length (h_heap h) = u /\ length (h_pos h) = n /\ h_size h <= u.
  (** the first h_size entries of the heap array and the back mapping agree (item [i] is ignored) *)
  Definition cont' (h : heap) (i : nat) : Prop :=
    dims h /\ (forall q, q < h_size h -> hp h q < n /\ ps h (hp h q) = q /\ hp h q <> i) /\
    (forall x, x < n -> x <> i -> ps h x = u \/ (ps h x < h_size h /\ hp h (ps h x) = x)).
  Definition cont (h : heap) : Prop :=
    dims h /\ (forall q, q < h_size h -> hp h q < n /\ ps h (hp h q) = q) /\
    (forall x, x < n -> ps h x = u \/ (ps h x < h_size h /\ hp h (ps h x) = x)).
  (** the same while position [p] is being filled with item [k], and item [i] is leaving *)
  Definition hole (h : heap) (p k i : nat) : Prop :=
    dims h /\ p < h_size h /\ k < n /\
    (forall q, q < h_size h -> q <> p -> hp h q < n /\ ps h (hp h q) = q /\ hp h q <> k /\ hp h q <> i) /\
    (forall x, x < n -> x <> k -> x <> i -> ps h x = u \/ (ps h x < h_size h /\ ps h x <> p /\ hp h (ps h x) = x)).
  Definition mem (h : heap) (x : nat) : bool := negb (ps h x =? u).
  Definition hkey (h : heap) (x : nat) : nat := ky h x.

  Lemma hput_ok h p i : dims h -> p < u -> i < n -> hput h p i = Some (mk_heap (h_key h) (h_size h) (upd (h_heap h) p i) (upd (h_pos h) i p)).
  Proof. intros (D1 & D2 & D3 & D4) Hp Hi. unfold hput. rewrite !put_some by lia. auto. Qed.
  (** moving item x from position c into the hole *)
  Lemma hole_move h p k i c : hole h p k i -> c < h_size h -> c <> p ->
    exists h', hput h p (hp h c) = Some h' /\ hole h' c k i /\ h_key h' = h_key h /\ h_size h' = h_size h /\
      (forall q, hp h' q = if q =? p then hp h c else hp h q) /\
      (forall x, x < n -> x <> k -> x <> i -> mem h' x = mem h x).
  Proof.
    intros (D & Hp & Hk & HQ & HX) Hc Hcp. pose proof D as (D1 & D2 & D3 & D4).
    destruct (HQ c Hc Hcp) as (C1 & C2 & C3 & C4). rewrite hput_ok by (auto; lia). eexists. split; [reflexivity|].
    cbn [h_key h_size h_heap h_pos].
    assert (Eh : forall q, nth q (upd (h_heap h) p (hp h c)) 0 = if q =? p then hp h c else hp h q) by (intros q; apply nth_upd; lia).
    assert (Ep : forall x, nth x (upd (h_pos h) (hp h c) p) u = if x =? hp h c then p else ps h x) by (intros x; apply nth_upd; lia).
    split; [|split; [auto|split; [auto|split; auto]]].
    - split; [repeat split; cbn [h_key h_heap h_pos h_size]; rewrite ?upd_length; auto|]. split; [auto|]. split; auto. cbn [h_size h_heap h_pos]. split.
      + intros q Hq Hqc. rewrite !Eh, !Ep. destruct (q =? p) eqn:Z.
        * apply Nat.eqb_eq in Z. subst q. rewrite Nat.eqb_refl. auto.
        * destruct (HQ q Hq ltac:(lia)) as (Q1 & Q2 & Q3 & Q4). replace (hp h q =? hp h c) with false; auto.
          symmetry. apply Nat.eqb_neq. intros E. apply Hqc. rewrite <- Q2, <- C2, E. auto.
      + intros x Hx Xk Xi. rewrite !Ep. destruct (x =? hp h c) eqn:Z.
        * apply Nat.eqb_eq in Z. subst x. right. rewrite Eh, Nat.eqb_refl. auto.
        * destruct (HX x Hx Xk Xi) as [X|(X1 & X2 & X3)]; auto. right. rewrite Eh. replace (ps h x =? p) with false by lia. split; auto. split; auto.
          intros E. rewrite E in X3. lia.
    - intros x Hx Xk Xi. unfold mem. cbn [h_pos]. rewrite Ep. destruct (x =? hp h c) eqn:Z; auto. apply Nat.eqb_eq in Z. subst x.
      rewrite C2. lia.
  Qed.
  (** the end of the loop *)
  Lemma hole_fill h p k i : hole h p k i ->
    exists h', hput h p k = Some h' /\ (k <> i -> cont' h' i) /\ (k = i -> cont h') /\ h_key h' = h_key h /\ h_size h' = h_size h /\
      (forall q, hp h' q = if q =? p then k else hp h q) /\ mem h' k = true /\
      (forall x, x < n -> x <> k -> x <> i -> mem h' x = mem h x) /\ (ps h' k = p) /\ h_undef h' = h_undef h.
  Proof.
    intros (D & Hp & Hk & HQ & HX). pose proof D as (D1 & D2 & D3 & D4). rewrite hput_ok by (auto; lia). eexists. split; [reflexivity|].
    cbn [h_key h_size h_heap h_pos].
    assert (Eh : forall q, nth q (upd (h_heap h) p k) 0 = if q =? p then k else hp h q) by (intros q; apply nth_upd; lia).
    assert (Ep : forall x, nth x (upd (h_pos h) k p) u = if x =? k then p else ps h x) by (intros x; apply nth_upd; lia).
    assert (DD : dims (mk_heap (h_key h) (h_size h) (upd (h_heap h) p k) (upd (h_pos h) k p))) by (repeat split; cbn; rewrite ?upd_length; auto).
    assert (C1 : forall q, q < h_size h -> (if q =? p then k else hp h q) < n /\ (if (if q =? p then k else hp h q) =? k then p else ps h (if q =? p then k else hp h q)) = q /\ (k <> i -> (if q =? p then k else hp h q) <> i)).
    { intros q Hq. destruct (q =? p) eqn:Z; [rewrite Nat.eqb_refl; split; auto; split; [lia|auto]|].
      destruct (HQ q Hq ltac:(lia)) as (Q1 & Q2 & Q3 & Q4). replace (hp h q =? k) with false by lia. auto. }
    assert (C2 : forall x, x < n -> (x <> i \/ k = i) -> (if x =? k then p else ps h x) = u \/ ((if x =? k then p else ps h x) < h_size h /\ (if (if x =? k then p else ps h x) =? p then k else hp h (if x =? k then p else ps h x)) = x)).
    { intros x Hx Hxi. destruct (x =? k) eqn:Z.
      - apply Nat.eqb_eq in Z. subst. right. rewrite Nat.eqb_refl. auto.
      - destruct (HX x Hx ltac:(lia) ltac:(lia)) as [X|(X1 & X2 & X3)]; auto. right. replace (ps h x =? p) with false by lia. auto. }
    split; [|split; [|split; [auto|split; [auto|split; [auto|split; [|split; [|split]]]]]]].
    - intros Hki. split; auto. cbn [h_size h_heap h_pos]. split.
      + intros q Hq. rewrite !Eh, !Ep. destruct (C1 q Hq) as (X1 & X2 & X3). auto.
      + intros x Hx Xi. rewrite !Ep, !Eh. auto.
    - intros Hki. split; auto. cbn [h_size h_heap h_pos]. split.
      + intros q Hq. rewrite !Eh, !Ep. destruct (C1 q Hq) as (X1 & X2 & X3). auto.
      + intros x Hx. rewrite !Ep, !Eh. auto.
    - unfold mem. cbn [h_pos]. rewrite Ep, Nat.eqb_refl. lia.
    - intros x Hx X1 X2. unfold mem. cbn [h_pos]. rewrite Ep. replace (x =? k) with false by lia. auto.
    - rewrite Ep, Nat.eqb_refl. auto.
    - unfold h_undef. cbn [h_heap]. apply upd_length.
  Qed.

  (** ** order *)
  Definition ordered (h : heap) : Prop :=
    forall q, 0 < q < h_size h -> ky h (hp h q) <= ky h (hp h (parent q)).
  Definition vk (h : heap) (p k q : nat) : nat := ky h (if q =? p then k else hp h q).
  (** only the edges below the hole may be wrong *)
  Definition ord_down (h : heap) (p k : nat) : Prop :=
    (forall q, 0 < q < h_size h -> parent q <> p -> vk h p k q <= vk h p k (parent q)) /\
    (forall q, 0 < q < h_size h -> parent q = p -> 0 < p -> vk h p k q <= vk h p k (parent p)).
  (** only the edge above the hole may be wrong *)
  Definition ord_up (h : heap) (p k : nat) : Prop :=
    (forall q, 0 < q < h_size h -> q <> p -> vk h p k q <= vk h p k (parent q)) /\
    (forall q, 0 < q < h_size h -> parent q = p -> 0 < p -> vk h p k q <= vk h p k (parent p)).

  Definition result (h h' : heap) (k i : nat) : Prop :=
    (k <> i -> cont' h' i) /\ (k = i -> cont h') /\ h_key h' = h_key h /\ h_size h' = h_size h /\
    mem h' k = true /\ (forall x, x < n -> x <> k -> x <> i -> mem h' x = mem h x) /\ h_undef h' = h_undef h.

  Lemma child_key_ok h p k i c : hole h p k i -> c <> p ->
    child_key h c = Some (if c <? h_size h then ky h (hp h c) else 0).
  Proof.
    intros (D & Hp & Hk & HQ & HX) Hc. destruct D as (D1 & D2 & D3 & D4). unfold child_key. destruct (c <? h_size h) eqn:E; auto.
    rewrite (nth_error_nth' _ 0) by lia. cbn [obind]. apply nth_error_nth'. destruct (HQ c ltac:(lia) Hc). lia.
  Qed.
  Lemma sift_down_ok fuel : forall h p k i, hole h p k i -> 1 <= ky h k -> h_size h + 1 <= p + fuel ->
    exists h', sift_down fuel h p k (ky h k) = Some h' /\ result h h' k i /\ (ord_down h p k -> ordered h').
  Proof.
    induction fuel as [|fuel IH]; intros h p k i H K F.
    - destruct H as (_ & Hp & _). lia.
    - cbn [sift_down]. pose proof H as (D & Hp & Hk & HQ & HX). destruct (lc_gt p) as (L1 & L2 & L3).
      rewrite (child_key_ok h p k i (lc p)), (child_key_ok h p k i (rc p)) by (auto; lia). cbn [obind].
      set (a := if lc p <? h_size h then _ else 0). set (b := if rc p <? h_size h then _ else 0).
      assert (Move : forall c, c = lc p \/ c = rc p -> c < h_size h -> ky h k <= ky h (hp h c) ->
        (forall d, d = lc p \/ d = rc p -> d < h_size h -> ky h (hp h d) <= ky h (hp h c)) ->
        exists h', (do x <- nth_error (h_heap h) c; do h1 <- hput h p x; sift_down fuel h1 c k (ky h k)) = Some h' /\
          result h h' k i /\ (ord_down h p k -> ordered h')).
      { intros c Cc Hc Kc Mx. destruct D as (D1 & D2 & D3 & D4). rewrite (nth_error_nth' _ 0) by lia. cbn [obind].
        destruct (hole_move h p k i c H Hc ltac:(lia)) as (h1 & -> & H1 & E1 & E2 & E3 & E4). cbn [obind].
        destruct (IH h1 c k i H1) as (h' & X1 & (X2 & X3 & X4 & X5 & X6 & X7 & X8) & X9); [rewrite E1; auto|rewrite E2; lia|].
        rewrite <- E1. exists h'. split; auto. assert (Eu : h_undef h1 = h_undef h).
        { unfold h_undef. destruct H1 as ((_ & Z & _) & _). lia. }
        split.
        - split; [exact X2|]. split; [exact X3|]. split; [congruence|]. split; [congruence|]. split; [exact X6|]. split; [|congruence].
          intros x Hx Xk Xi. rewrite X7 by auto. auto.
        - intros [O1 O2]. apply X9. clear X9.
          assert (Pc : parent c = p) by (destruct Cc as [-> | ->]; [apply parent_lc|apply parent_rc]).
          assert (V1 : forall q, vk h1 c k q = if q =? c then ky h k else if q =? p then ky h (hp h c) else ky h (hp h q)).
          { intros q. unfold vk. rewrite E1, E3. destruct (q =? c); auto. destruct (q =? p); auto. }
          assert (V0 : forall q, q <> p -> vk h p k q = ky h (hp h q)).
          { intros q Hq. unfold vk. replace (q =? p) with false by lia. auto. }
          assert (V0p : vk h p k p = ky h k) by (unfold vk; rewrite Nat.eqb_refl; auto).
          split; rewrite E2.
          + intros q Hq Hpq. rewrite !V1. replace (parent q =? c) with false by lia.
            destruct (q =? c) eqn:Z1.
            * apply Nat.eqb_eq in Z1. subst q. rewrite Pc, Nat.eqb_refl. auto.
            * destruct (q =? p) eqn:Z2.
              -- apply Nat.eqb_eq in Z2. subst q. pose proof (parent_lt p ltac:(lia)). replace (parent p =? p) with false by lia.
                 specialize (O2 c ltac:(lia) Pc ltac:(lia)). rewrite !V0 in O2 by lia. auto.
              -- destruct (parent q =? p) eqn:Z3.
                 ++ apply Nat.eqb_eq in Z3. apply Mx; [|lia]. apply parent_child; auto. lia.
                 ++ specialize (O1 q Hq ltac:(lia)). rewrite !V0 in O1 by lia. auto.
          + intros q Hq Pq Cp. pose proof (parent_lt q ltac:(lia)). rewrite Pc. rewrite !V1. replace (q =? c) with false by lia. replace (q =? p) with false by lia.
            rewrite Nat.eqb_refl. replace (p =? c) with false by lia. specialize (O1 q Hq ltac:(lia)). rewrite Pq in O1. rewrite !V0 in O1 by lia. auto. }
      unfold choose.
      assert (Fin : a <= ky h k -> b <= ky h k -> exists h', hput h p k = Some h' /\ result h h' k i /\ (ord_down h p k -> ordered h')).
      { intros Ha Hb. destruct (hole_fill h p k i H) as (h' & -> & X1 & X2 & X3 & X4 & X5 & X6 & X7 & X8 & X9). exists h'. split; auto. split; [unfold result; auto 10|].
        intros [O1 O2] q Hq. rewrite X4 in Hq. rewrite X3, !X5. destruct (Nat.eq_dec (parent q) p) as [Pq|Pq].
        - rewrite Pq, Nat.eqb_refl. pose proof (parent_lt q ltac:(lia)). replace (q =? p) with false by lia.
          destruct (parent_child q p ltac:(lia) Pq) as [-> | ->].
          + unfold a in Ha. replace (lc p <? h_size h) with true in Ha by lia. auto.
          + unfold b in Hb. replace (rc p <? h_size h) with true in Hb by lia. auto.
        - apply (O1 q Hq Pq). }
      assert (A0 : h_size h <= lc p -> a = 0) by (intros X; unfold a; replace (lc p <? h_size h) with false by lia; auto).
      assert (B0 : h_size h <= rc p -> b = 0) by (intros X; unfold b; replace (rc p <? h_size h) with false by lia; auto).
      assert (A1 : lc p < h_size h -> a = ky h (hp h (lc p))) by (intros X; unfold a; replace (lc p <? h_size h) with true by lia; auto).
      assert (B1 : rc p < h_size h -> b = ky h (hp h (rc p))) by (intros X; unfold b; replace (rc p <? h_size h) with true by lia; auto).
      clearbody a b.
      assert (ML : ky h k <= a -> 1 <= a -> b <= a -> exists h', (do x <- nth_error (h_heap h) (lc p); do h1 <- hput h p x; sift_down fuel h1 (lc p) k (ky h k)) = Some h' /\
          result h h' k i /\ (ord_down h p k -> ordered h')).
      { intros Y1 Y2 Y3. destruct (le_lt_dec (h_size h) (lc p)) as [Y|Y]; [specialize (A0 Y); lia|]. specialize (A1 Y).
        apply Move; auto; [lia|]. intros d [-> | ->] Hd; [lia|]. specialize (B1 Hd). lia. }
      assert (MR : ky h k <= b -> 1 <= b -> a <= b -> exists h', (do x <- nth_error (h_heap h) (rc p); do h1 <- hput h p x; sift_down fuel h1 (rc p) k (ky h k)) = Some h' /\
          result h h' k i /\ (ord_down h p k -> ordered h')).
      { intros Y1 Y2 Y3. destruct (le_lt_dec (h_size h) (rc p)) as [Y|Y]; [specialize (B0 Y); lia|]. specialize (B1 Y).
        apply Move; auto; [lia|]. intros d [-> | ->] Hd; [|lia]. specialize (A1 Hd). lia. }
      replace (lc p <? rc p) with true by lia. clear Move A0 B0 A1 B1 IH.
      destruct (ky h k <? a) eqn:E1, (ky h k <? b) eqn:E2; cbn [andb].
      + destruct (b <? a) eqn:E3; cbv zeta; [apply ML|apply MR]; lia.
      + apply ML; lia.
      + apply MR; lia.
      + destruct (ky h k =? a) eqn:E3, (ky h k =? b) eqn:E4; cbn [andb].
        * apply ML; lia.
        * destruct (lc p <? k); [apply ML; lia|apply Fin; lia].
        * destruct (rc p <? k); [apply MR; lia|apply Fin; lia].
        * apply Fin; lia.
  Qed.

  Lemma sift_up_ok fuel : forall h p i, hole h p i i -> p < fuel -> exists h' p', sift_up fuel h p (ky h i) = Some (h', p') /\ hole h' p' i i /\
      h_key h' = h_key h /\ h_size h' = h_size h /\ (forall x, x < n -> x <> i -> mem h' x = mem h x) /\
      (ord_up h p i -> ord_up h' p' i /\ (0 < p' -> vk h' p' i p' <= vk h' p' i (parent p'))).
  Proof.
    induction fuel as [|fuel IH]; intros h p i H F; [lia|]. cbn [sift_up]. destruct p as [|p0].
    - exists h, 0. split; [auto|]. split; [auto|]. split; [auto|]. split; [auto|]. split; [auto|]. intros O. split; [auto|lia].
    - set (p := S p0) in *. pose proof (parent_lt p ltac:(lia)) as PL. pose proof H as (D & Hp & Hi & HQ & HX). pose proof D as (D1 & D2 & D3 & D4).
      rewrite (nth_error_nth' _ 0) by lia. cbn [obind]. destruct (HQ (parent p) ltac:(lia) ltac:(lia)) as (Q1 & Q2 & Q3 & Q4).
      rewrite (nth_error_nth' _ 0) by lia. cbn [obind]. destruct (ky h (hp h (parent p)) <? ky h i) eqn:E.
      + destruct (hole_move h p i i (parent p) H ltac:(lia) ltac:(lia)) as (h1 & -> & H1 & E1 & E2 & E3 & E4). cbn [obind].
        destruct (IH h1 (parent p) i H1 ltac:(lia)) as (h' & p' & X1 & X2 & X3 & X4 & X5 & X6). rewrite <- E1. exists h', p'. split; auto. split; auto.
        split; [congruence|]. split; [congruence|]. split; [intros x Hx Hxi; rewrite X5 by auto; auto|]. intros [O1 O2]. apply X6.
        assert (V1 : forall q, vk h1 (parent p) i q = if q =? parent p then ky h i else if q =? p then ky h (hp h (parent p)) else ky h (hp h q)).
        { intros q. unfold vk. rewrite E1, E3. destruct (q =? parent p); auto. destruct (q =? p); auto. }
        assert (V0 : forall q, q <> p -> vk h p i q = ky h (hp h q)).
        { intros q Hq. unfold vk. replace (q =? p) with false by lia. auto. }
        split; rewrite E2.
        * intros q Hq Hqp. rewrite !V1. replace (q =? parent p) with false by lia. pose proof (parent_lt q ltac:(lia)).
          destruct (q =? p) eqn:Z1.
          -- apply Nat.eqb_eq in Z1. subst q. rewrite Nat.eqb_refl. lia.
          -- specialize (O1 q Hq ltac:(lia)). destruct (parent q =? parent p) eqn:Z2.
             ++ apply Nat.eqb_eq in Z2. rewrite Z2 in O1. rewrite !V0 in O1 by lia. lia.
             ++ destruct (parent q =? p) eqn:Z3.
                ** apply Nat.eqb_eq in Z3. specialize (O2 q Hq Z3 ltac:(lia)). rewrite !V0 in O2 by lia. auto.
                ** rewrite !V0 in O1 by lia. auto.
        * intros q Hq Pq Pp. pose proof (parent_lt (parent p) Pp). rewrite !V1. pose proof (parent_lt q ltac:(lia)).
          replace (q =? parent p) with false by lia. replace (parent (parent p) =? parent p) with false by lia. replace (parent (parent p) =? p) with false by lia.
          pose proof (O1 (parent p) ltac:(lia) ltac:(lia)) as Y. rewrite !V0 in Y by lia.
          destruct (q =? p) eqn:Z1; [auto|]. specialize (O1 q Hq ltac:(lia)). rewrite Pq in O1. rewrite !V0 in O1 by lia. lia.
      + exists h, p. split; [auto|]. split; [auto|]. split; [auto|]. split; [auto|]. split; [auto|]. intros O. split; [auto|]. intros _. unfold vk.
        rewrite Nat.eqb_refl. replace (parent p =? p) with false by lia. lia.
  Qed.

  (** ** operations *)
  Lemma in_heap h i : cont h -> i < n -> mem h i = true -> ps h i < h_size h /\ hp h (ps h i) = i /\ ps h i <> u.
  Proof. intros (D & C1 & C2) Hi M. unfold mem in M. destruct (C2 i Hi) as [X|[X1 X2]]; [lia|]. split; auto. split; auto. lia. Qed.
  Lemma top_max h : cont h -> ordered h -> forall q, q < h_size h -> ky h (hp h q) <= ky h (hp h 0).
  Proof.
    intros C O q. induction q as [q IH] using lt_wf_ind. intros Hq. destruct (Nat.eq_dec q 0) as [->|]; auto.
    pose proof (parent_lt q ltac:(lia)). specialize (O q ltac:(lia)). specialize (IH (parent q) ltac:(lia) ltac:(lia)). lia.
  Qed.
  Lemma size_mem h : cont h -> h_size h = length (filter (mem h) (seq 0 n)).
  Proof.
    intros (D & C1 & C2). destruct D as (D1 & D2 & D3 & D4). rewrite <- (seq_length (h_size h) 0) at 1. rewrite <- (map_length (fun q => hp h q)).
    apply Permutation_length, NoDup_Permutation.
    - assert (X : forall s m, s + m <= h_size h -> NoDup (map (fun q => hp h q) (seq s m))).
      { intros s m. revert s. induction m as [|m IH]; intros s Hs; simpl; constructor; [|apply IH; lia].
        rewrite in_map_iff. intros (q & E & Hq). apply in_seq in Hq. destruct (C1 q ltac:(lia)) as [_ P1]. destruct (C1 s ltac:(lia)) as [_ P2].
        rewrite E in P1. lia. }
      apply X. lia.
    - apply NoDup_filter, seq_NoDup.
    - intros x. rewrite in_map_iff, filter_In, in_seq. split.
      + intros (q & <- & Hq). apply in_seq in Hq. destruct (C1 q ltac:(lia)) as [P1 P2]. split; [lia|]. unfold mem. rewrite P2. lia.
      + intros [Hx M]. unfold mem in M. destruct (C2 x ltac:(lia)) as [X|[X1 X2]]; [lia|]. exists (ps h x). split; auto. apply in_seq. lia.
  Qed.

  Lemma insert_ok h i : cont h -> i < n -> mem h i = false -> h_size h < u ->
    exists h', heap_insert h i = Some h' /\ cont h' /\ h_key h' = h_key h /\
      (forall x, x < n -> mem h' x = (x =? i) || mem h x) /\ (ordered h -> ordered h').
  Proof.
    intros (D & C1 & C2) Hi M Hs. pose proof D as (D1 & D2 & D3 & D4). unfold heap_insert. rewrite (nth_error_nth' _ 0) by lia. cbn [obind].
    set (h0 := mk_heap (h_key h) (h_size h + 1) (h_heap h) (h_pos h)).
    assert (Pi : ps h i = u) by (unfold mem in M; lia).
    assert (H0 : hole h0 (h_size h) i i).
    { split; [repeat split; cbn; auto; lia|]. cbn. split; [lia|]. split; auto. split.
      - intros q Hq Hne. destruct (C1 q ltac:(lia)) as [P1 P2]. split; auto. split; auto.
        assert (hp h q <> i) by (intros E; rewrite E in P2; lia). auto.
      - intros x Hx X1 X2. destruct (C2 x Hx) as [X|[X3 X4]]; auto. right. split; [lia|]. split; [lia|auto]. }
    destruct (sift_up_ok (h_size h + 1) h0 (h_size h) i H0 ltac:(lia)) as (h1 & p1 & X1 & X2 & X3 & X4 & X5 & X6).
    unfold h0 at 2 in X1. cbn [h_key] in X1. rewrite X1. cbn [obind fst snd].
    destruct (hole_fill h1 p1 i i X2) as (h' & Y0 & Y1 & Y2 & Y3 & Y4 & Y5 & Y6 & Y7 & Y8 & Y9). rewrite Y0. exists h'. split; auto.
    split; auto. split; [rewrite Y3, X3; auto|]. split.
    - intros x Hx. destruct (x =? i) eqn:Z; [apply Nat.eqb_eq in Z; subst; auto|]. rewrite Y7, X5 by lia. auto.
    - intros O. assert (OU : ord_up h0 (h_size h) i).
      { split.
        - intros q Hq Hne. unfold h0 in Hq. cbn in Hq. pose proof (parent_lt q ltac:(lia)). unfold vk. replace (q =? h_size h) with false by lia. replace (parent q =? h_size h) with false by lia.
          apply (O q). lia.
        - intros q Hq Pq. unfold h0 in Hq. cbn in Hq. pose proof (parent_lt q ltac:(lia)). lia. }
      destruct (X6 OU) as [[O1 O2] O3]. intros q Hq. rewrite Y3, !Y5. rewrite Y4 in Hq. change (vk h1 p1 i q <= vk h1 p1 i (parent q)).
      destruct (Nat.eq_dec q p1) as [->|]; [apply O3; lia|]. apply O1; auto.
  Qed.

  Lemma remove_ok h i : cont h -> i < n -> mem h i = true -> (forall x, x < n -> mem h x = true -> 1 <= ky h x) ->
    exists h', heap_remove h i = Some h' /\ cont h' /\ h_key h' = h_key h /\
      (forall x, x < n -> mem h' x = mem h x && negb (x =? i)) /\
      (ordered h -> (ps h i = 0 \/ ky h (hp h (h_size h - 1)) <= ky h i) -> ordered h').
  Proof.
    intros C Hi M K. pose proof C as (D & C1 & C2). pose proof D as (D1 & D2 & D3 & D4). destruct (in_heap h i C Hi M) as (P1 & P2 & P3).
    set (p := ps h i) in *. unfold heap_remove. rewrite (nth_error_nth' _ u) by lia. cbn [obind]. fold p. unfold h_undef at 1. rewrite D2.
    replace (p =? u) with false by lia.
    assert (Es : slot (h_size h) = Some (h_size h - 1)) by (unfold slot; destruct (h_size h); [lia|f_equal; lia]). rewrite Es. cbn [obind].
    set (s := h_size h - 1) in *. rewrite (nth_error_nth' _ 0) by lia. cbn [obind]. set (k := hp h s) in *.
    destruct (C1 s ltac:(lia)) as [K1 K2]. fold k in K1, K2.
    assert (Mk : mem h k = true) by (unfold mem; rewrite K2; lia). pose proof (K k K1 Mk) as Kk.
    set (h0 := mk_heap (h_key h) s (h_heap h) (h_pos h)). unfold perlocate_down. cbn [h_key h0]. rewrite (nth_error_nth' _ 0) by (cbn; lia). cbn [obind].
    assert (Lf : h_size h0 = s) by reflexivity.
    destruct (Nat.eq_dec p s) as [Eps|Nps].
    - (* the last element itself *)
      assert (Ek : k = i) by (unfold k; rewrite <- Eps; auto).
      replace (h_size h0 + 1) with (S s) by (cbn; lia). cbn [sift_down]. destruct (lc_gt p) as (L1 & L2 & L3).
      unfold child_key. cbn [h_size h0]. replace (lc p <? s) with false by lia. replace (rc p <? s) with false by lia. cbn [obind].
      unfold choose. replace (ky h k <? 0) with false by lia. cbn [andb]. replace (ky h k =? 0) with false by lia. cbn [andb].
      rewrite hput_ok by (try (repeat split; cbn; auto; lia); lia). cbn [obind h_pos h_key h_size h_heap h0].
      rewrite put_some by (rewrite upd_length; lia). eexists. split; [reflexivity|]. cbn [obind h_pos h_key h_size h_heap].
      unfold h_undef. cbn [h_heap]. rewrite upd_length, D2. rewrite <- Ek in *.
      assert (Eh : forall q, q < s -> nth q (upd (h_heap h) p k) 0 = hp h q) by (intros q Hq; apply nth_upd_ne; lia).
      assert (Ep : forall x, nth x (upd (upd (h_pos h) k p) k u) u = if x =? k then u else ps h x).
      { intros x. rewrite !nth_upd by (rewrite ?upd_length; lia). destruct (x =? k); auto. }
      split; [|split; [auto|split]].
      + split; [repeat split; cbn; rewrite ?upd_length; auto; lia|]. cbn. split.
        * intros q Hq. rewrite Eh by auto. destruct (C1 q ltac:(lia)) as [Q1 Q2]. split; auto. rewrite Ep. replace (hp h q =? k) with false; auto.
          symmetry. apply Nat.eqb_neq. intros E. rewrite E in Q2. lia.
        * intros x Hx. rewrite Ep. destruct (x =? k) eqn:Z; auto. destruct (C2 x Hx) as [X|[X1 X2]]; auto. right.
          assert (ps h x <> s). { intros E. rewrite E in X2. fold k in X2. lia. } rewrite Eh by lia. split; [lia|auto].
      + intros x Hx. unfold mem. cbn [h_pos]. rewrite Ep. destruct (x =? k); simpl; [rewrite Nat.eqb_refl, andb_false_r; auto|rewrite andb_true_r; auto].
      + intros O _ q Hq. cbn [h_size h_heap h_key] in *. pose proof (parent_lt q ltac:(lia)). rewrite !Eh by lia. apply O. lia.
    - assert (Nki : k <> i). { intros E. apply Nps. unfold p. rewrite <- E, K2. auto. }
      assert (H0 : hole h0 p k i).
      { split; [repeat split; cbn; auto; lia|]. cbn. split; [lia|]. split; auto. split.
        - intros q Hq Hne. destruct (C1 q ltac:(lia)) as [Q1 Q2]. split; auto. split; auto. split; intros E; rewrite E in Q2; lia.
        - intros x Hx X1 X2. destruct (C2 x Hx) as [X|[X3 X4]]; auto. right.
          assert (ps h x <> s) by (intros E; rewrite E in X4; fold k in X4; lia).
          assert (ps h x <> p) by (intros E; rewrite E in X4; lia). split; [lia|]. auto. }
      destruct (sift_down_ok (h_size h0 + 1) h0 p k i H0 Kk ltac:(lia)) as (h1 & X1 & (X2 & X3 & X4 & X5 & X6 & X7 & X8) & X9).
      change (nth k (h_key h0) 0) with (nth k (h_key h) 0) in X1. rewrite X1. cbn [obind].
      specialize (X2 Nki). destruct X2 as (E & E1 & E2). pose proof E as (F1 & F2 & F3 & F4). unfold h_undef. rewrite F2.
      rewrite put_some by lia. eexists. split; [reflexivity|]. cbn [h_key h_pos h_heap h_size].
      assert (Ep : forall x, nth x (upd (h_pos h1) i u) u = if x =? i then u else ps h1 x) by (intros x; apply nth_upd; lia).
      split; [|split; [auto|split]].
      + split; [repeat split; cbn; rewrite ?upd_length; auto|]. cbn [h_pos h_heap h_size]. split.
        * intros q Hq. destruct (E1 q Hq) as (Q1 & Q2 & Q3). rewrite Ep. replace (hp h1 q =? i) with false by lia. auto.
        * intros x Hx. rewrite Ep. destruct (x =? i) eqn:Z; auto. apply E2; auto. lia.
      + intros x Hx. unfold mem. cbn [h_pos]. rewrite Ep. destruct (x =? i) eqn:Z; simpl; [rewrite Nat.eqb_refl, andb_false_r; auto|rewrite andb_true_r].
        change (mem h1 x = mem h x). destruct (Nat.eq_dec x k) as [->|]; [congruence|]. apply X7; auto. lia.
      + intros O Cnd q Hq. cbn [h_size h_heap h_key] in *. apply X9; auto. split.
        * intros q' Hq' Pq'. cbn in Hq'. pose proof (parent_lt q' ltac:(lia)). unfold vk. cbn. replace (parent q' =? p) with false by lia.
          destruct (q' =? p) eqn:Z; [|apply O; lia]. apply Nat.eqb_eq in Z. subst q'. destruct Cnd as [Cnd|Cnd]; [lia|].
          specialize (O p ltac:(lia)). rewrite P2 in O. eapply Nat.le_trans; [exact Cnd|exact O].
        * intros q' Hq' Pq' Pp. cbn in Hq'. pose proof (parent_lt q' ltac:(lia)). pose proof (parent_lt p Pp). unfold vk. cbn.
          replace (q' =? p) with false by lia. replace (parent p =? p) with false by lia.
          pose proof (O q' ltac:(lia)) as Y1. pose proof (O p ltac:(lia)) as Y2. rewrite Pq' in Y1. lia.
  Qed.

  Lemma decrease_ok h i v : cont h -> i < n -> mem h i = true -> 1 <= v ->
    exists h', heap_decrease h i v = Some h' /\ cont h' /\ (forall x, x < n -> ky h' x = if x =? i then v else ky h x) /\
      (forall x, x < n -> mem h' x = mem h x) /\ (ordered h -> v <= ky h i -> ordered h').
  Proof.
    intros C Hi M Hv. pose proof C as (D & C1 & C2). pose proof D as (D1 & D2 & D3 & D4). destruct (in_heap h i C Hi M) as (P1 & P2 & P3).
    set (p := ps h i) in *. unfold heap_decrease. rewrite put_some by lia. cbn [obind]. set (h0 := mk_heap (upd (h_key h) i v) (h_size h) (h_heap h) (h_pos h)).
    cbn [h_pos h0]. rewrite (nth_error_nth' _ u) by lia. cbn [obind]. fold p. unfold h_undef. cbn [h_heap h0]. rewrite D2. replace (p =? u) with false by lia.
    assert (Ek : forall x, ky h0 x = if x =? i then v else ky h x) by (intros x; apply nth_upd; lia).
    assert (H0 : hole h0 p i i).
    { split; [repeat split; cbn; rewrite ?upd_length; auto|]. cbn. split; [lia|]. split; auto. split.
      - intros q Hq Hne. destruct (C1 q ltac:(lia)) as [Q1 Q2]. split; auto. split; auto. assert (hp h q <> i) by (intros E; rewrite E in Q2; fold p in Q2; lia). auto.
      - intros x Hx X1 _. destruct (C2 x Hx) as [X|[X3 X4]]; auto. right. split; auto. split; auto. intros E. rewrite E in X4. lia. }
    unfold perlocate_down. rewrite (nth_error_nth' _ 0) by (cbn; rewrite upd_length; lia). cbn [obind].
    pose proof (Ek i) as Eki. rewrite Nat.eqb_refl in Eki.
    destruct (sift_down_ok (h_size h0 + 1) h0 p i i H0 ltac:(lia) ltac:(cbn; lia)) as (h1 & -> & (X2 & X3 & X4 & X5 & X6 & X7 & X8) & X9).
    exists h1. split; auto. split; auto. split; [intros x Hx; rewrite X4; apply Ek|]. split.
    - intros x Hx. destruct (Nat.eq_dec x i) as [->|]; [congruence|]. rewrite X7 by auto. auto.
    - intros O Hle. apply X9. assert (Ko : forall x, x <> i -> ky h0 x = ky h x) by (intros x Hx; rewrite Ek; replace (x =? i) with false by lia; auto).
      assert (Nh : forall q, q < h_size h -> q <> p -> hp h q <> i). { intros q Hq Hne E. destruct (C1 q Hq) as [_ Q]. rewrite E in Q. fold p in Q. lia. }
      split; intros q Hq Pq; cbn in Hq; pose proof (parent_lt q ltac:(lia)); pose proof (O q ltac:(lia)) as Oq; unfold vk; cbn [h_heap h0].
      + replace (parent q =? p) with false by lia. change (upd (h_key h) i v) with (h_key h0). rewrite (Ko (hp h (parent q))) by (apply Nh; lia).
        destruct (q =? p) eqn:Z.
        * apply Nat.eqb_eq in Z. subst q. rewrite P2 in Oq. rewrite Eki. lia.
        * rewrite Ko by (apply Nh; lia). auto.
      + intros Pp. pose proof (parent_lt p Pp). replace (q =? p) with false by lia. replace (parent p =? p) with false by lia.
        change (upd (h_key h) i v) with (h_key h0). rewrite !Ko by (apply Nh; lia). pose proof (O p ltac:(lia)). rewrite Pq in Oq. lia.
  Qed.
End Heap.

(** ** the heap as a queue: contents *)
Definition h_ok (n u : nat) (h : heap) : Prop :=
  cont n u h /\ forall x, x < n -> mem u h x = true -> 1 <= hkey h x.
Lemma heap_bag n u : bag_queue heap_ops n (h_ok n u) (mem u) hkey.
Proof.
  split; [|split; [|split; [|split]]]; cbn [heap_ops q_size q_top q_has q_key q_remove q_decrease].
  - intros h r ((D & _) & _) Hr. destruct D as (D1 & D2 & D3 & D4). rewrite (nth_error_nth' (h_pos h) u) by lia. cbn [obind].
    unfold h_undef. rewrite D2. split; auto. apply nth_error_nth'. lia.
  - intros h (C & _). apply size_mem; auto.
  - intros h (C & _) Hne. pose proof C as (D & C1 & C2). destruct D as (D1 & D2 & D3 & D4). exists (nth 0 (h_heap h) 0).
    destruct (C1 0 ltac:(lia)) as [A B]. split; [apply nth_error_nth'; lia|]. split; auto. unfold mem. rewrite B. lia.
  - intros h i (C & K) Hi M. destruct (remove_ok n u h i C Hi M K) as (h' & E & C' & Ek & Em & _). exists h'. split; auto. split.
    + split; auto. intros x Hx X. unfold hkey in *. rewrite Ek. apply K; auto. rewrite Em in X by auto. apply andb_prop in X. tauto.
    + intros r Hr. split; auto. unfold hkey. rewrite Ek. auto.
  - intros h i v (C & K) Hi M Hv. destruct (decrease_ok n u h i v C Hi M ltac:(lia)) as (h' & E & C' & Ek & Em & _). exists h'. split; auto. split.
    + split; auto. intros x Hx X. unfold hkey in *. rewrite Ek by auto. destruct (x =? i); [lia|]. apply K; auto. rewrite Em in X by auto. auto.
    + intros r Hr. split; auto. apply Ek; auto.
Qed.
Lemma heap_new_ok key u : cont (length key) u (heap_new key u) /\ (forall x, mem u (heap_new key u) x = false) /\ ordered (heap_new key u).
Proof.
  unfold heap_new. split; [|split].
  - split; [repeat split; cbn; rewrite ?repeat_length; auto; lia|]. cbn [h_size h_pos h_heap]. split; [lia|].
    intros x Hx. left. rewrite nth_repeat. auto.
  - intros x. unfold mem. cbn [h_pos]. rewrite nth_repeat, Nat.eqb_refl. auto.
  - intros q Hq. cbn in Hq. lia.
Qed.
Lemma heap_fill_ok n u thr m : 1 <= thr -> forall h i, h_ok n u h -> i + m = n -> h_size h + length (filter (fun v => thr <=? v) (skipn i (h_key h))) <= u ->
  (forall x, i <= x < n -> mem u h x = false) ->
  exists h', heap_fill h thr i m = Some h' /\ h_ok n u h' /\ h_key h' = h_key h /\
    (forall x, x < n -> mem u h' x = mem u h x || ((i <=? x) && (thr <=? hkey h x))) /\ (ordered h -> ordered h').
Proof.
  intros Ht. induction m as [|m IH]; intros h i H Hm Hu Fr; cbn [heap_fill].
  - exists h. split; auto. split; auto. split; auto. split; auto. intros x Hx. replace (i <=? x) with false by lia. rewrite orb_false_r. auto.
  - pose proof H as (C & K). pose proof C as ((D1 & D2 & D3 & D4) & _). rewrite (nth_error_nth' _ 0) by lia. cbn [obind].
    assert (Sk : skipn i (h_key h) = nth i (h_key h) 0 :: skipn (i + 1) (h_key h)).
    { replace (i + 1) with (S i) by lia. rewrite (skipn_cons_nth (h_key h) i 0) by lia. auto. }
    rewrite Sk in Hu. cbn [filter] in Hu. destruct (thr <=? nth i (h_key h) 0) eqn:E.
    + cbn [length] in Hu. destruct (insert_ok n u h i C ltac:(lia) (Fr i ltac:(lia)) ltac:(lia)) as (h1 & -> & C1 & E1 & M1 & O1). cbn [obind].
      assert (S1 : h_size h1 = h_size h + 1).
      { rewrite (size_mem n u h1 C1), (size_mem n u h C). clear - M1 Fr Hm.
        assert (X : seq 0 n = seq 0 i ++ i :: seq (i + 1) m).
        { replace n with (i + S m) by lia. rewrite seq_app. cbn [seq]. replace (0 + i) with i by lia. replace (S i) with (i + 1) by lia. auto. }
        rewrite X, !filter_app. cbn [filter]. rewrite !app_length.
        rewrite (Fr i) by lia. rewrite M1, Nat.eqb_refl by lia. cbn [orb length].
        rewrite (filter_ext_in (mem u h1) (mem u h) (seq 0 i)).
        2: { intros x Hx. apply in_seq in Hx. rewrite M1 by lia. replace (x =? i) with false by lia. auto. }
        rewrite (filter_ext_in (mem u h1) (mem u h) (seq (i + 1) m)).
        2: { intros x Hx. apply in_seq in Hx. rewrite M1 by lia. replace (x =? i) with false by lia. auto. }
        lia. }
      destruct (IH h1 (i + 1)) as (h' & E' & H' & Ek & Em & O'); try lia.
      { split; auto. intros x Hx X. unfold hkey. rewrite E1. rewrite M1 in X by auto. apply orb_prop in X. destruct X as [X|X].
        - apply Nat.eqb_eq in X. subst. lia.
        - apply K; auto. }
      { rewrite E1. lia. }
      { intros x Hx. rewrite M1 by lia. rewrite Fr by lia. lia. }
      exists h'. split; auto. split; auto. split; [congruence|]. split; [|auto]. intros x Hx. rewrite Em, M1 by auto. unfold hkey. rewrite E1.
      destruct (x =? i) eqn:Z; simpl.
      * apply Nat.eqb_eq in Z. subst. replace (i <=? i) with true by lia. rewrite E, orb_true_r. auto.
      * f_equal. f_equal. lia.
    + cbn [obind]. destruct (IH h (i + 1)) as (h' & E' & H' & Ek & Em & O'); auto; try lia.
      { intros x Hx. apply Fr. lia. }
      exists h'. split; auto. split; auto. split; auto. split; auto. intros x Hx. rewrite Em by auto. f_equal.
      destruct (Nat.eq_dec x i) as [->|]; [|f_equal; lia]. unfold hkey. rewrite E. rewrite !andb_false_r. auto.
Qed.
