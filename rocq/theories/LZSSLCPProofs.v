(** LZSSLCPCompressor finds the longest previous occurrences; boost's heap is a max queue. *)
From Verif Require Import Base LZSS LZSSSpec SASpec SACompProofs Strategies StrategySpec MaxQueues StrategyProofs ArraysProofs.
Local Open Scope nat_scope.

Section LPF.
  Variables (text : list N) (sa isa lcp : list nat).
  Hypothesis Hs : is_sa text sa.
  Hypothesis Ht : terminated text.
  Hypothesis Hi : forall i, i < length text -> nth_error isa (nth i sa 0) = Some i.
  Hypothesis H0 : nth_error lcp 0 = Some 0.
  Hypothesis Hl : forall i, 1 <= i < length text -> nth_error lcp i = Some (lcp_at text (nth (i - 1) sa 0) (nth i sa 0)).
  Notation n := (length text).
  Notation S_ r := (nth r sa 0).
  Notation L a b := (lcp_at text (S_ a) (S_ b)).

  Lemma L_min a b c : a < b -> b < c -> c < n -> L a c = Nat.min (L a b) (L b c).
  Proof. intros A B C. destruct Hs as [_ O]. apply lcp_between; [apply (O a b)|apply (O b c)]; lia. Qed.
  Lemma L_le_left a b c : a <= b -> b < c -> c < n -> L a c <= L b c.
  Proof. intros A B C. destruct (Nat.eq_dec a b) as [->|]; auto. rewrite (L_min a b c) by lia. lia. Qed.
  Lemma L_le_right a b c : a < b -> b <= c -> c < n -> L a c <= L a b.
  Proof. intros A B C. destruct (Nat.eq_dec c b) as [->|]; auto. rewrite (L_min a b c) by lia. lia. Qed.
  Lemma L_sym a b : lcp_at text a b = lcp_at text b a.
  Proof. apply lcp_len_sym. Qed.

  Lemma psv_walk_ok cur x : cur < n -> x = S_ cur -> forall k l, k <= cur -> (k = 0 -> l = 0) -> (1 <= k -> l = L (k - 1) cur) ->
    (forall r, k <= r < cur -> x < S_ r) ->
    exists k' l', psv_walk sa lcp x k l = Some (k', l') /\ (k' = 0 -> l' = 0) /\ (1 <= k' -> k' <= cur /\ l' = L (k' - 1) cur /\ S_ (k' - 1) < x) /\
      (forall r, k' <= r < cur -> x < S_ r).
  Proof.
    intros Hc Ex. induction k as [|p IH]; intros l Hk K0 K1 KR; cbn [psv_walk].
    - exists 0, l. split; auto. split; auto. split; [lia|auto].
    - rewrite (sa_ne text sa Hs) by lia. cbn [obind]. specialize (K1 ltac:(lia)). replace (S p - 1) with p in K1 by lia.
      assert (N : S_ p <> x) by (subst x; intros E; apply (sa_inj text sa Hs) in E; lia).
      destruct (x <? S_ p) eqn:E.
      + destruct (Nat.eq_dec p 0) as [->|Np].
        * rewrite H0. cbn [obind]. apply IH; try lia. intros r Hr. destruct (Nat.eq_dec r 0) as [->|]; [lia|apply KR; lia].
        * rewrite Hl by lia. cbn [obind]. apply IH; try lia.
          -- intros _. subst l. rewrite (L_min (p - 1) p cur) by lia. lia.
          -- intros r Hr. destruct (Nat.eq_dec r p) as [->|]; [lia|apply KR; lia].
      + exists (S p), l. split; auto. split; [lia|]. split; auto. intros _. replace (S p - 1) with p by lia. split; auto. split; auto. lia.
  Qed.
  Lemma nsv_walk_ok cur x : cur < n -> x = S_ cur -> forall m j l, j + m = n -> cur < j ->
    (j < n -> Nat.min l (L (j - 1) j) = L cur j) -> (forall r, cur < r < j -> x < S_ r) ->
    exists j' l', nsv_walk sa lcp x j m l = Some (j', l') /\ (j' = n -> l' = 0) /\ cur < j' <= n /\
      (j' < n -> l' = L cur j' /\ S_ j' < x) /\ (forall r, cur < r < j' -> x < S_ r).
  Proof.
    intros Hc Ex. induction m as [|m IH]; intros j l Hj Hcj Jm JR; cbn [nsv_walk].
    - exists j, 0. split; auto. split; auto. split; [lia|]. split; [lia|auto].
    - rewrite Hl, (sa_ne text sa Hs) by lia. cbn [obind]. specialize (Jm ltac:(lia)). rewrite Jm.
      assert (N : S_ j <> x) by (subst x; intros E; apply (sa_inj text sa Hs) in E; lia).
      destruct (S_ j <? x) eqn:E.
      + exists j, (L cur j). split; auto. split; [lia|]. split; [lia|]. split; auto. intros _. split; auto. lia.
      + apply IH; try lia.
        * intros Hj'. replace (j + 1 - 1) with j by lia. rewrite (L_min cur j (j + 1)) by lia. auto.
        * intros r Hr. destruct (Nat.eq_dec r j) as [->|]; [lia|apply JR; lia].
  Qed.

  Lemma lpf_ok i (k' l' : nat) (j' l'' : nat) cur : i < n - 1 -> cur < n -> i = S_ cur ->
    (forall r, r < cur -> S_ r < i -> L r cur <= l') -> (forall r, cur < r < n -> S_ r < i -> L cur r <= l'') ->
    forall q, q < i -> lcp_at text q i <= Nat.max l' l''.
  Proof.
    intros Hin Hc Ei A B q Hq. destruct (pos_on text sa isa Hs Hi q ltac:(lia)) as (r & Hr & Er & _ & _). subst q.
    destruct (Nat.lt_trichotomy r cur) as [C|[C|C]].
    - specialize (A r C Hq). rewrite Ei. lia.
    - subst r. lia.
    - specialize (B r ltac:(lia) Hq). rewrite Ei, L_sym. lia.
  Qed.
  Variable thr : nat.
  Hypothesis Hthr : 1 <= thr.
  Lemma lzss_lcp_ok fuel : forall i, n - i <= fuel ->
    exists fs, lzss_lcp_loop fuel sa isa lcp thr i = Some fs /\ greedy_parse text thr i fs.
  Proof.
    induction fuel as [|fuel IH]; intros i Hf; cbn [lzss_lcp_loop]; rewrite (len_sa' text sa Hs).
    - replace (i + 1 <? n) with false by lia. eexists; split; eauto. apply greedy_end. lia.
    - destruct (i + 1 <? n) eqn:Ei; [|eexists; split; eauto; apply greedy_end; lia].
      assert (Hp : i < n - 1) by lia. destruct (pos_on text sa isa Hs Hi i ltac:(lia)) as (cur & Hc & E & -> & R). cbn [obind].
      pose proof (rk0 text sa isa Hs Ht Hi i Hp) as R1. rewrite R in R1.
      rewrite (sa_ne text sa Hs) by lia. cbn [obind]. rewrite Hl by lia. cbn [obind]. rewrite E.
      assert (P : exists k l, (if 0 <? lcp_at text (S_ (cur - 1)) i then psv_walk sa lcp i cur (lcp_at text (S_ (cur - 1)) i) else Some (cur, lcp_at text (S_ (cur - 1)) i)) = Some (k, l) /\
        (1 <= l -> 1 <= k <= cur /\ l = L (k - 1) cur /\ S_ (k - 1) < i) /\ (forall r, r < cur -> S_ r < i -> L r cur <= l)).
      { destruct (0 <? lcp_at text (S_ (cur - 1)) i) eqn:Z.
        - destruct (psv_walk_ok cur i Hc (eq_sym E) cur (lcp_at text (S_ (cur - 1)) i)) as (k & l & X1 & X2 & X3 & X4); try lia.
          { rewrite E. auto. }
          exists k, l. split; auto. split.
          + intros Hl1. destruct k; [specialize (X2 eq_refl); lia|]. destruct (X3 ltac:(lia)) as (Y1 & Y2 & Y3). split; [lia|]. auto.
          + intros r Hr Hlt. destruct (le_lt_dec k r) as [Y|Y]; [specialize (X4 r ltac:(lia)); lia|].
            destruct (X3 ltac:(lia)) as (Y1 & Y2 & Y3). rewrite Y2. apply L_le_left; lia.
        - exists cur, (lcp_at text (S_ (cur - 1)) i). split; auto. split; [lia|]. intros r Hr _.
          pose proof (L_le_left r (cur - 1) cur ltac:(lia) ltac:(lia) Hc) as Y. rewrite E in Y. rewrite E. lia. }
      destruct P as (k & l & -> & P1 & P2). cbn [obind fst snd].
      assert (Q : exists j m, nsv_search sa lcp n i cur = Some (j, m) /\ (1 <= m -> cur < j < n /\ m = L cur j /\ S_ j < i) /\
        (forall r, cur < r < n -> S_ r < i -> L cur r <= m)).
      { unfold nsv_search. destruct (cur + 1 <? n) eqn:Z.
        - rewrite Hl by lia. cbn [obind].
          destruct (nsv_walk_ok cur i Hc (eq_sym E) (n - (cur + 1)) (cur + 1) (L (cur + 1 - 1) (cur + 1))) as (j & m & X1 & X2 & X3 & X4 & X5); try lia.
          { intros _. replace (cur + 1 - 1) with cur by lia. lia. }
          exists j, m. split; auto. split.
          + intros Hm. destruct (Nat.eq_dec j n) as [->|]; [specialize (X2 eq_refl); lia|]. destruct (X4 ltac:(lia)). split; [lia|auto].
          + intros r Hr Hlt. destruct (le_lt_dec j r) as [Y|Y]; [|specialize (X5 r ltac:(lia)); lia].
            destruct (X4 ltac:(lia)) as [Y1 Y2]. rewrite Y1. apply L_le_right; lia.
        - exists (cur + 1), 0. split; auto. split; [lia|]. lia. }
      destruct Q as (j & m & -> & Q1 & Q2). cbn [obind fst snd].
      pose proof (lpf_ok i k l j m cur Hp Hc (eq_sym E) P2 Q2) as MX.
      destruct (thr <=? Nat.max l m) eqn:Et.
      + assert (X : exists src, (if Nat.max l m =? l then match k with 0 => None | S p => nth_error sa p end else nth_error sa j) = Some src /\ src < i /\ lcp_at text src i = Nat.max l m).
        { destruct (Nat.max l m =? l) eqn:Z.
          - destruct (P1 ltac:(lia)) as (Y1 & Y2 & Y3). destruct k as [|p]; [lia|]. replace (S p - 1) with p in * by lia.
            rewrite (sa_ne text sa Hs) by lia. eexists. split; [reflexivity|]. split; auto. rewrite E in Y2. lia.
          - destruct (Q1 ltac:(lia)) as (Y1 & Y2 & Y3). rewrite (sa_ne text sa Hs) by lia. eexists. split; [reflexivity|]. split; auto.
            rewrite L_sym. rewrite E in Y2. lia. }
        destruct X as (src & -> & X1 & X2). cbn [obind].
        destruct (IH (i + Nat.max l m) ltac:(lia)) as (fs & -> & G). cbn [obind]. eexists. split; [reflexivity|].
        apply greedy_factor; auto; try lia.
      + destruct (IH (i + 1) ltac:(lia)) as (fs & -> & G). exists fs. split; auto. apply greedy_literal; auto; try lia.
        intros q Hq. specialize (MX q Hq). lia.
  Qed.
End LPF.
Section GreedyDec.
  Variables (text : list N) (thr : nat).
  Hypothesis Ht : terminated text.
  Hypothesis Hthr : 1 <= thr.
  Notation n := (length text).
  (** what the decoder needs of a greedy parsing *)
  Lemma greedy_factors i fs : greedy_parse text thr i fs -> i <= n -> factors_ok i n fs /\ spells text fs /\
    Forall (fun f => f_src f < f_pos f /\ thr <= f_len f) fs.
  Proof.
    induction 1 as [i Hi'|i fs Hi' Hq G IH|i src l fs Hi' Hl' Hsrc Hlcp Hq G IH]; intros Hn.
    - split; [simpl; lia|]. split; [intros f j []|constructor].
    - destruct (IH ltac:(lia)) as (A & B & C). split; auto. eapply factors_ok_weak; [|exact A]. lia.
    - destruct (lcp_in text Ht src i) as [B1 B2]; try lia.
      destruct (IH ltac:(lia)) as (A & B & C). split; [cbn; split; [lia|split; [lia|split; [lia|auto]]]|]. split.
      + intros f j [<-|Hf] Hj; [|apply B; auto]. cbn in *. rewrite <- Hlcp in Hj. unfold lcp_at, suffix in Hj.
        apply lcp_len_nth in Hj. destruct Hj as [E _]. rewrite !nth_error_skipn in E. auto.
      + constructor; auto.
  Qed.
End GreedyDec.

(** ** boost::heap::pairing_heap as a max queue *)
Section Boost.
  Variable n : nat.
  Definition b_ok (h : bheap) : Prop :=
    length (b_key h) = n /\ length (b_sa h) = n /\ NoDup (b_items h) /\ Forall (fun x => x < n) (b_items h).
  Definition b_mem (h : bheap) (i : nat) : bool := existsb (fun x => x =? i) (b_items h).
  Definition b_get (h : bheap) (i : nat) : nat := nth i (b_key h) 0.
  Lemma b_mem_in h i : b_mem h i = true <-> In i (b_items h).
  Proof.
    unfold b_mem. rewrite existsb_exists. split.
    - intros (x & H & E). apply Nat.eqb_eq in E. subst. auto.
    - intros H. exists i. rewrite Nat.eqb_refl. auto.
  Qed.
  Lemma b_best_ok h : length (b_key h) = n -> length (b_sa h) = n -> forall l m, m < n -> Forall (fun x => x < n) l ->
    exists r, b_best h m l = Some r /\ (r = m \/ In r l) /\ b_get h m <= b_get h r /\ (forall x, In x l -> b_get h x <= b_get h r).
  Proof.
    intros L1 L2. unfold b_get. induction l as [|x l IH]; intros m Hm F; cbn [b_best].
    - exists m. split; auto. split; auto. split; auto. intros x [].
    - inversion F as [|? ? Fx Fl]; subst. unfold b_less. rewrite !(nth_error_nth' (b_key h) 0), !(nth_error_nth' (b_sa h) 0) by lia. cbn [obind].
      assert (Y : exists c : bool, (if nth m (b_key h) 0 =? nth x (b_key h) 0 then Some (nth x (b_sa h) 0 <? nth m (b_sa h) 0)
         else Some (nth m (b_key h) 0 <? nth x (b_key h) 0)) = Some c /\
         nth m (b_key h) 0 <= nth (if c then x else m) (b_key h) 0 /\ nth x (b_key h) 0 <= nth (if c then x else m) (b_key h) 0).
      { destruct (nth m (b_key h) 0 =? nth x (b_key h) 0) eqn:E; eexists; split; try reflexivity.
        - destruct (_ <? _); lia.
        - destruct (nth m (b_key h) 0 <? nth x (b_key h) 0) eqn:E'; lia. }
      destruct Y as (c & -> & Y1 & Y2). cbn [obind]. destruct (IH (if c then x else m)) as (r & -> & R1 & R2 & R3); auto; [destruct c; auto|].
      exists r. split; auto. split; [|split].
      + destruct R1 as [->|R1]; simpl; auto. destruct c; auto.
      + lia.
      + intros y [<-|Hy]; [lia|auto].
  Qed.
  Lemma boost_queue : max_queue boost_ops n b_ok b_mem b_get.
  Proof.
    split; [|split; [|split; [|split]]]; cbn [boost_ops q_size q_top q_has q_key q_remove q_decrease].
    - intros q r (A & B & C & D) Hr. split; auto. apply nth_error_nth'. lia.
    - intros q (A & B & C & D). apply Permutation_length, NoDup_Permutation; auto.
      + apply NoDup_filter, seq_NoDup.
      + intros x. rewrite filter_In, b_mem_in, in_seq. split; [|tauto]. intros H. rewrite Forall_forall in D. specialize (D x H). split; auto; lia.
    - intros q (A & B & C & D) Hne. unfold b_top. destruct (b_items q) as [|x l] eqn:E; [simpl in Hne; lia|].
      pose proof (Forall_inv D) as Dx. pose proof (Forall_inv_tail D) as Dl. destruct (b_best_ok q A B l x Dx Dl) as (r & R0 & R1 & R2 & R3). exists r. split; auto.
      assert (In r (x :: l)) by (simpl; destruct R1; auto). split; [rewrite Forall_forall in D; apply D; auto|].
      split; [apply b_mem_in; rewrite E; auto|]. intros y Hy M. apply b_mem_in in M. rewrite E in M. destruct M as [<-|M]; auto.
    - intros q i (A & B & C & D) Hi M. eexists. split; [reflexivity|]. split.
      + repeat split; auto; cbn [b_items]. { apply NoDup_filter; auto. }
        rewrite Forall_forall in *. intros x Hx. apply filter_In in Hx. apply D. tauto.
      + intros r Hr. split; auto. apply eq_true_iff_eq. rewrite andb_true_iff, !b_mem_in. cbn [b_items]. rewrite filter_In. tauto.
    - intros q i v (A & B & C & D) Hi M Hv. unfold b_decrease, put. replace (i <? length (b_key q)) with true by lia. cbn [obind].
      eexists. split; [reflexivity|]. split.
      + repeat split; auto. cbn. rewrite upd_length. auto.
      + intros r Hr. split; auto. unfold b_get. cbn [b_key]. apply nth_upd. lia.
  Qed.
End Boost.
