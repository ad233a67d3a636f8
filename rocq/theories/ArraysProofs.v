(** Proofs about the strategies that take the longest entry first: ArraysComp and the
    priority-queue strategies. *)
From Verif Require Import Base LZSS LZSSSpec SASpec Strategies StrategySpec SACompProofs StrategyProofs.
Local Open Scope nat_scope.

Lemma nth_upd {A} (l : list A) i j x d : i < length l -> nth j (upd l i x) d = if j =? i then x else nth j l d.
Proof.
  intros H. destruct (j =? i) eqn:E.
  - apply Nat.eqb_eq in E. subst. apply nth_upd_eq; auto.
  - apply nth_upd_ne. lia.
Qed.

Section Greedy.
  Context (text : list N) (sa isa : list nat).
  Hypothesis Hs : is_sa text sa.
  Hypothesis Ht : terminated text.
  Hypothesis Hi : forall i, i < length text -> nth_error isa (nth i sa 0) = Some i.
  Let n := length text.
  Notation rk := (rk isa).
  Notation PL := (PL text sa isa).
  Notation before := (before sa isa).
  Notation pred_factor := (pred_factor text sa isa).

  Lemma rk_bound p : p < n -> rk p < n /\ nth_error isa p = Some (rk p) /\ nth (rk p) sa 0 = p.
  Proof. intros H. destruct (pos_on text sa isa Hs Hi p H) as (r & A & B & C & D). rewrite D. auto. Qed.
  Lemma rk_inj p q : p < n -> q < n -> rk p = rk q -> p = q.
  Proof. intros H1 H2 E. destruct (rk_bound p H1) as (_ & _ & A). destruct (rk_bound q H2) as (_ & _ & B). congruence. Qed.
  Lemma rk_eqb p q : p < n -> q < n -> (rk p =? rk q) = (p =? q).
  Proof.
    intros H1 H2. destruct (p =? q) eqn:E.
    - apply Nat.eqb_eq in E. subst. apply Nat.eqb_refl.
    - apply Nat.eqb_neq. intros X. apply rk_inj in X; auto. lia.
  Qed.

  (** [K q]: current entry of the suffix at text position q; [M]: positions already replaced *)
  Definition good (M : nat -> Prop) (K : nat -> nat) (A : nat -> Prop) : Prop :=
    forall q, q < n - 1 -> A q -> K q <= PL q /\ forall x, q <= x < q + K q -> ~ M x.
  Lemma good_step M K (A : nat -> Prop) p K' (A' : nat -> Prop) :
    good M K A -> (forall q, q < n - 1 -> A q -> K q <= K p) ->
    (forall q, q < n - 1 -> A' q -> A q /\ K' q <= K q /\ (K' q = 0 \/ ~ (p <= q < p + K p)) /\
       (p - K p <= q < p -> q + K' q <= p)) ->
    good (fun x => M x \/ p <= x < p + K p) K' A'.
  Proof.
    intros G Hm St q Hq Aq. destruct (St q Hq Aq) as (S1 & S2 & S3 & S4). destruct (G q Hq S1) as [G1 G2].
    specialize (Hm q Hq S1). split; [lia|]. intros x Hx [X|X].
    - apply (G2 x); auto. lia.
    - destruct S3 as [S3|S3]; [lia|]. lia.
  Qed.
  Lemma good_ext (M N : nat -> Prop) K A : (forall x, N x -> M x) -> good M K A -> good N K A.
  Proof. intros H G q Hq Aq. destruct (G q Hq Aq). split; auto. intros x Hx Y. apply (H1 x Hx). auto. Qed.

  (** factors found with these states *)
  Definition found (thr : nat) (M : nat -> Prop) (fs : list factor) : Prop :=
    Forall (fun f => pred_factor thr f /\ forall x, covers f x -> ~ M x) fs /\ disjoint fs.
  Definition added (M : nat -> Prop) (fs : list factor) (x : nat) : Prop := M x \/ exists f, In f fs /\ covers f x.
  Lemma found_nil thr M : found thr M [].
  Proof. split; constructor. Qed.
  Lemma found_cons thr M f fs : pred_factor thr f -> (forall x, covers f x -> ~ M x) ->
    found thr (fun x => M x \/ f_pos f <= x < f_pos f + f_len f) fs -> found thr M (f :: fs).
  Proof.
    intros P D [F1 F2]. split.
    - constructor; auto. eapply Forall_impl; [|exact F1]. cbv beta. intros g [G1 G2]. split; auto.
      intros x Hx HM. apply (G2 x Hx). auto.
    - apply disjoint_cons. split; auto. eapply Forall_impl; [|exact F1]. cbv beta. intros g [G1 G2] x [X1 X2].
      apply (G2 x X2). right. exact X1.
  Qed.
  Lemma found_app thr M fs gs : found thr M fs -> found thr (added M fs) gs -> found thr M (fs ++ gs).
  Proof.
    revert M. induction fs as [|f fs IH]; intros M H1 H2; simpl.
    - destruct H2 as [A B]. split; auto. eapply Forall_impl; [|exact A]. cbv beta. intros f [X Y]. split; auto.
      intros x Hx HM. apply (Y x Hx). left. auto.
    - destruct H1 as [A B]. apply Forall_cons_iff in A. destruct A as [[A1 A2] A3]. apply disjoint_cons in B. destruct B as [B1 B2].
      apply found_cons; auto. apply IH.
      + split; auto. rewrite Forall_forall in *. intros g Hg. destruct (A3 g Hg) as [Y1 Y2]. split; auto.
        intros x Hx [X|X]; [apply (Y2 x Hx X)|]. apply (B1 g Hg x). split; auto.
      + destruct H2 as [C D]. split; auto. eapply Forall_impl; [|exact C]. cbv beta. intros g [Y1 Y2]. split; auto.
        intros x Hx [[X|X]|(h & Hh & X)]; apply (Y2 x Hx).
        * left. auto.
        * right. exists f. split; [left; auto|exact X].
        * right. exists h. split; [right; auto|exact X].
  Qed.

    Lemma rank_pos r : 1 <= r < n -> exists q, q < n - 1 /\ rk q = r /\ nth_error sa r = Some q /\ nth r sa 0 = q.
    Proof.
      intros H. exists (nth r sa 0). rewrite (sa_ne text sa Hs r) by (fold n; lia). rewrite (rk_sa text sa isa Hi r) by (fold n; lia).
      pose proof (sa_lt text sa Hs r ltac:(fold n; lia)) as B. cbv beta in B. fold n in B.
      split; [|auto]. destruct (Nat.eq_dec (nth r sa 0) (n - 1)) as [E|]; [|lia]. exfalso.
      unfold n in E. rewrite <- (first_is_last text sa Hs Ht) in E. apply (sa_inj text sa Hs) in E; fold n; lia.
    Qed.
  (** ** ArraysComp *)
  Section Arrays.
    Variable thr : nat.
    Hypothesis Hthr : 1 <= thr.
    Definition kv (L : list nat) (q : nat) : nat := nth (rk q) L 0.
    Lemma kv_get L q : length L = n -> q < n -> nth_error L (rk q) = Some (kv L q).
    Proof. intros H Hq. destruct (rk_bound q Hq). apply nth_error_nth'. lia. Qed.
    Lemma kv_upd L p q v : length L = n -> p < n -> q < n -> kv (upd L (rk p) v) q = if q =? p then v else kv L q.
    Proof.
      intros H Hp Hq. unfold kv. destruct (rk_bound p Hp). rewrite nth_upd by lia. rewrite rk_eqb by auto. auto.
    Qed.
    Lemma set_run_ok k : forall L p, length L = n -> p + k <= n ->
      exists L', set_run isa L p k = Some L' /\ length L' = n /\
        forall q, q < n -> kv L' q = if (p <=? q) && (q <? p + k) then 0 else kv L q.
    Proof.
      induction k as [|k IH]; intros L p H Hp; cbn [set_run].
      - exists L. split; auto. split; auto. intros q Hq. replace ((p <=? q) && (q <? p + 0)) with false by lia. auto.
      - destruct (rk_bound p ltac:(lia)) as (B & -> & _). cbn [obind]. replace (rk p <? length L) with true by lia.
        destruct (IH (upd L (rk p) 0) (p + 1)) as (L' & -> & H' & E'); [rewrite upd_length; auto|lia|].
        exists L'. split; auto. split; auto. intros q Hq. rewrite E' by auto. rewrite kv_upd by lia.
        destruct (q =? p) eqn:E.
        + replace ((p <=? q) && (q <? p + S k)) with true by lia. destruct ((p + 1 <=? q) && (q <? p + 1 + k)); auto.
        + replace ((p + 1 <=? q) && (q <? p + 1 + k)) with ((p <=? q) && (q <? p + S k)) by lia. auto.
    Qed.
    Lemma clip_run_ok m : forall L pos k, length L = n -> k + m <= pos -> pos <= n ->
      exists L', clip_run isa L pos k m = Some L' /\ length L' = n /\
        forall q, q < n -> kv L' q = if (pos - k - m <=? q) && (q <? pos - k) then Nat.min (pos - q) (kv L q) else kv L q.
    Proof.
      induction m as [|m IH]; intros L pos k H Hk Hp; cbn [clip_run].
      - exists L. split; auto. split; auto. intros q Hq. replace ((pos - k - 0 <=? q) && (q <? pos - k)) with false by lia. auto.
      - destruct (rk_bound (pos - k - 1) ltac:(lia)) as (B & -> & _). cbn [obind]. rewrite kv_get by lia. cbn [obind].
        destruct (IH (upd L (rk (pos - k - 1)) (Nat.min (k + 1) (kv L (pos - k - 1)))) pos (k + 1)) as (L' & -> & H' & E');
          [rewrite upd_length; auto|lia|lia|].
        exists L'. split; auto. split; auto. intros q Hq. rewrite E' by auto. rewrite !kv_upd by lia.
        destruct (q =? pos - k - 1) eqn:E.
        + replace ((pos - k - S m <=? q) && (q <? pos - k)) with true by lia.
          replace ((pos - (k + 1) - m <=? q) && (q <? pos - (k + 1))) with false by lia.
          apply Nat.eqb_eq in E. subst q. f_equal. lia.
        + replace ((pos - (k + 1) - m <=? q) && (q <? pos - (k + 1))) with ((pos - k - S m <=? q) && (q <? pos - k)) by lia. auto.
    Qed.

    (** entry r of the LCP array still to be looked at: in [col], or in a bucket below *)
    Definition waiting (maxlcp : nat) (L : list nat) (col : list nat) (cand : list (list nat)) : Prop :=
      forall q, q < n - 1 -> thr <= kv L q ->
        (In (rk q) col /\ kv L q <= maxlcp) \/
        (exists c, thr + c < maxlcp /\ kv L q <= thr + c /\ In (rk q) (nth c cand [])).
    Definition ranks (l : list nat) : Prop := Forall (fun r => 1 <= r < n) l.
    Definition state (M : nat -> Prop) (L : list nat) (cand : list (list nat)) : Prop :=
      length L = n /\ good M (kv L) (fun _ => True) /\ Forall ranks cand.
    Lemma push_ok cand b x : b < length cand -> bucket_push cand b x = Some (upd cand b (nth b cand [] ++ [x])).
    Proof. intros H. unfold bucket_push. rewrite (nth_error_nth' _ [] H). auto. Qed.
    Lemma ranks_upd cand b l : Forall ranks cand -> ranks l -> Forall ranks (upd cand b l).
    Proof.
      intros F H. revert b. induction F as [|x c Hx F IH]; intros [|b]; simpl; auto.
    Qed.
    Lemma ranks_nth cand b : Forall ranks cand -> ranks (nth b cand []).
    Proof. intros F. destruct (nth_in_or_default b cand []) as [X|E]; [rewrite Forall_forall in F; auto|rewrite E; constructor]. Qed.

    Lemma arr_col_ok maxlcp col : forall M L cand, thr <= maxlcp -> maxlcp - thr < length cand ->
      state M L cand -> ranks col -> waiting maxlcp L col cand ->
      exists L' cand' fs, arr_col sa isa thr maxlcp col L cand = Some (L', cand', fs) /\
        state (added M fs) L' cand' /\ length cand' = length cand /\ waiting maxlcp L' [] cand' /\ found thr M fs.
    Proof.
      induction col as [|r col IH]; intros M L cand Hm Hc (S1 & S2 & S3) Hr W; cbn [arr_col].
      - exists L, cand, []. split; auto. split; [|split; [auto|split; [auto|apply found_nil]]].
        split; auto. split; auto. eapply good_ext; [|exact S2]. intros x [X|(f & [] & _)]. auto.
      - apply Forall_cons_iff in Hr. destruct Hr as [Hr Hr'].
        destruct (rank_pos r Hr) as (p & Hp & Ep & Es & _). rewrite <- Ep in Hr |- *. rewrite kv_get by lia. cbn [obind].
        destruct (kv L p <? maxlcp) eqn:E1.
        + destruct (kv L p <? thr) eqn:E2.
          * apply IH; auto; [split; auto|]. intros q Hq Hk. destruct (W q Hq Hk) as [[[X|X] Y]|X]; auto.
            rewrite <- Ep in X. apply rk_inj in X; try lia. subst q. lia.
          * rewrite push_ok by lia. cbn [obind].
            destruct (IH M L (upd cand (kv L p - thr) (nth (kv L p - thr) cand [] ++ [rk p]))) as (L' & cand' & fs & E & St & Lc & W' & F);
              auto; try (rewrite upd_length; lia).
            { split; auto. split; auto. apply ranks_upd; auto. apply Forall_app. split; [apply ranks_nth; auto|]. constructor; auto. }
            { intros q Hq Hk. destruct (W q Hq Hk) as [[[X|X] Y]|(c & X1 & X2 & X3)]; auto.
              - right. rewrite <- Ep in X. apply rk_inj in X; try lia. subst q. exists (kv L p - thr). split; [lia|]. split; [lia|].
                rewrite nth_upd_eq by lia. apply in_or_app. right. left. auto.
              - right. exists c. split; auto. split; auto. destruct (Nat.eq_dec c (kv L p - thr)) as [->|].
                + rewrite nth_upd_eq by lia. apply in_or_app. auto.
                + rewrite nth_upd_ne by auto. auto. }
            rewrite upd_length in Lc. exists L', cand', fs. auto.
        + assert (Kp : kv L p = maxlcp).
          { destruct (W p Hp ltac:(lia)) as [[_ Y]|(c & X1 & X2 & X3)]; lia. }
          assert (Mx : forall q, q < n - 1 -> kv L q <= maxlcp).
          { intros q Hq. destruct (le_lt_dec thr (kv L q)); [|lia]. destruct (W q Hq ltac:(lia)) as [[_ Y]|(c & X1 & X2 & X3)]; lia. }
          rewrite Ep, Es. cbn [obind]. rewrite <- Ep, (pred_of_rk text sa isa Hs Ht Hi) by auto. cbn [obind]. rewrite Kp.
          destruct (S2 p Hp I) as [G1 G2]. rewrite Kp in G1, G2. destruct (PL_in text sa isa Hs Ht Hi p Hp) as [B1 _]. fold n in B1.
          destruct (set_run_ok maxlcp L p S1 ltac:(lia)) as (L1 & -> & H1 & E1'). cbn [obind].
          destruct (clip_run_ok (Nat.min maxlcp p) L1 p 0 H1 ltac:(lia) ltac:(lia)) as (L2 & -> & H2 & E2'). cbn [obind].
          assert (Dn : forall q, q < n -> kv L2 q <= kv L q /\ (kv L2 q = 0 \/ ~ (p <= q < p + maxlcp)) /\
            (p - maxlcp <= q < p -> q + kv L2 q <= p)).
          { intros q Hq. specialize (E1' q Hq). specialize (E2' q Hq).
            destruct ((p <=? q) && (q <? p + maxlcp)) eqn:Z1.
            - replace ((p - 0 - Nat.min maxlcp p <=? q) && (q <? p - 0)) with false in E2' by lia. lia.
            - destruct ((p - 0 - Nat.min maxlcp p <=? q) && (q <? p - 0)) eqn:Z2; lia. }
          destruct (IH (fun x => M x \/ p <= x < p + kv L p) L2 cand) as (L' & cand' & fs & E & St & Lc & W' & F); auto.
          { split; auto. split; auto. eapply good_step with (K := kv L) (A := fun _ => True); eauto.
            - intros q Hq _. rewrite Kp. auto.
            - intros q Hq _. rewrite Kp. destruct (Dn q ltac:(lia)) as (D1 & D2 & D3). auto. }
          { intros q Hq Hk. destruct (Dn q ltac:(lia)) as (D1 & D2 & D3). destruct (W q Hq ltac:(lia)) as [[[X|X] Y]|(c & X1 & X2 & X3)].
            - exfalso. rewrite <- Ep in X. apply rk_inj in X; try lia.
            - left. split; auto. lia.
            - right. exists c. split; auto. split; [lia|auto]. }
          rewrite E. cbn [obind]. rewrite Kp in *. exists L', cand', (mk_f p (before p) maxlcp :: fs). split; auto.
          split; [|split; [auto|split; [auto|]]].
          * destruct St as (T1 & T2 & T3). split; auto. split; auto. eapply good_ext; [|exact T2].
            intros x [X|(f & [<-|X] & Y)]; [left; auto|left; right; exact Y|right; exists f; auto].
          * apply found_cons; auto. split; [|split]; simpl; auto.
    Qed.

    Lemma arr_loop_ok k : forall M L cand, k <= length cand -> state M L cand ->
      (forall q, q < n - 1 -> thr <= kv L q -> exists c, c < k /\ kv L q <= thr + c /\ In (rk q) (nth c cand [])) ->
      exists fs, arr_loop sa isa thr k L cand = Some fs /\ found thr M fs.
    Proof.
      induction k as [|k IH]; intros M L cand Hk St W; cbn [arr_loop].
      - replace (thr =? 0) with false by lia. exists []. split; auto. apply found_nil.
      - rewrite (nth_error_nth' _ []) by lia. cbn [obind].
        destruct (arr_col_ok (thr + k) (nth k cand []) M L cand) as (L' & cand' & fs & E & St' & Lc & W' & F); auto; try lia.
        { destruct St as (_ & _ & S3). apply ranks_nth. auto. }
        { intros q Hq Hv. destruct (W q Hq Hv) as (c & C1 & C2 & C3). destruct (Nat.eq_dec c k) as [->|]; [left; auto|].
          right. exists c. split; [lia|]. auto. }
        rewrite E. cbn [obind]. destruct (IH (added M fs) L' (upd cand' k [])) as (fs' & -> & F').
        { rewrite upd_length. lia. }
        { destruct St' as (A & B & C). split; auto. split; auto. apply ranks_upd; auto. constructor. }
        { intros q Hq Hv. destruct (W' q Hq Hv) as [[[] _]|(c & C1 & C2 & C3)]. exists c. split; [lia|]. split; auto.
          rewrite nth_upd_ne by lia. auto. }
        cbn [obind]. eexists. split; [reflexivity|]. apply found_app; auto.
    Qed.

    Variables (lcp : list nat) (mx : nat).
    Hypothesis Ll : length lcp = n.
    Hypothesis Hl : forall i, 1 <= i < n -> nth_error lcp i = Some (lcp_at text (nth (i - 1) sa 0) (nth i sa 0)).
    Hypothesis Hmx : forall i, 1 <= i < n -> lcp_at text (nth (i - 1) sa 0) (nth i sa 0) <= mx.

    Lemma kv_lcp q : q < n - 1 -> kv lcp q = PL q.
    Proof. intros Hq. unfold kv. apply nth_error_nth. apply (lcp_PL text sa isa Hs Ht Hi lcp); auto. Qed.
    Lemma lcp_mx i : 1 <= i < n -> nth i lcp 0 <= mx.
    Proof. intros H. rewrite (nth_error_nth _ _ 0 (Hl i H)). auto. Qed.
    Lemma fill_cand_ok m : forall i cand, 1 <= i -> i + m = n -> length cand = mx + 1 - thr -> Forall ranks cand ->
      (forall q, q < n - 1 -> rk q < i -> thr <= kv lcp q -> In (rk q) (nth (kv lcp q - thr) cand [])) ->
      exists cand', fill_cand lcp thr i m cand = Some cand' /\ length cand' = length cand /\ Forall ranks cand' /\
        forall q, q < n - 1 -> thr <= kv lcp q -> In (rk q) (nth (kv lcp q - thr) cand' []).
    Proof.
      induction m as [|m IH]; intros i cand H1 Hn Hc Hr W; cbn [fill_cand].
      - exists cand. split; auto. split; auto. split; auto. intros q Hq Hk. apply W; auto.
        destruct (rk_bound q ltac:(lia)). lia.
      - rewrite (nth_error_nth' lcp 0) by lia. cbn [obind]. pose proof (lcp_mx i ltac:(lia)).
        destruct (nth i lcp 0 <? thr) eqn:E.
        + apply IH; auto; try lia. intros q Hq Hi' Hk. apply W; auto. destruct (Nat.eq_dec (rk q) i) as [X|]; [|lia].
          unfold kv in Hk. rewrite X in Hk. lia.
        + rewrite push_ok by lia. cbn [obind].
          destruct (IH (i + 1) (upd cand (nth i lcp 0 - thr) (nth (nth i lcp 0 - thr) cand [] ++ [i]))) as (c' & X1 & X2 & X3 & X4); auto; try lia.
          { rewrite upd_length. auto. }
          { apply ranks_upd; auto. apply Forall_app. split; [apply ranks_nth; auto|]. constructor; auto. lia. }
          { intros q Hq Hi' Hk. destruct (Nat.eq_dec (kv lcp q) (nth i lcp 0)) as [Ek|Ek].
            - rewrite Ek, nth_upd_eq by lia. apply in_or_app. destruct (Nat.eq_dec (rk q) i) as [X|]; [right; left; auto|left].
              rewrite <- Ek. apply W; auto. lia.
            - rewrite nth_upd_ne by lia. apply W; auto. destruct (Nat.eq_dec (rk q) i) as [X|]; [|lia]. unfold kv in Ek. rewrite X in Ek. congruence. }
          rewrite upd_length in X2. eauto.
    Qed.
    Lemma arrays_ok : exists fs, arrays_comp thr sa isa lcp mx = Some fs /\ found thr (fun _ => False) fs.
    Proof.
      unfold arrays_comp. rewrite (len_sa' text sa Hs). fold n. destruct (mx + 1 <=? thr) eqn:E.
      - exists []. split; auto. apply found_nil.
      - pose proof (np text Ht) as Hn. fold n in Hn.
        destruct (fill_cand_ok (n - 1) 1 (repeat [] (mx + 1 - thr))) as (cand & -> & H1 & H2 & H3); auto; try lia.
        { apply repeat_length. }
        { apply Forall_forall. intros x X. apply repeat_spec in X. subst. constructor. }
        { intros q Hq H. pose proof (rk0 text sa isa Hs Ht Hi q Hq). lia. }
        rewrite repeat_length in H1. cbn [obind]. apply arr_loop_ok; [lia| |].
        + split; auto. split; auto. intros q Hq _. rewrite kv_lcp by auto. split; auto.
        + intros q Hq Hk. exists (kv lcp q - thr). split; [|split; [lia|auto]].
          pose proof (lcp_mx (rk q)). pose proof (rk0 text sa isa Hs Ht Hi q Hq). destruct (rk_bound q ltac:(lia)).
          unfold kv in *. lia.
    Qed.
  End Arrays.

  (** ** priority queues *)
  Lemma filter_le {A} (f g : A -> bool) l : (forall x, In x l -> f x = true -> g x = true) -> length (filter f l) <= length (filter g l).
  Proof.
    induction l as [|x l IH]; intros H; simpl; auto.
    assert (X : length (filter f l) <= length (filter g l)) by (apply IH; intros y Hy; apply H; right; auto).
    specialize (H x (or_introl eq_refl)). destruct (f x) eqn:E1, (g x) eqn:E2; simpl; try lia; discriminate (H eq_refl).
  Qed.
  Lemma filter_lt {A} (f g : A -> bool) l a : (forall x, In x l -> f x = true -> g x = true) ->
    In a l -> f a = false -> g a = true -> length (filter f l) < length (filter g l).
  Proof.
    induction l as [|x l IH]; intros H Ha E1 E2; [destruct Ha|]. destruct Ha as [->|Ha]; simpl.
    - rewrite E1, E2. simpl. pose proof (filter_le f g l (fun y Hy => H y (or_intror Hy))). lia.
    - specialize (IH (fun y Hy => H y (or_intror Hy)) Ha E1 E2). specialize (H x (or_introl eq_refl)).
      destruct (f x) eqn:F1, (g x) eqn:F2; simpl; try lia; discriminate (H eq_refl).
  Qed.

  Lemma max_bag {Q} (ops : queue Q) V mem key : max_queue ops n V mem key -> bag_queue ops n V mem key.
  Proof.
    intros (M1 & M2 & M3 & M4 & M5). split; [|split; [|split; [|split]]]; auto. intros q HV H.
    destruct (M3 q HV H) as (m & A & B & C & _). eauto.
  Qed.
  Section Queue.
    Context {Q : Type} (ops : queue Q) (V : Q -> Prop) (mem : Q -> nat -> bool) (key : Q -> nat -> nat).
    Hypothesis BQ : bag_queue ops n V mem key.
    Variable thr : nat.
    Hypothesis Hthr : 1 <= thr.
    Notation mm q x := (mem q (rk x)).
    Notation kk q x := (key q (rk x)).

    Lemma drop_run_ok k : forall q p, V q -> p + k <= n -> exists q', drop_run ops isa q p k = Some q' /\ V q' /\
      forall x, x < n -> mm q' x = mm q x && negb ((p <=? x) && (x <? p + k)) /\ kk q' x = kk q x.
    Proof.
      destruct BQ as (M1 & _ & _ & M4 & _).
      induction k as [|k IH]; intros q p HV Hp; cbn [drop_run].
      - exists q. split; auto. split; auto. intros x Hx. replace ((p <=? x) && (x <? p + 0)) with false by lia. rewrite andb_true_r. auto.
      - destruct (rk_bound p ltac:(lia)) as (B & -> & _). cbn [obind]. destruct (M1 q (rk p) HV B) as [-> _]. cbn [obind].
        assert (X : exists q1, (if mm q p then q_remove ops q (rk p) else Some q) = Some q1 /\ V q1 /\
          forall x, x < n -> mm q1 x = mm q x && negb (x =? p) /\ kk q1 x = kk q x).
        { destruct (mm q p) eqn:E.
          - destruct (M4 q (rk p) HV B E) as (q1 & -> & V1 & F). exists q1. split; auto. split; auto. intros x Hx.
            destruct (rk_bound x Hx) as (Bx & _). destruct (F (rk x) Bx) as [F1 F2]. rewrite rk_eqb in F1 by lia. auto.
          - exists q. split; auto. split; auto. intros x Hx. destruct (x =? p) eqn:Ex; [|rewrite andb_true_r; auto].
            apply Nat.eqb_eq in Ex. subst. rewrite E. auto. }
        destruct X as (q1 & -> & V1 & F). cbn [obind]. destruct (IH q1 (p + 1) V1 ltac:(lia)) as (q' & -> & V' & F').
        exists q'. split; auto. split; auto. intros x Hx. destruct (F x Hx) as [F1 F2]. destruct (F' x Hx) as [F3 F4].
        rewrite F3, F4, F1, F2. split; auto. rewrite <- andb_assoc. f_equal.
        destruct (x =? p) eqn:Ex; simpl; lia.
    Qed.
    Definition keys_ok (q : Q) : Prop := forall x, x < n -> mm q x = true -> thr <= kk q x.
    Lemma trim_run_ok m : forall q pos k, V q -> keys_ok q -> k + m <= pos -> pos <= n ->
      exists q', trim_run ops isa thr q pos k m = Some q' /\ V q' /\ keys_ok q' /\
      forall x, x < n -> (mm q' x = true -> mm q x = true /\ kk q' x <= kk q x /\ (pos - k - m <= x < pos - k -> x + kk q' x <= pos)).
    Proof.
      destruct BQ as (M1 & _ & _ & M4 & M5).
      induction m as [|m IH]; intros q pos k HV HK Hk Hp; cbn [trim_run].
      - exists q. split; auto. split; auto. split; auto. intros x Hx E. split; auto. split; auto. lia.
      - set (s := pos - k - 1). assert (Hs' : s < n) by lia.
        destruct (rk_bound s Hs') as (B & -> & _). cbn [obind]. destruct (M1 q (rk s) HV B) as [-> Ek]. cbn [obind].
        assert (X : exists q1, (if mm q s then
                 do v <- q_key ops q (rk s);
                 if pos <? s + v then
                   if thr <=? pos - s then q_decrease ops q (rk s) (pos - s) else q_remove ops q (rk s)
                 else Some q
               else Some q) = Some q1 /\ V q1 /\ keys_ok q1 /\
          forall x, x < n -> (mm q1 x = true -> mm q x = true /\ kk q1 x <= kk q x /\ (x = s -> x + kk q1 x <= pos))).
        { destruct (mm q s) eqn:E.
          - rewrite Ek. cbn [obind]. destruct (pos <? s + kk q s) eqn:E1; [destruct (thr <=? pos - s) eqn:E2|].
            + destruct (M5 q (rk s) (pos - s) HV B E ltac:(lia)) as (q1 & -> & V1 & F). exists q1. split; auto. split; auto.
              assert (F' : forall x, x < n -> mm q1 x = mm q x /\ kk q1 x = if x =? s then pos - s else kk q x).
              { intros x Hx. destruct (rk_bound x Hx) as (Bx & _). destruct (F (rk x) Bx) as [F1 F2]. rewrite rk_eqb in F2 by auto. auto. }
              split.
              * intros x Hx X. destruct (F' x Hx) as [F1 F2]. rewrite F2. destruct (x =? s); [lia|]. apply HK; auto. congruence.
              * intros x Hx X. destruct (F' x Hx) as [F1 F2]. rewrite F2. split; [congruence|].
                destruct (x =? s) eqn:Z; [apply Nat.eqb_eq in Z; subst x|]; lia.
            + destruct (M4 q (rk s) HV B E) as (q1 & -> & V1 & F). exists q1. split; auto. split; auto.
              assert (F' : forall x, x < n -> mm q1 x = mm q x && negb (x =? s) /\ kk q1 x = kk q x).
              { intros x Hx. destruct (rk_bound x Hx) as (Bx & _). destruct (F (rk x) Bx) as [F1 F2]. rewrite rk_eqb in F1 by auto. auto. }
              split; intros x Hx X; destruct (F' x Hx) as [F1 F2]; rewrite F1 in X; apply andb_prop in X; destruct X as [X1 X2].
              * rewrite F2. apply HK; auto.
              * rewrite F2. split; auto. split; auto. lia.
            + exists q. split; auto. split; auto. split; auto. intros x Hx X. split; auto. split; auto. intros ->. lia.
          - exists q. split; auto. split; auto. split; auto. intros x Hx X. split; auto. split; auto. intros ->. congruence. }
        destruct X as (q1 & -> & V1 & HK1 & F). cbn [obind].
        destruct (IH q1 pos (k + 1) V1 HK1 ltac:(lia) Hp) as (q' & -> & V' & HK' & F').
        exists q'. split; auto. split; auto. split; auto. intros x Hx X. destruct (F' x Hx X) as (Y1 & Y2 & Y3).
        destruct (F x Hx Y1) as (Z1 & Z2 & Z3). split; auto. split; [lia|]. intros Hr.
        destruct (Nat.eq_dec x s) as [->|]; [specialize (Z3 eq_refl); lia|]. apply Y3. lia.
    Qed.

    Lemma RP r : r < n -> exists x, x < n /\ rk x = r.
    Proof. intros Hr. exists (nth r sa 0). split; [apply (sa_lt text sa Hs); auto|apply (rk_sa text sa isa Hi); auto]. Qed.
    (** without the maximum: every factor is right by itself *)
    Lemma queue_loop_each fuel : forall q, V q -> keys_ok q -> mm q (n - 1) = false -> q_size ops q <= fuel ->
      (forall x, x < n - 1 -> mm q x = true -> kk q x <= PL x) ->
      exists fs, queue_loop ops fuel sa isa thr q = Some fs /\ Forall (pred_factor thr) fs.
    Proof.
      pose proof BQ as (M1 & M2 & M3 & _ & _). pose proof (np text Ht) as Hn. fold n in Hn.
      induction fuel as [|fuel IH]; intros q HV HK H0 Hf G; cbn [queue_loop].
      - replace (q_size ops q =? 0) with true by lia. exists []. split; auto.
      - destruct (q_size ops q =? 0) eqn:Ez; [exists []; split; auto|].
        destruct (M3 q HV ltac:(lia)) as (m & -> & Hm & Em). cbn [obind].
        assert (Hr : 1 <= m).
        { destruct m; [|lia]. exfalso. pose proof (rk_sa text sa isa Hi 0 Hn) as Z.
          rewrite (first_is_last text sa Hs Ht) in Z. fold n in Z. rewrite Z in H0. congruence. }
        destruct (rank_pos m ltac:(lia)) as (p & Hp & Ep & Es & _). rewrite Es. cbn [obind].
        rewrite <- Ep in *. rewrite (pred_of_rk text sa isa Hs Ht Hi) by auto. cbn [obind].
        destruct (M1 q (rk p) HV Hm) as [_ ->]. cbn [obind].
        pose proof (G p Hp Em) as G1. destruct (PL_in text sa isa Hs Ht Hi p Hp) as [B1 _]. fold n in B1. cbv beta in G1.
        pose proof (HK p ltac:(lia) Em) as Kp.
        destruct (drop_run_ok (kk q p) q p HV ltac:(lia)) as (q1 & -> & V1 & D1). cbn [obind].
        destruct (trim_run_ok (Nat.min (kk q p) p) q1 p 0 V1) as (q2 & -> & V2 & HK2 & D2); try lia.
        { intros x Hx X. destruct (D1 x Hx) as [E1 E2]. rewrite E2. rewrite E1 in X. apply andb_prop in X. destruct X. apply HK; auto. }
        cbn [obind].
        assert (D : forall x, x < n -> mm q2 x = true -> mm q x = true /\ kk q2 x <= kk q x /\ ~ (p <= x < p + kk q p)).
        { intros x Hx X. destruct (D2 x Hx X) as (Y1 & Y2 & Y3). destruct (D1 x Hx) as [E1 E2]. rewrite E1 in Y1.
          apply andb_prop in Y1. destruct Y1 as [Y1 Y1']. rewrite E2 in Y2. split; auto. split; auto. lia. }
        destruct (IH q2) as (fs & -> & F); auto.
        + destruct (mm q2 (n - 1)) eqn:X; auto. destruct (D (n - 1) ltac:(lia) X). congruence.
        + assert (q_size ops q2 < q_size ops q); [|lia]. rewrite (M2 q HV), (M2 q2 V2).
          apply filter_lt with (a := rk p); auto.
          * intros r Hr' X. apply in_seq in Hr'. destruct (RP r ltac:(lia)) as (x & Hx & <-). apply (D x Hx X).
          * apply in_seq. lia.
          * destruct (mm q2 p) eqn:X; auto. destruct (D p ltac:(lia) X) as (_ & _ & Y). lia.
        + intros x Hx X. destruct (D x ltac:(lia) X) as (Y1 & Y2 & Y3). specialize (G x Hx Y1). lia.
        + cbn [obind]. eexists. split; [reflexivity|]. constructor; auto. split; [|split]; simpl; auto.
    Qed.
    Hypothesis MQ : max_queue ops n V mem key.
    Lemma queue_loop_ok fuel : forall q M, V q -> keys_ok q -> mm q (n - 1) = false -> q_size ops q <= fuel ->
      good M (fun x => kk q x) (fun x => mm q x = true) ->
      exists fs, queue_loop ops fuel sa isa thr q = Some fs /\ found thr M fs.
    Proof.
      pose proof MQ as (M1 & M2 & M3 & _ & _). pose proof (np text Ht) as Hn. fold n in Hn.
      induction fuel as [|fuel IH]; intros q M HV HK H0 Hf G; cbn [queue_loop].
      - replace (q_size ops q =? 0) with true by lia. exists []. split; auto. apply found_nil.
      - destruct (q_size ops q =? 0) eqn:Ez; [exists []; split; auto; apply found_nil|].
        destruct (M3 q HV ltac:(lia)) as (m & -> & Hm & Em & Mx). cbn [obind].
        assert (Hr : 1 <= m).
        { destruct m; [|lia]. exfalso. pose proof (rk_sa text sa isa Hi 0 Hn) as Z.
          rewrite (first_is_last text sa Hs Ht) in Z. fold n in Z. rewrite Z in H0. congruence. }
        destruct (rank_pos m ltac:(lia)) as (p & Hp & Ep & Es & _). rewrite Es. cbn [obind].
        rewrite <- Ep in *. rewrite (pred_of_rk text sa isa Hs Ht Hi) by auto. cbn [obind].
        destruct (M1 q (rk p) HV Hm) as [_ ->]. cbn [obind].
        destruct (G p Hp Em) as [G1 G2]. destruct (PL_in text sa isa Hs Ht Hi p Hp) as [B1 _]. fold n in B1. cbv beta in G1.
        pose proof (HK p ltac:(lia) Em) as Kp.
        destruct (drop_run_ok (kk q p) q p HV ltac:(lia)) as (q1 & -> & V1 & D1). cbn [obind].
        destruct (trim_run_ok (Nat.min (kk q p) p) q1 p 0 V1) as (q2 & -> & V2 & HK2 & D2); try lia.
        { intros x Hx X. destruct (D1 x Hx) as [E1 E2]. rewrite E2. rewrite E1 in X. apply andb_prop in X. destruct X. apply HK; auto. }
        cbn [obind].
        assert (D : forall x, x < n -> mm q2 x = true -> mm q x = true /\ kk q2 x <= kk q x /\ ~ (p <= x < p + kk q p) /\
          (p - kk q p <= x < p -> x + kk q2 x <= p)).
        { intros x Hx X. destruct (D2 x Hx X) as (Y1 & Y2 & Y3). destruct (D1 x Hx) as [E1 E2]. rewrite E1 in Y1.
          apply andb_prop in Y1. destruct Y1 as [Y1 Y1']. rewrite E2 in Y2. split; auto. split; auto. split; [lia|].
          intros Hr'. apply Y3. lia. }
        destruct (IH q2 (fun x => M x \/ p <= x < p + kk q p)) as (fs & -> & F); auto.
        + destruct (mm q2 (n - 1)) eqn:X; auto. destruct (D (n - 1) ltac:(lia) X). congruence.
        + assert (q_size ops q2 < q_size ops q); [|lia]. rewrite (M2 q HV), (M2 q2 V2).
          apply filter_lt with (a := rk p); auto.
          * intros r Hr' X. apply in_seq in Hr'. destruct (RP r ltac:(lia)) as (x & Hx & <-). apply (D x Hx X).
          * apply in_seq. lia.
          * destruct (mm q2 p) eqn:X; auto. destruct (D p ltac:(lia) X) as (_ & _ & Y & _). lia.
        + eapply good_step with (K := fun x => kk q x) (A := fun x => mm q x = true); eauto.
          * intros x Hx X. apply Mx; auto. apply rk_bound. lia.
          * intros x Hx X. destruct (D x ltac:(lia) X) as (Y1 & Y2 & Y3 & Y4). auto.
        + cbn [obind]. eexists. split; [reflexivity|]. apply found_cons; auto. split; [|split]; simpl; auto.
    Qed.
  End Queue.
End Greedy.
