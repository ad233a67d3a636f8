(** Proofs about the factorisation strategies. *)
From Verif Require Import Base LZSS LZSSSpec SASpec Strategies StrategySpec SACompProofs.
Local Open Scope nat_scope.

(** ** Strings *)
Lemma lexb_irrefl a : lexb a a = false.
Proof. induction a as [|x a IH]; simpl; auto. rewrite N.ltb_irrefl, N.eqb_refl, IH. auto. Qed.
Lemma lexb_skip j : forall a b, lexb a b = true -> j <= lcp_len a b -> lexb (skipn j a) (skipn j b) = true.
Proof.
  induction j as [|j IH]; intros a b H L; auto.
  destruct a as [|x a], b as [|y b]; simpl in L; try lia. destruct (x =? y)%N eqn:E; [|lia].
  simpl in *. rewrite E in H. replace (x <? y)%N with false in H by lia. simpl in H. apply IH; auto. lia.
Qed.
Lemma skipn_plus {A} (l : list A) i j : skipn j (skipn i l) = skipn (i + j) l.
Proof. revert l; induction i; intros [|x l]; simpl; auto. destruct j; auto. Qed.
Lemma lcp_between a : forall b c, lexb a b = true -> lexb b c = true -> lcp_len a c = Nat.min (lcp_len a b) (lcp_len b c).
Proof.
  induction a as [|x a IH]; intros [|y b] [|z c] H1 H2; simpl in *; try lia; try discriminate.
  destruct (x =? y)%N eqn:E1, (y =? z)%N eqn:E2.
  - replace (x =? z)%N with true by lia. replace (x <? y)%N with false in H1 by lia. replace (y <? z)%N with false in H2 by lia.
    simpl in *. rewrite (IH b c); auto.
  - replace (x =? z)%N with false by lia. lia.
  - replace (x =? z)%N with false by lia. lia.
  - rewrite Nat.min_0_l. destruct (x =? z)%N eqn:E3; auto. exfalso.
    rewrite orb_false_r in *. lia.
Qed.

(** ** Lists of factors *)
Lemma fac_insert_perm f fs : Permutation (f :: fs) (fac_insert f fs).
Proof.
  induction fs as [|g fs IH]; simpl; auto. destruct (f_pos f <=? f_pos g); auto.
  eapply perm_trans; [apply perm_swap|]. apply perm_skip. auto.
Qed.
Lemma fac_sort_perm fs : Permutation fs (fac_sort fs).
Proof. induction fs as [|f fs IH]; simpl; auto. eapply perm_trans; [apply perm_skip, IH|]. apply fac_insert_perm. Qed.
Lemma factors_ok_weak n fs : forall p q, q <= p -> factors_ok p n fs -> factors_ok q n fs.
Proof. destruct fs as [|f fs]; intros p q H X; simpl in *; intuition lia. Qed.
Lemma fac_insert_ok n f fs : forall p, factors_ok p n fs -> p <= f_pos f -> 1 <= f_len f -> f_pos f + f_len f <= n -> f_src f + f_len f <= n ->
  Forall (fun g => forall x, ~ (covers f x /\ covers g x)) fs -> factors_ok p n (fac_insert f fs).
Proof.
  induction fs as [|g fs IH]; intros p H Hp Hl Hn Hs F; simpl in *.
  - repeat split; auto.
  - destruct H as (H1 & H2 & H3 & H4). apply Forall_cons_iff in F. destruct F as [F1 F2].
    assert (D : f_pos f + f_len f <= f_pos g \/ f_pos g + f_len g <= f_pos f).
    { destruct (le_lt_dec (f_pos f + f_len f) (f_pos g)); auto. destruct (le_lt_dec (f_pos g + f_len g) (f_pos f)); auto.
      exfalso. apply (F1 (Nat.max (f_pos f) (f_pos g))). unfold covers. lia. }
    destruct (f_pos f <=? f_pos g) eqn:E; cbn [factors_ok]; repeat split; auto; try lia.
    apply IH; auto. lia.
Qed.
Lemma disjoint_cons f fs : disjoint (f :: fs) <-> Forall (fun g => forall x, ~ (covers f x /\ covers g x)) fs /\ disjoint fs.
Proof. split; [intros H; inversion H; auto|intros []; constructor; auto]. Qed.
Lemma fac_sort_ok n fs : disjoint fs ->
  Forall (fun f => 1 <= f_len f /\ f_pos f + f_len f < n /\ f_src f + f_len f < n) fs -> factors_ok 0 n (fac_sort fs).
Proof.
  induction fs as [|f fs IH]; intros D F; [simpl; lia|].
  apply disjoint_cons in D. destruct D as [D1 D2]. apply Forall_cons_iff in F. destruct F as [F1 F2].
  simpl. apply fac_insert_ok; auto; try lia.
  rewrite Forall_forall in *. intros g Hg. apply D1. apply (Permutation_in _ (Permutation_sym (fac_sort_perm fs))); auto.
Qed.
Lemma spells_perm text fs gs : Permutation fs gs -> spells text fs -> spells text gs.
Proof. intros P H f j Hf. apply H. apply (Permutation_in _ (Permutation_sym P)). auto. Qed.
Lemma descends_perm rank fs gs : Permutation fs gs -> descends rank fs -> descends rank gs.
Proof. intros P H f j Hf. apply H. apply (Permutation_in _ (Permutation_sym P)). auto. Qed.

Lemma obind_some {A B} (x : A) (k : A -> option B) : obind (Some x) k = k x.
Proof. reflexivity. Qed.

(** ** Factors that point to the preceding suffix *)
Section Pred.
  Context (text : list N) (sa isa : list nat).
  Hypothesis Hs : is_sa text sa.
  Hypothesis Ht : terminated text.
  Hypothesis Hi : forall i, i < length text -> nth_error isa (nth i sa 0) = Some i.
  Let n := length text.
  Definition rk (p : nat) : nat := nth p isa 0.

  Lemma pos_on p : p < n -> exists r, r < n /\ nth r sa 0 = p /\ nth_error isa p = Some r /\ rk p = r.
  Proof.
    intros Hp. destruct Hs as [P _]. assert (X : In p sa) by (apply (Permutation_in _ (Permutation_sym P)), in_seq; lia).
    apply (In_nth _ _ 0) in X. destruct X as (r & Hr & E). rewrite (Permutation_length P), seq_length in Hr.
    exists r. split; auto. split; auto. rewrite <- E at 1. rewrite Hi by auto. split; auto.
    unfold rk. apply nth_error_nth. rewrite <- E. auto.
  Qed.
  Lemma rk_sa r : r < n -> rk (nth r sa 0) = r.
  Proof. intros H. unfold rk. apply nth_error_nth. auto. Qed.
  Lemma rk_lt x y : x < n -> y < n -> suf_lt text x y = true -> rk x < rk y.
  Proof.
    intros Hx Hy H. destruct (pos_on x Hx) as (r & Hr & E1 & _ & R1). destruct (pos_on y Hy) as (s & Hs' & E2 & _ & R2).
    rewrite R1, R2. destruct (lt_eq_lt_dec r s) as [[L|E]|L]; auto; exfalso.
    - subst. unfold suf_lt in H. rewrite lexb_irrefl in H. discriminate.
    - destruct Hs as [_ O]. specialize (O s r ltac:(fold n; lia)). rewrite E1, E2 in O.
      unfold suf_lt in *. pose proof (lexb_trans _ _ _ H O) as X. rewrite lexb_irrefl in X. discriminate.
  Qed.
  Lemma rk0 p : p < n - 1 -> 1 <= rk p.
  Proof.
    intros Hp. destruct (pos_on p ltac:(lia)) as (r & Hr & E & _ & R). rewrite R. destruct r; [|lia].
    rewrite (first_is_last text sa Hs Ht) in E. fold n in E. lia.
  Qed.
  (** the suffix before the one at p *)
  Definition before (p : nat) : nat := nth (rk p - 1) sa 0.
  Definition PL (p : nat) : nat := lcp_at text (before p) p.

  Lemma pred_of_rk p : p < n - 1 -> pred_of sa (rk p) = Some (before p).
  Proof.
    intros Hp. pose proof (rk0 p Hp). unfold before. destruct (rk p) as [|r] eqn:E; [lia|]. cbn [pred_of].
    replace (S r - 1) with r by lia. apply (sa_ne text sa Hs). destruct (pos_on p ltac:(lia)) as (r' & ? & _ & _ & ?). lia.
  Qed.
  Lemma before_lt p : p < n - 1 -> before p < n /\ before p <> p.
  Proof.
    intros Hp. pose proof (rk0 p Hp). destruct (pos_on p ltac:(lia)) as (r & Hr & E & _ & R). split.
    - apply (sa_lt text sa Hs). fold n. lia.
    - unfold before. rewrite <- E at 2. intros X. apply (sa_inj text sa Hs) in X; fold n; lia.
  Qed.
  Lemma PL_in p : p < n - 1 -> p + PL p < n /\ before p + PL p < n.
  Proof.
    intros Hp. destruct (before_lt p Hp) as [H1 H2]. unfold PL. destruct (lcp_in text Ht (before p) p) as [A B]; fold n; try lia.
  Qed.
  Lemma before_suf p : p < n - 1 -> suf_lt text (before p) p = true.
  Proof.
    intros Hp. pose proof (rk0 p Hp). destruct (pos_on p ltac:(lia)) as (r & Hr & E & _ & R).
    destruct Hs as [_ O]. specialize (O (r - 1) r ltac:(fold n; lia)). unfold before. rewrite R. rewrite E in O. auto.
  Qed.
  Lemma before_spells p j : p < n - 1 -> j < PL p -> nth_error text (before p + j) = nth_error text (p + j).
  Proof.
    intros Hp Hj. unfold PL, lcp_at, suffix in Hj. apply lcp_len_nth in Hj. destruct Hj as [E _].
    rewrite !nth_error_skipn in E. auto.
  Qed.
  Lemma before_rank p j : p < n - 1 -> j < PL p -> rk (before p + j) < rk (p + j).
  Proof.
    intros Hp Hj. destruct (PL_in p Hp). apply rk_lt; try lia. unfold suf_lt, suffix. rewrite <- !skipn_plus.
    apply lexb_skip; [apply (before_suf p Hp)|]. unfold PL, lcp_at, suffix in Hj. lia.
  Qed.
  (** a factor that copies from the preceding suffix *)
  Definition pred_factor (thr : nat) (f : factor) : Prop :=
    f_pos f < n - 1 /\ f_src f = before (f_pos f) /\ thr <= f_len f <= PL (f_pos f).
  Lemma pred_factors_ok thr fs : Forall (pred_factor thr) fs -> disjoint fs -> factorisation text thr fs.
  Proof.
    intros F D. rewrite Forall_forall in F. split; [|split; [|split]]; auto.
    - rewrite Forall_forall. intros f Hf. destruct (F f Hf) as (A & B & C). destruct (PL_in _ A). fold n. rewrite B. lia.
    - intros f j Hf Hj. destruct (F f Hf) as (A & B & C). rewrite B. apply before_spells; auto. lia.
    - exists rk. intros f j Hf Hj. destruct (F f Hf) as (A & B & C). rewrite B. apply before_rank; auto. lia.
  Qed.

  (** *** factors found from left to right *)
  Definition scanned (thr i : nat) (fs : list factor) : Prop :=
    Forall (fun f => pred_factor thr f /\ i <= f_pos f) fs /\ disjoint fs.
  Lemma scanned_nil thr i : scanned thr i [].
  Proof. split; constructor. Qed.
  Lemma scanned_weak thr i j fs : j <= i -> scanned thr i fs -> scanned thr j fs.
  Proof. intros H [F D]. split; auto. eapply Forall_impl; [|exact F]. simpl. intros f [A B]. split; auto. lia. Qed.
  Lemma scanned_cons thr i l fs : pred_factor thr (mk_f i (before i) l) -> scanned thr (i + l) fs ->
    scanned thr i (mk_f i (before i) l :: fs).
  Proof.
    intros P [F D]. split.
    - constructor; [split; auto|]. eapply Forall_impl; [|exact F]. cbv beta. intros f [A B]. split; auto. lia.
    - apply disjoint_cons. split; auto. eapply Forall_impl; [|exact F]. cbv beta. intros f [A B] x. unfold covers. simpl. lia.
  Qed.
  Lemma scanned_fact thr i fs : scanned thr i fs -> factorisation text thr fs.
  Proof. intros [F D]. apply pred_factors_ok; auto. eapply Forall_impl; [|exact F]. cbv beta. intros f []. auto. Qed.
  Lemma len_sa' : length sa = n.
  Proof. destruct Hs as [P _]. rewrite (Permutation_length P). apply seq_length. Qed.

  Section Naive.
    Variables (lcp : list nat) (thr : nat).
    Hypothesis Hl : forall i, 1 <= i < n -> nth_error lcp i = Some (lcp_at text (nth (i - 1) sa 0) (nth i sa 0)).
    Lemma lcp_PL p : p < n - 1 -> nth_error lcp (rk p) = Some (PL p).
    Proof.
      intros Hp. pose proof (rk0 p Hp). destruct (pos_on p ltac:(lia)) as (r & Hr & E & _ & R).
      rewrite Hl by lia. unfold PL, before. rewrite R, E. auto.
    Qed.
    Hypothesis Hthr : 1 <= thr.
    Lemma all_free_ok l : forall m p, length m = n -> p + l <= n -> exists b, all_free m p l = Some b.
    Proof.
      induction l as [|l IH]; intros m p L H; cbn [all_free]; eauto.
      destruct (nth_error m p) as [b|] eqn:E; [|apply nth_error_None in E; lia]. cbn [obind].
      destruct b; eauto. apply IH; auto. lia.
    Qed.
    Lemma mark_ok l : forall m p, length m = n -> p + l <= n -> exists m', mark m p l = Some m' /\ length m' = n.
    Proof.
      induction l as [|l IH]; intros m p L H; cbn [mark]; eauto.
      replace (p <? length m) with true by lia. apply IH; [rewrite upd_length; auto|lia].
    Qed.
    Lemma naive_ok fuel : forall i marked, n - i <= fuel -> length marked = n ->
      exists fs, naive_loop fuel sa isa lcp thr i marked = Some fs /\ scanned thr i fs.
    Proof.
      induction fuel as [|fuel IH]; intros i marked Hf Lm; cbn [naive_loop]; rewrite len_sa'.
      - replace (i + 1 <? n) with false by lia. eexists; split; eauto. apply scanned_nil.
      - destruct (i + 1 <? n) eqn:Ei; [|eexists; split; eauto; apply scanned_nil].
        assert (Hp : i < n - 1) by lia. destruct (pos_on i ltac:(lia)) as (r & Hr & E & -> & R). cbn [obind].
        rewrite <- R, lcp_PL by auto. cbn [obind]. destruct (PL_in i Hp) as [B1 B2].
        assert (Next : exists fs, naive_loop fuel sa isa lcp thr (i + 1) marked = Some fs /\ scanned thr i fs).
        { destruct (IH (i + 1) marked) as (fs & X & S); auto; try lia. exists fs. split; auto. eapply scanned_weak; [|eauto]. lia. }
        destruct (thr <=? PL i) eqn:Et; auto.
        destruct (all_free_ok (PL i) marked i Lm ltac:(lia)) as [b ->]. cbn [obind]. destruct b; auto.
        rewrite pred_of_rk by auto. cbn [obind]. destruct (mark_ok (PL i) marked (before i) Lm ltac:(lia)) as (m' & -> & Lm'). cbn [obind].
        destruct (IH (i + PL i) m') as (fs & -> & S); auto; try lia. cbn [obind]. eexists. split; [reflexivity|].
        apply scanned_cons; auto. split; [|split]; simpl; auto. lia.
    Qed.
  End Naive.

  Section Peaks.
    Variables (plcp : list nat) (thr : nat).
    Hypothesis Lp : length plcp = n.
    Hypothesis Hl : forall i, 1 <= i < n -> nth_error plcp (nth i sa 0) = Some (lcp_at text (nth (i - 1) sa 0) (nth i sa 0)).
    Lemma plcp_PL p : p < n - 1 -> nth_error plcp p = Some (PL p).
    Proof.
      intros Hp. pose proof (rk0 p Hp). destruct (pos_on p ltac:(lia)) as (r & Hr & E & _ & R).
      rewrite <- E at 1. rewrite Hl by lia. unfold PL, before. rewrite R, E. auto.
    Qed.
    Hypothesis Hthr : 1 <= thr.
    Lemma is_peak_ok i last : i < n - 1 -> (i = 0 -> last = 0) -> exists b, is_peak plcp thr last i = Some b /\ (b = true -> thr <= PL i).
    Proof.
      intros Hp H0. unfold is_peak. rewrite plcp_PL by auto. cbn [obind].
      destruct (nth_error plcp (i + 1)) as [c|] eqn:Ec; [|apply nth_error_None in Ec; lia].
      destruct (i =? last) eqn:E; cbn [obind].
      - eexists. split; [reflexivity|]. lia.
      - destruct i as [|i']; [lia|]. rewrite plcp_PL by lia. cbn [obind].
        destruct (PL i' <? PL (S i')) eqn:E'; eexists; split; try reflexivity; try discriminate. lia.
    Qed.
    Lemma peaks_ok fuel : forall i last, n - i <= fuel -> (i = 0 -> last = 0) ->
      exists fs, peaks_loop fuel sa isa plcp thr last i = Some fs /\ scanned thr i fs.
    Proof.
      induction fuel as [|fuel IH]; intros i last Hf H0; cbn [peaks_loop]; rewrite len_sa'.
      - replace (i + 1 <? n) with false by lia. eexists; split; eauto. apply scanned_nil.
      - destruct (i + 1 <? n) eqn:Ei; [|eexists; split; eauto; apply scanned_nil].
        assert (Hp : i < n - 1) by lia. destruct (PL_in i Hp) as [B1 B2].
        destruct (is_peak_ok i last Hp H0) as (b & -> & Hb). cbn [obind]. destruct b.
        + specialize (Hb eq_refl). rewrite plcp_PL by auto. cbn [obind].
          destruct (pos_on i ltac:(lia)) as (r & Hr & E & -> & R). cbn [obind]. rewrite <- R, pred_of_rk by auto. cbn [obind].
          destruct (IH (i + PL i) (i + PL i - 1)) as (fs & -> & S); try lia. cbn [obind]. eexists. split; [reflexivity|].
          apply scanned_cons; auto. split; [|split]; simpl; auto.
        + destruct (IH (i + 1) last) as (fs & -> & S); try lia. exists fs. split; auto. eapply scanned_weak; [|eauto]. lia.
    Qed.
  End Peaks.
End Pred.
