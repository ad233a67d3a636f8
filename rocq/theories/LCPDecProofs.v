(** Proofs about the lcpcomp decode buffers of LCPDec.v. *)
From Verif Require Import Base BitIO IntCodes Coders LZSS LZSSSpec LZSSProofs LCPDec.
Local Open Scope nat_scope.

Section Dec.
  Variables (text : list N) (nz : bool) (Ref : nat -> nat -> Prop) (rank : nat -> nat) (R : nat).
  Notation n := (length text).
  Hypothesis HRt : forall p s, Ref p s -> nth_error text p = nth_error text s.
  Hypothesis HRr : forall p s, Ref p s -> rank s < rank p.
  Hypothesis HRb : forall p s, Ref p s -> p < n /\ s < n.
  Hypothesis HRk : forall p, p < n -> rank p < R.

  Definition val p := nth p text 0%N.
  Definition live p := nz = false \/ val p <> 0%N.
  Definition D (st : bst) p := bdec nz st p = Some true.
  Lemma val_nth p : p < n -> nth_error text p = Some (val p).
  Proof. intros H. unfold val. apply nth_error_nth'. auto. Qed.
  Lemma Ref_val p s : Ref p s -> val p = val s.
  Proof.
    intros H. destruct (HRb _ _ H). pose proof (HRt _ _ H) as E.
    rewrite !val_nth in E by auto. congruence.
  Qed.
  Lemma Ref_live p s : Ref p s -> live p -> live s.
  Proof. intros H. unfold live. rewrite (Ref_val _ _ H). auto. Qed.

  Record bwf (st : bst) : Prop := {
    bw_len : length (b_buf st) = n; bw_dlen : length (b_dec st) = n;
    bw_val : forall p, D st p -> bget st p = nth_error text p;
    bw_zero : forall p, p < n -> ~ D st p -> bget st p = Some 0%N }.

  Lemma bwf_init : bwf (b_init n).
  Proof.
    split; cbn [b_init b_buf b_dec]; rewrite ?repeat_length; auto.
    - intros p H. exfalso. unfold D, bdec in H. destruct nz; cbn [b_init b_buf b_dec] in H.
      + destruct (nth_error (repeat 0%N n) p) as [v|] eqn:E; [|discriminate].
        apply nth_error_In, repeat_spec in E. subst. discriminate.
      + apply nth_error_In, repeat_spec in H. discriminate.
    - intros p Hp _. unfold bget. cbn [b_init b_buf]. apply nth_error_repeat. auto.
  Qed.
  Lemma bdec_total st p : bwf st -> p < n -> exists d, bdec nz st p = Some d /\ (d = true <-> D st p).
  Proof.
    intros W Hp. unfold D, bdec. destruct nz.
    - destruct (nth_error (b_buf st) p) as [v|] eqn:E.
      + cbn [obind]. eexists. split; [reflexivity|]. split; [congruence|intros X; apply Some_inj in X; auto].
      + apply nth_error_None in E. rewrite (bw_len _ W) in E. lia.
    - destruct (nth_error (b_dec st) p) as [d|] eqn:E.
      + exists d. split; auto. split; congruence.
      + apply nth_error_None in E. rewrite (bw_dlen _ W) in E. lia.
  Qed.
  Lemma D_lt st p : bwf st -> D st p -> p < n.
  Proof.
    intros W H. unfold D, bdec in H. destruct nz.
    - destruct (nth_error (b_buf st) p) eqn:E; [|discriminate].
      rewrite <- (bw_len _ W). apply nth_error_Some. congruence.
    - rewrite <- (bw_dlen _ W). apply nth_error_Some. congruence.
  Qed.
  (** writing the right value *)
  Lemma bput_ok st p : bwf st -> p < n -> exists st', bput st p (val p) = Some st' /\ bwf st' /\
    (forall q, D st' q <-> (q = p /\ live p) \/ (q <> p /\ D st q)).
  Proof.
    intros W Hp. unfold bput. rewrite (bw_len _ W). replace (p <? n) with true by (symmetry; apply Nat.ltb_lt; auto).
    eexists. split; [reflexivity|]. set (st' := mk_b _ _).
    assert (HD : forall q, D st' q <-> (q = p /\ live p) \/ (q <> p /\ D st q)).
    { intros q. unfold D, bdec, st', live. cbn [b_buf b_dec]. destruct (Nat.eq_dec q p) as [->|Hn].
      - destruct nz.
        + rewrite nth_error_upd_eq by (rewrite (bw_len _ W); auto). cbn [obind]. split.
          * intros X. apply Some_inj in X. left. split; auto. right. intros E. rewrite E in X. discriminate.
          * intros [[_ [X|X]]|[X _]]; try congruence. f_equal. apply negb_true_iff. apply N.eqb_neq. auto.
        + rewrite nth_error_upd_eq by (rewrite (bw_dlen _ W); auto). split; auto.
      - destruct nz; rewrite nth_error_upd_ne by auto; split; auto;
          intros [[? _]|[_ ?]]; auto; contradiction. }
    split; auto. split.
    - unfold st'. cbn [b_buf]. rewrite upd_length. apply W.
    - unfold st'. cbn [b_dec]. rewrite upd_length. apply W.
    - intros q Hq. apply HD in Hq. unfold bget, st'. cbn [b_buf].
      destruct Hq as [[-> _]|[Hn Hq]].
      + rewrite nth_error_upd_eq by (rewrite (bw_len _ W); auto). rewrite val_nth; auto.
      + rewrite nth_error_upd_ne by auto. apply (bw_val _ W); auto.
    - intros q Hq Hn. unfold bget, st'. cbn [b_buf]. destruct (Nat.eq_dec q p) as [->|Hne].
      + rewrite nth_error_upd_eq by (rewrite (bw_len _ W); auto). f_equal.
        destruct (N.eq_dec (val p) 0); auto. exfalso. apply Hn, HD. left. split; auto. right; auto.
      + rewrite nth_error_upd_ne by auto. apply (bw_zero _ W); auto.
        intros X. apply Hn, HD. right; auto.
  Qed.
  Lemma bput_val_mono st st' p : bput st p (val p) = Some st' -> bwf st -> p < n -> forall q, D st q -> D st' q.
  Proof.
    intros E W Hp q Hq. destruct (bput_ok st p W Hp) as (st2 & E2 & W2 & HD). rewrite E in E2.
    apply Some_inj in E2; subst st2. apply HD. destruct (Nat.eq_dec q p) as [->|]; auto.
    left. split; auto. unfold live. destruct nz eqn:En; auto. right. intros Z.
    pose proof (bw_val _ W _ Hq) as V. rewrite val_nth in V by auto. rewrite Z in V.
    unfold bget in V. unfold D, bdec in Hq. rewrite En, V in Hq. discriminate.
  Qed.
  Lemma bget_D st p : bwf st -> p < n -> D st p -> bget st p = Some (val p).
  Proof. intros W Hp H. rewrite (bw_val _ W _ H). apply val_nth; auto. Qed.

  (** when everything live is decoded the buffer is the text *)
  Lemma all_decoded st : bwf st -> (forall p, p < n -> live p -> D st p) -> b_buf st = text.
  Proof.
    intros W H. apply nth_error_ext. intros p. destruct (Nat.lt_ge_cases p n) as [Hp|Hp].
    - change (bget st p = nth_error text p). destruct (bdec_total st p W Hp) as (d & _ & Hd).
      destruct d; [apply (bw_val _ W); tauto|].
      rewrite (bw_zero _ W) by (auto; intros X; apply Hd in X; discriminate).
      rewrite val_nth by auto. f_equal. destruct (N.eq_dec (val p) 0); auto.
      assert (D st p) by (apply H; auto; right; auto). apply Hd in H0. discriminate.
    - rewrite (proj2 (nth_error_None text p)) by auto. apply nth_error_None. rewrite (bw_len _ W). auto.
  Qed.

  (** ** Buckets *)
  Section Fwd.
    Variables (slot : nat -> option nat) (use : nat -> Prop).
    Hypothesis HRu : forall p s, Ref p s -> use p /\ use s.
    Hypothesis Hinj : forall p q k, p < n -> q < n -> slot p = Some k -> slot q = Some k -> p = q.

    Definition bk (st : bst * buckets) p : list nat :=
      match slot p with
      | Some k => match bucket (snd st) k with Some b => b | None => [] end
      | None => []
      end.
    Record wf (st : bst * buckets) : Prop := {
      wf_b : bwf (fst st);
      wf_slot : forall p k, use p -> p < n -> slot p = Some k ->
                  exists b, bucket (snd st) k = Some b /\ forall q, In q b -> Ref q p;
      wf_marked : forall p, use p -> p < n -> slot p = None -> D (fst st) p }.
    Lemma wf_bk st p q : wf st -> use p -> p < n -> In q (bk st p) -> Ref q p.
    Proof.
      intros W U Hp H. unfold bk in H. destruct (slot p) as [k|] eqn:E; [|destruct H].
      destruct (wf_slot _ W _ _ U Hp E) as (b & Eb & Hb). rewrite Eb in H. auto.
    Qed.
    Record msteps (r : nat) (st st' : bst * buckets) : Prop := {
      m_wf : wf st';
      m_mono : forall p, D (fst st) p -> D (fst st') p;
      m_bk : forall s, use s -> s < n -> bk st' s = bk st s \/
               (bk st' s = [] /\ r <= rank s /\ forall q, In q (bk st s) -> live q -> D (fst st') q);
      m_new : forall s, use s -> s < n -> D (fst st') s -> ~ D (fst st) s -> bk st' s = [] }.
    Lemma msteps_refl r st : wf st -> msteps r st st.
    Proof. intros W. split; auto. intros; contradiction. Qed.
    Lemma D_dec st p : wf st -> p < n -> {D (fst st) p} + {~ D (fst st) p}.
    Proof.
      intros _ _. unfold D. destruct (bdec nz (fst st) p) as [[]|]; [left; auto|right; discriminate|right; discriminate].
    Qed.
    Lemma msteps_trans r st1 st2 st3 : wf st2 -> msteps r st1 st2 -> msteps r st2 st3 -> msteps r st1 st3.
    Proof.
      intros W2 A B. split.
      - apply B.
      - intros p H. apply (m_mono _ _ _ B), (m_mono _ _ _ A); auto.
      - intros s U Hs. destruct (m_bk _ _ _ A s U Hs) as [E|(E & Hr & Hq)];
          destruct (m_bk _ _ _ B s U Hs) as [E'|(E' & Hr' & Hq')].
        + left. congruence.
        + right. split; auto. split; auto. rewrite <- E. auto.
        + right. split; [congruence|]. split; auto. intros q H L. apply (m_mono _ _ _ B); auto.
        + right. split; auto. split; auto. intros q H L. apply (m_mono _ _ _ B); auto.
      - intros s U Hs H3 H1. destruct (D_dec st2 s W2 Hs) as [H2|H2].
        + pose proof (m_new _ _ _ A s U Hs H2 H1) as E.
          destruct (m_bk _ _ _ B s U Hs) as [E'|(E' & _)]; congruence.
        + apply (m_new _ _ _ B); auto.
    Qed.
    Lemma msteps_weaken r r' st st' : r' <= r -> msteps r st st' -> msteps r' st st'.
    Proof.
      intros H A. split; try apply A. intros s U Hs. destruct (m_bk _ _ _ A s U Hs) as [E|(E & Hr & Hq)]; auto.
      right. split; auto. split; auto. lia.
    Qed.

    Lemma iter_ok f pos k b : use pos -> pos < n -> slot pos = Some k ->
      (forall q st, wf st -> Ref q pos -> exists st', f q st = Some st' /\ msteps (rank q) st st' /\ (live q -> D (fst st') q)) ->
      forall l st, wf st -> (forall q, In q l -> Ref q pos) -> bucket (snd st) k = Some b ->
      exists st', iter_bucket f k b l st = Some st' /\ msteps (S (rank pos)) st st' /\
        (forall q, In q l -> live q -> D (fst st') q) /\ bucket (snd st') k = Some b.
    Proof.
      intros U Hp Hk Hf. induction l as [|q l IH]; intros st W Hl Hb; cbn [iter_bucket].
      - exists st. split; auto. split; [apply msteps_refl; auto|]. split; auto. intros q [].
      - assert (HRq : Ref q pos) by (apply Hl; left; auto).
        destruct (Hf q st W HRq) as (st1 & E1 & M1 & L1). rewrite E1. cbn [obind].
        assert (Hb1 : bucket (snd st1) k = Some b).
        { destruct (wf_slot _ (m_wf _ _ _ M1) pos k U Hp Hk) as (b1 & Eb1 & _). rewrite Eb1. f_equal.
          destruct (m_bk _ _ _ M1 pos U Hp) as [E|(_ & Hr & _)].
          - unfold bk in E. rewrite Hk, Eb1, Hb in E. auto.
          - pose proof (HRr _ _ HRq). lia. }
        rewrite Hb1. cbn [obind]. unfold list_nat_eqb. destruct (list_eq_dec Nat.eq_dec b b) as [_|X]; [|congruence].
        destruct (IH st1 (m_wf _ _ _ M1)) as (st2 & E2 & M2 & L2 & B2); auto; [intros; apply Hl; right; auto|].
        exists st2. split; auto. split.
        { eapply msteps_trans; [exact (m_wf _ _ _ M1)| |apply M2]. eapply msteps_weaken; [|apply M1].
          pose proof (HRr _ _ HRq). lia. }
        split; auto. intros q' [<-|Hq'] L; auto. apply (m_mono _ _ _ M2). auto.
    Qed.

    Lemma dla_ok fuel : forall pos st, wf st -> use pos -> pos < n -> R - rank pos <= fuel ->
      exists st', dla slot fuel pos (val pos) st = Some st' /\ msteps (rank pos) st st' /\ (live pos -> D (fst st') pos).
    Proof.
      induction fuel as [|fuel IH]; intros pos st W U Hp Hf.
      { pose proof (HRk pos Hp). lia. }
      cbn [dla]. destruct (bput_ok (fst st) pos (wf_b _ W) Hp) as (b1 & E1 & W1 & HD1). rewrite E1. cbn [obind].
      pose proof (bput_val_mono _ _ _ E1 (wf_b _ W) Hp) as Mono1.
      destruct (slot pos) as [k|] eqn:Hk.
      - destruct (wf_slot _ W pos k U Hp Hk) as (b & Eb & Hb). rewrite Eb. cbn [obind].
        assert (Ws1 : wf (b1, snd st)).
        { split; cbn [fst snd]; auto.
          - intros p k' U' Hp' Hk'. apply (wf_slot _ W); auto.
          - intros p U' Hp' Hk'. apply Mono1. apply (wf_marked _ W); auto. }
        destruct (iter_ok (fun q => dla slot fuel q (val pos)) pos k b U Hp Hk) with (l := b) (st := (b1, snd st))
          as (st2 & E2 & M2 & L2 & B2); auto.
        { intros q st' W' HRq. rewrite <- (Ref_val _ _ HRq). apply IH; auto.
          - apply (HRu _ _ HRq).
          - apply (HRb _ _ HRq).
          - pose proof (HRr _ _ HRq). lia. }
        rewrite E2. cbn [obind]. eexists. split; [reflexivity|].
        set (st3 := (fst st2, upd (snd st2) k (Some []))).
        assert (Hlen : k < length (snd st2)).
        { unfold bucket in B2. destruct (nth_error (snd st2) k) eqn:E; [|discriminate]. apply nth_error_Some. congruence. }
        assert (Bk3 : forall s, s < n -> bk st3 s = if Nat.eq_dec s pos then [] else bk st2 s).
        { intros s Hs. unfold bk, st3, bucket. cbn [snd]. destruct (Nat.eq_dec s pos) as [->|Hne].
          - rewrite Hk, nth_error_upd_eq by auto. reflexivity.
          - destruct (slot s) as [k'|] eqn:Es; auto. rewrite nth_error_upd_ne; auto.
            intros ->. apply Hne. apply (Hinj s pos k'); auto. }
        assert (Bk1 : forall s, bk (b1, snd st) s = bk st s) by reflexivity.
        split; [split|].
        + split.
          * apply (wf_b _ (m_wf _ _ _ M2)).
          * intros p k' U' Hp' Hk'. unfold st3, bucket. cbn [snd]. destruct (Nat.eq_dec k k') as [->|Hne].
            { rewrite nth_error_upd_eq by auto. exists []. split; auto. intros q []. }
            { rewrite nth_error_upd_ne by auto. apply (wf_slot _ (m_wf _ _ _ M2)); auto. }
          * intros p U' Hp' Hk'. apply (wf_marked _ (m_wf _ _ _ M2)); auto.
        + intros p H. apply (m_mono _ _ _ M2). cbn [fst]. apply Mono1; auto.
        + intros s Us Hs. rewrite Bk3 by auto. destruct (Nat.eq_dec s pos) as [->|Hne].
          * right. split; auto. split; auto. intros q Hq L. unfold bk in Hq. rewrite Hk, Eb in Hq. apply L2; auto.
          * destruct (m_bk _ _ _ M2 s Us Hs) as [E|(E & Hr & Hq)]; [left; rewrite E, Bk1; auto|].
            right. split; auto. split; [lia|]. rewrite Bk1 in Hq. auto.
        + intros s Us Hs H3 H1. rewrite Bk3 by auto. destruct (Nat.eq_dec s pos) as [->|Hne]; auto.
          apply (m_new _ _ _ M2); auto. cbn [fst]. intros X. apply HD1 in X. destruct X as [[? _]|[_ X]]; contradiction.
        + intros L. apply (m_mono _ _ _ M2). cbn [fst]. apply HD1. left; auto.
      - pose proof (wf_marked _ W pos U Hp Hk) as HDp.
        eexists. split; [reflexivity|].
        assert (HDeq : forall q, D b1 q <-> D (fst st) q).
        { intros q. split; [|apply Mono1]. intros X. apply HD1 in X. destruct X as [[-> _]|[_ X]]; auto. }
        split; [split|]; cbn [fst snd].
        + split; cbn [fst snd]; auto.
          * intros p k' U' Hp' Hk'. apply (wf_slot _ W); auto.
          * intros p U' Hp' Hk'. apply Mono1. apply (wf_marked _ W); auto.
        + auto.
        + intros s Us Hs. left. reflexivity.
        + intros s Us Hs H3 H1. apply HDeq in H3. contradiction.
        + intros _. apply HDeq. auto.
    Qed.

    (** ** The invariant of decoding: [L] is the set of positions dealt with so far *)
    Record inv (L : nat -> Prop) (st : bst * buckets) : Prop := {
      i_wf : wf st;
      i_wait : forall s, use s -> s < n -> bk st s <> [] -> ~ D (fst st) s;
      i_done : forall p, L p -> p < n -> live p -> D (fst st) p \/ exists s, Ref p s /\ In p (bk st s) }.
    Lemma inv_ext (L L' : nat -> Prop) st : (forall p, L' p -> L p) -> inv L st -> inv L' st.
    Proof. intros H [A B C]. split; auto. Qed.
    Lemma inv_step L st st' pos : inv L st -> msteps (rank pos) st st' -> (live pos -> D (fst st') pos) ->
      inv (fun p => L p \/ p = pos) st'.
    Proof.
      intros I M Lp. split.
      - apply M.
      - intros s U Hs Hne. destruct (m_bk _ _ _ M s U Hs) as [E|(E & _)]; [|contradiction].
        rewrite E in Hne. pose proof (i_wait _ _ I s U Hs Hne) as X. intros Y. apply Hne.
        rewrite <- E. apply (m_new _ _ _ M); auto.
      - intros p [HL| ->] Hp Lv; [|auto].
        destruct (i_done _ _ I p HL Hp Lv) as [X|(s & HR & Hin)].
        + left. apply (m_mono _ _ _ M); auto.
        + assert (U : use s) by apply (HRu _ _ HR). assert (Hs : s < n) by apply (HRb _ _ HR).
          destruct (m_bk _ _ _ M s U Hs) as [E|(E & _ & Hq)].
          * right. exists s. rewrite E. auto.
          * left. auto.
    Qed.
    Lemma fwd_copy_ok L st fuel cur src : inv L st -> Ref cur src -> R <= fuel ->
      exists st', fwd_copy slot nz fuel cur src st = Some st' /\ inv (fun p => L p \/ p = cur) st' /\
        (forall p, D (fst st) p -> D (fst st') p).
    Proof.
      intros I HR Hf. unfold fwd_copy. destruct (HRb _ _ HR) as [Hc Hs]. destruct (HRu _ _ HR) as [Uc Us].
      destruct (bdec_total (fst st) src (wf_b _ (i_wf _ _ I)) Hs) as (d & -> & Hd). cbn [obind]. destruct d.
      - rewrite (bget_D _ _ (wf_b _ (i_wf _ _ I)) Hs) by tauto. cbn [obind]. rewrite <- (Ref_val _ _ HR).
        destruct (dla_ok fuel cur st (i_wf _ _ I) Uc Hc ltac:(lia)) as (st' & E & M & Lv).
        exists st'. split; auto. split; [eapply inv_step; eauto|apply M].
      - assert (Hn : ~ D (fst st) src) by (intros X; apply Hd in X; discriminate).
        destruct (slot src) as [k|] eqn:Hk; [|exfalso; apply Hn, (wf_marked _ (i_wf _ _ I)); auto].
        cbn [obind]. destruct (wf_slot _ (i_wf _ _ I) src k Us Hs Hk) as (b & Eb & Hb). rewrite Eb. cbn [obind].
        eexists. split; [reflexivity|]. split; [|auto].
        assert (Hlen : k < length (snd st)).
        { unfold bucket in Eb. destruct (nth_error (snd st) k) eqn:E; [|discriminate]. apply nth_error_Some. congruence. }
        set (st' := (fst st, upd (snd st) k (Some (b ++ [cur])))).
        assert (Bk : forall s, s < n -> bk st' s = if Nat.eq_dec s src then b ++ [cur] else bk st s).
        { intros s Hs'. unfold bk, st', bucket. cbn [snd]. destruct (Nat.eq_dec s src) as [->|Hne].
          - rewrite Hk, nth_error_upd_eq by auto. reflexivity.
          - destruct (slot s) as [k'|] eqn:Es; auto. rewrite nth_error_upd_ne; auto.
            intros ->. apply Hne. apply (Hinj s src k'); auto. }
        assert (Bs : bk st src = b) by (unfold bk; rewrite Hk, Eb; auto).
        split.
        + split.
          * apply I.
          * intros p k' U' Hp' Hk'. unfold st', bucket. cbn [snd]. destruct (Nat.eq_dec k k') as [->|Hne].
            { rewrite nth_error_upd_eq by auto. exists (b ++ [cur]). split; auto.
              assert (p = src) by (apply (Hinj p src k'); auto). subst p.
              intros q Hq. apply in_app_or in Hq. destruct Hq as [Hq|[<-|[]]]; auto. }
            { rewrite nth_error_upd_ne by auto. apply (wf_slot _ (i_wf _ _ I)); auto. }
          * intros p U' Hp' Hk'. apply (wf_marked _ (i_wf _ _ I)); auto.
        + intros s U Hs' Hne. rewrite Bk in Hne by auto. destruct (Nat.eq_dec s src) as [->|].
          * auto.
          * apply (i_wait _ _ I); auto.
        + intros p [HL| ->] Hp Lv.
          * destruct (i_done _ _ I p HL Hp Lv) as [X|(s & HR' & Hin)]; auto.
            right. exists s. split; auto. rewrite Bk by apply (HRb _ _ HR').
            destruct (Nat.eq_dec s src) as [->|]; auto. rewrite Bs in Hin. apply in_or_app; auto.
          * right. exists src. split; auto. rewrite Bk by auto.
            destruct (Nat.eq_dec src src); [|congruence]. apply in_or_app. right. left. auto.
    Qed.
    Lemma fwd_factor_ok fuel num : R <= fuel -> forall L st cur src, inv L st ->
      (forall j, j < num -> Ref (cur + j) (src + j)) ->
      exists st', fwd_factor slot nz fuel cur src num st = Some st' /\
        inv (fun p => L p \/ cur <= p < cur + num) st' /\ (forall p, D (fst st) p -> D (fst st') p).
    Proof.
      intros Hf. induction num as [|num IH]; intros L st cur src I HR; cbn [fwd_factor].
      - exists st. split; auto. split; auto. eapply inv_ext; [|eauto]. intros p [?|?]; auto; lia.
      - pose proof (HR 0 ltac:(lia)) as HR0. rewrite !Nat.add_0_r in HR0.
        destruct (fwd_copy_ok L st fuel cur src I HR0 Hf) as (st1 & E1 & I1 & M1). rewrite E1. cbn [obind].
        destruct (IH _ st1 (cur + 1) (src + 1) I1) as (st2 & E2 & I2 & M2).
        { intros j Hj. replace (cur + 1 + j) with (cur + S j) by lia. replace (src + 1 + j) with (src + S j) by lia.
          apply HR. lia. }
        exists st2. split; auto. split; auto. eapply inv_ext; [|eauto]. cbv beta. intros p [?|?]; [auto|].
        destruct (Nat.eq_dec p cur); [auto|]. right. lia.
    Qed.
    (** when all positions are dealt with, the text is there *)
    Lemma inv_final st : inv (fun p => p < n) st -> b_buf (fst st) = text.
    Proof.
      intros I. apply all_decoded; [apply (wf_b _ (i_wf _ _ I))|].
      assert (G : forall r p, rank p < r -> p < n -> live p -> D (fst st) p).
      { induction r as [|r IH]; intros p Hr Hp Lv; [lia|].
        destruct (i_done _ _ I p Hp Hp Lv) as [X|(s & HR & Hin)]; auto.
        exfalso. assert (Hs : s < n) by apply (HRb _ _ HR). assert (Us : use s) by apply (HRu _ _ HR).
        apply (i_wait _ _ I s Us Hs).
        - intros E. rewrite E in Hin. destruct Hin.
        - apply IH; auto; [|eapply Ref_live; eauto]. pose proof (HRr _ _ HR). lia. }
      intros p Hp. apply (G (S (rank p))); auto.
    Qed.
  End Fwd.

  (** ** CompactDec and the queue list *)
  Definition all_use (p : nat) := True.
  Lemma some_inj p q k : p < n -> q < n -> Some p = Some k -> Some q = Some k -> p = q.
  Proof. congruence. Qed.
  Lemma all_used p s : Ref p s -> all_use p /\ all_use s. Proof. split; exact I. Qed.
  Notation dinv := (inv Some all_use).
  Lemma dinv_init : dinv (fun p => p < 0) (b_init n, repeat (Some []) n).
  Proof.
    assert (B : forall p, p < n -> bucket (repeat (Some []) n) p = Some []).
    { intros p Hp. unfold bucket. rewrite nth_error_repeat; auto. }
    split.
    - split; cbn [fst snd].
      + apply bwf_init.
      + intros p k _ Hp E. apply Some_inj in E; subst k. exists []. split; auto. intros q [].
      + discriminate.
    - intros s _ Hs H. exfalso. apply H. unfold bk. cbn [snd]. rewrite B; auto.
    - intros p H. lia.
  Qed.
  Lemma fwd_lits fuel es l : R <= fuel -> forall p q st, l = lits_between text p q -> p <= q -> q <= n ->
    dinv (fun x => x < p) st ->
    exists st', dinv (fun x => x < q) st' /\
      fwd_run Some nz fuel p (map ELit l ++ es) st = fwd_run Some nz fuel q es st'.
  Proof.
    intros Hf. induction l as [|c l IH]; intros p q st E Hpq Hq I.
    - assert (p = q). { pose proof (lits_between_len text p q Hq) as X. rewrite <- E in X. simpl in X. lia. }
      subst q. exists st. auto.
    - assert (Hlt : p < q). { pose proof (lits_between_len text p q Hq) as X. rewrite <- E in X. simpl in X. lia. }
      rewrite (lits_between_step text p q (val p)) in E by (auto; apply val_nth; lia).
      apply cons_inj in E. destruct E as [-> E]. cbn [map app fwd_run].
      destruct (dla_ok Some all_use all_used some_inj fuel p st (i_wf _ _ _ _ I) Logic.I ltac:(lia) ltac:(lia)) as (st1 & E1 & M1 & L1).
      rewrite E1. cbn [obind]. apply (IH (p + 1) q); auto; try lia.
      eapply inv_ext; [|eapply (inv_step Some all_use all_used); eauto]. cbv beta. intros; lia.
  Qed.
  Lemma fwd_run_ok fuel fs : R <= fuel -> forall p st, factors_ok p n fs ->
    (forall f j, In f fs -> j < f_len f -> Ref (f_pos f + j) (f_src f + j)) ->
    dinv (fun x => x < p) st ->
    exists st', fwd_run Some nz fuel p (events text n p fs) st = Some st' /\ dinv (fun x => x < n) st'.
  Proof.
    intros Hf. induction fs as [|f fs IH]; intros p st Hok HF I; cbn [events].
    - cbn [factors_ok] in Hok. rewrite <- (app_nil_r (map ELit _)).
      destruct (fwd_lits fuel [] _ Hf p n st eq_refl Hok (le_n _) I) as (st' & I' & E). exists st'. rewrite E. auto.
    - destruct Hok as (H1 & H2 & H3 & H4). pose proof (factors_ok_le _ _ _ H4).
      destruct (fwd_lits fuel (EFac (nn (f_src f)) (nn (f_len f)) :: events text n (f_pos f + f_len f) fs) _ Hf
                  p (f_pos f) st eq_refl H1 ltac:(lia) I) as (st1 & I1 & E1).
      rewrite E1. cbn [fwd_run]. rewrite !Nat2N.id.
      destruct (fwd_factor_ok Some all_use all_used some_inj fuel (f_len f) Hf _ st1 (f_pos f) (f_src f) I1)
        as (st2 & E2 & I2 & _); [intros j Hj; apply HF; auto; left; auto|].
      rewrite E2. cbn [obind]. apply IH; auto; [intros; apply HF; auto; right; auto|].
      eapply inv_ext; [|eauto]. cbv beta. intros; lia.
  Qed.
  Lemma dec_direct_ok fuel fs : R <= fuel -> factors_ok 0 n fs ->
    (forall f j, In f fs -> j < f_len f -> Ref (f_pos f + j) (f_src f + j)) ->
    dec_direct nz fuel n (events text n 0 fs) = Some text.
  Proof.
    intros Hf Hok HF. unfold dec_direct.
    destruct (fwd_run_ok fuel fs Hf 0 _ Hok HF dinv_init) as (st & E & I). rewrite E. cbn [obind].
    f_equal. exact (inv_final Some all_use all_used some_inj st I).
  Qed.

  (** ** Kept factors *)
  Hypothesis HRf : forall p s s', Ref p s -> Ref p s' -> s = s'.
  Definition in_kept (ks : list kept) (p : nat) := exists t s l, In (t, s, l) ks /\ t <= p < t + l.
  Record linv (ks : list kept) (st : bst) : Prop := {
    l_wf : bwf st;
    l_ref : forall t s l j, In (t, s, l) ks -> j < l -> Ref (t + j) (s + j);
    l_J : forall p s, Ref p s -> D st p -> D st s }.
  Record kinv (cur : nat) (st : bst * list kept) : Prop := {
    k_l : linv (snd st) (fst st);
    k_done : forall p, p < cur -> live p -> D (fst st) p \/ in_kept (snd st) p;
    k_fresh : forall p, cur <= p -> ~ D (fst st) p }.
  Lemma kinv_init : kinv 0 (b_init n, []).
  Proof.
    assert (X : forall p, ~ D (b_init n) p).
    { intros p H. pose proof (D_lt _ _ bwf_init H) as Hp. pose proof (bw_val _ bwf_init _ H) as V.
      unfold D, bdec in H. destruct nz; cbn [b_init b_buf b_dec] in H.
      - rewrite nth_error_repeat in H by auto. discriminate.
      - rewrite nth_error_repeat in H by auto. discriminate. }
    split; cbn [fst snd]; auto; [|intros p Hp; lia].
    split; auto using bwf_init; [intros ? ? ? ? []|]. intros p s _ H. exfalso. eapply X; eauto.
  Qed.
  Lemma kinv_lit cur st : kinv cur st -> cur < n -> (forall s, ~ Ref cur s) ->
    exists st', bput (fst st) cur (val cur) = Some st' /\ kinv (cur + 1) (st', snd st).
  Proof.
    intros K Hc Hl. destruct (bput_ok (fst st) cur (l_wf _ _ (k_l _ _ K)) Hc) as (st' & E & W & HD).
    pose proof (bput_val_mono _ _ _ E (l_wf _ _ (k_l _ _ K)) Hc) as Mono.
    exists st'. split; auto. split; cbn [fst snd].
    - split; auto; [apply (l_ref _ _ (k_l _ _ K))|].
      intros p s HR H. apply Mono. apply HD in H. destruct H as [[-> _]|[_ H]]; [exfalso; eapply Hl; eauto|].
      eapply (l_J _ _ (k_l _ _ K)); eauto.
    - intros p Hp Lv. destruct (Nat.eq_dec p cur) as [->|]; [left; apply HD; auto|].
      destruct (k_done _ _ K p ltac:(lia) Lv); auto.
    - intros p Hp H. apply HD in H. destruct H as [[? _]|[_ H]]; [lia|]. eapply (k_fresh _ _ K); [|eauto]. lia.
  Qed.
  Lemma keep_factor_ok num : forall cur src stored st, kinv cur st ->
    (forall j, j < num -> Ref (cur + j) (src + j)) ->
    (stored = true -> exists t s l, In (t, s, l) (snd st) /\ t <= cur /\ cur + num <= t + l) ->
    exists st', keep_factor nz cur src num stored st = Some st' /\ kinv (cur + num) st'.
  Proof.
    induction num as [|num IH]; intros cur src stored st K HR Hst; cbn [keep_factor].
    - exists st. rewrite Nat.add_0_r. auto.
    - pose proof (HR 0 ltac:(lia)) as HR0. rewrite !Nat.add_0_r in HR0. destruct (HRb _ _ HR0) as [Hc Hs].
      pose proof (k_l _ _ K) as KL. pose proof (l_wf _ _ KL) as W.
      assert (HR' : forall j, j < num -> Ref (cur + 1 + j) (src + 1 + j)).
      { intros j Hj. replace (cur + 1 + j) with (cur + S j) by lia. replace (src + 1 + j) with (src + S j) by lia. apply HR; lia. }
      destruct (bdec_total _ src W Hs) as (d & -> & Hd). cbn [obind]. destruct d.
      + rewrite (bget_D _ _ W Hs) by tauto. cbn [obind]. rewrite <- (Ref_val _ _ HR0).
        destruct (bput_ok (fst st) cur W Hc) as (b1 & E & W1 & HD). rewrite E. cbn [obind].
        pose proof (bput_val_mono _ _ _ E W Hc) as Mono.
        destruct (IH (cur + 1) (src + 1) stored (b1, snd st)) as (st' & E' & K'); auto.
        * split; cbn [fst snd].
          -- split; auto; [apply (l_ref _ _ KL)|]. intros p s HRp H. apply Mono. apply HD in H.
             destruct H as [[-> _]|[_ H]]; [rewrite (HRf _ _ _ HRp HR0); tauto|]. eapply (l_J _ _ KL); eauto.
          -- intros p Hp Lv. destruct (Nat.eq_dec p cur) as [->|]; [left; apply HD; auto|].
             destruct (k_done _ _ K p ltac:(lia) Lv); auto.
          -- intros p Hp H. apply HD in H. destruct H as [[? _]|[_ H]]; [lia|]. eapply (k_fresh _ _ K); [|eauto]. lia.
        * intros X. destruct (Hst X) as (t & s & l & A & B & C). exists t, s, l. split; auto. lia.
        * exists st'. split; auto. replace (cur + S num) with (cur + 1 + num) by lia. auto.
      + set (ks' := if stored then snd st else snd st ++ [(cur, src, S num)]).
        assert (Hin : exists t s l, In (t, s, l) ks' /\ t <= cur /\ cur + S num <= t + l).
        { unfold ks'. destruct stored; auto. exists cur, src, (S num). split; [apply in_or_app; right; left; auto|lia]. }
        assert (Hsub : forall x, In x (snd st) -> In x ks').
        { intros x Hx. unfold ks'. destruct stored; auto. apply in_or_app; auto. }
        destruct (IH (cur + 1) (src + 1) true (fst st, ks')) as (st' & E' & K'); auto.
        * split; cbn [fst snd].
          -- split; auto; [|apply (l_J _ _ KL)]. unfold ks'. destruct stored; [apply (l_ref _ _ KL)|].
             intros t s l j Hx Hj. apply in_app_or in Hx. destruct Hx as [Hx|[Hx|[]]]; [eapply (l_ref _ _ KL); eauto|].
             inversion Hx; subst. apply HR; auto.
          -- intros p Hp Lv. destruct (Nat.eq_dec p cur) as [->|].
             { right. destruct Hin as (t & s & l & A & B & C). exists t, s, l. split; auto. lia. }
             destruct (k_done _ _ K p ltac:(lia) Lv) as [X|(t & s & l & A & B)]; auto.
             right. exists t, s, l. auto.
          -- intros p Hp. apply (k_fresh _ _ K). lia.
        * intros _. cbn [snd]. destruct Hin as (t & s & l & A & B & C). exists t, s, l. split; auto. lia.
        * exists st'. split; auto. replace (cur + S num) with (cur + 1 + num) by lia. auto.
  Qed.
  Lemma keep_lits es l : forall p q st, l = lits_between text p q -> p <= q -> q <= n ->
    (forall x s, p <= x < q -> ~ Ref x s) -> kinv p st ->
    exists st', kinv q st' /\ keep_run nz p (map ELit l ++ es) st = keep_run nz q es st'.
  Proof.
    induction l as [|c l IH]; intros p q st E Hpq Hq Hl K.
    - assert (p = q). { pose proof (lits_between_len text p q Hq) as X. rewrite <- E in X. simpl in X. lia. }
      subst q. exists st. auto.
    - assert (Hlt : p < q). { pose proof (lits_between_len text p q Hq) as X. rewrite <- E in X. simpl in X. lia. }
      rewrite (lits_between_step text p q (val p)) in E by (auto; apply val_nth; lia).
      apply cons_inj in E. destruct E as [-> E]. cbn [map app keep_run].
      destruct (kinv_lit p st K ltac:(lia)) as (st1 & E1 & K1); [intros s; apply Hl; lia|].
      rewrite E1. cbn [obind]. apply (IH (p + 1) q); auto; try lia. intros x s Hx. apply Hl. lia.
  Qed.
  Lemma keep_run_ok fs : forall p st, factors_ok p n fs ->
    (forall f j, In f fs -> j < f_len f -> Ref (f_pos f + j) (f_src f + j)) ->
    (forall x s, p <= x -> Ref x s -> exists f, In f fs /\ f_pos f <= x < f_pos f + f_len f) ->
    kinv p st ->
    exists st', keep_run nz p (events text n p fs) st = Some st' /\ kinv n st'.
  Proof.
    induction fs as [|f fs IH]; intros p st Hok HF HL K; cbn [events].
    - cbn [factors_ok] in Hok. rewrite <- (app_nil_r (map ELit _)).
      destruct (keep_lits [] _ p n st eq_refl Hok (le_n _)) as (st' & K' & E); auto.
      { intros x s Hx HR. destruct (HL x s ltac:(lia) HR) as (f & [] & _). }
      exists st'. rewrite E. auto.
    - destruct Hok as (H1 & H2 & H3 & H4). pose proof (factors_ok_le _ _ _ H4).
      destruct (keep_lits (EFac (nn (f_src f)) (nn (f_len f)) :: events text n (f_pos f + f_len f) fs) _
                  p (f_pos f) st eq_refl H1 ltac:(lia)) as (st1 & K1 & E1); auto.
      { intros x s Hx HR. destruct (HL x s ltac:(lia) HR) as (g & [<-|Hg] & Hc); [lia|].
        destruct (factors_ok_in _ _ _ _ H4 Hg). lia. }
      rewrite E1. cbn [keep_run]. rewrite !Nat2N.id.
      destruct (keep_factor_ok (f_len f) (f_pos f) (f_src f) false st1 K1) as (st2 & E2 & K2);
        [intros j Hj; apply HF; auto; left; auto|discriminate|].
      rewrite E2. cbn [obind]. apply IH; auto; [intros; apply HF; auto; right; auto|].
      intros x s Hx HR. destruct (HL x s ltac:(lia) HR) as (g & [<-|Hg] & Hc); [lia|]. exists g. auto.
  Qed.

  (** lazy rounds keep the invariant *)
  Lemma upd_same {A} (l : list A) i x : nth_error l i = Some x -> upd l i x = l.
  Proof.
    revert i; induction l as [|y l IH]; intros [|i] H; simpl in *; try discriminate.
    - apply Some_inj in H. subst; auto.
    - f_equal; auto.
  Qed.
  Lemma lazy_factor_ok ks num : forall t s st, linv ks st -> (forall j, j < num -> Ref (t + j) (s + j)) ->
    exists st', lazy_factor nz t s num st = Some st' /\ linv ks st' /\ (forall q, D st q -> D st' q).
  Proof.
    induction num as [|num IH]; intros t s st L HR; cbn [lazy_factor].
    - exists st. auto.
    - pose proof (HR 0 ltac:(lia)) as HR0. rewrite !Nat.add_0_r in HR0. destruct (HRb _ _ HR0) as [Ht Hs].
      assert (HR' : forall j, j < num -> Ref (t + 1 + j) (s + 1 + j)).
      { intros j Hj. replace (t + 1 + j) with (t + S j) by lia. replace (s + 1 + j) with (s + S j) by lia. apply HR; lia. }
      pose proof (l_wf _ _ L) as W.
      assert (G : exists v d st1, bget st s = Some v /\ (if nz then Some true else bdec false st s) = Some d /\
        (if d then bput st t v else Some st) = Some st1 /\ linv ks st1 /\ (forall q, D st q -> D st1 q)).
      { destruct (bdec_total st s W Hs) as (d & Ed & Hd). destruct d.
        - assert (HDs : D st s) by tauto. rewrite (bget_D _ _ W Hs HDs). rewrite <- (Ref_val _ _ HR0).
          destruct (bput_ok st t W Ht) as (st1 & E & W1 & HD). pose proof (bput_val_mono _ _ _ E W Ht) as Mono.
          exists (val t), true, st1. split; auto. split; [unfold bdec in Ed |- *; destruct nz; auto|]. split; auto. split; auto.
          split; auto; [apply (l_ref _ _ L)|]. intros p s' HRp H. apply Mono. apply HD in H.
          destruct H as [[-> _]|[_ H]]; [rewrite (HRf _ _ _ HRp HR0); auto|]. eapply (l_J _ _ L); eauto.
        - assert (HDs : ~ D st s) by (intros X; apply Hd in X; discriminate).
          rewrite (bw_zero _ W s Hs HDs). destruct nz eqn:En.
          + assert (HDt : ~ D st t) by (intros X; apply HDs; eapply (l_J _ _ L); eauto).
            pose proof (bw_zero _ W t Ht HDt) as Z. unfold bget in Z.
            exists 0%N, true, (mk_b (b_buf st) (upd (b_dec st) t true)).
            split; auto. split; auto. split.
            { unfold bput. rewrite (bw_len _ W). replace (t <? n) with true by (symmetry; apply Nat.ltb_lt; auto).
              rewrite (upd_same _ _ _ Z). auto. }
            assert (HDeq : forall q, D (mk_b (b_buf st) (upd (b_dec st) t true)) q <-> D st q).
            { intros q. unfold D, bdec. rewrite En. cbn [b_buf]. tauto. }
            split; [|intros q Hq; apply HDeq; auto]. split.
            * split; cbn [b_buf b_dec]; rewrite ?upd_length; try apply W.
              -- intros p Hp. apply HDeq in Hp. exact (bw_val _ W _ Hp).
              -- intros p Hp Hn. apply (bw_zero _ W); auto. rewrite <- HDeq. auto.
            * apply (l_ref _ _ L).
            * intros p s' HRp. rewrite !HDeq. apply (l_J _ _ L); auto.
          + exists 0%N, false, st. auto. }
      destruct G as (v & d & st1 & -> & E2 & E3 & L1 & M1). cbn [obind]. rewrite E2. cbn [obind]. rewrite E3. cbn [obind].
      destruct (IH (t + 1) (s + 1) st1 L1 HR') as (st2 & E4 & L2 & M2). exists st2. auto.
  Qed.
  Lemma lazy_round_ok all ks : (forall x, In x ks -> In x all) -> forall st, linv all st ->
    exists st', lazy_round nz ks st = Some st' /\ linv all st' /\ (forall q, D st q -> D st' q).
  Proof.
    induction ks as [|[[t s] l] ks IH]; intros Hs st L; cbn [lazy_round]; eauto.
    destruct (lazy_factor_ok all l t s st L) as (st1 & E1 & L1 & M1).
    { intros j Hj. eapply (l_ref _ _ L); eauto. apply Hs; left; auto. }
    rewrite E1. cbn [obind]. destruct (IH ltac:(intros; apply Hs; right; auto) st1 L1) as (st2 & E2 & L2 & M2).
    exists st2. auto.
  Qed.
  Lemma lazy_rounds_ok r ks : forall st, linv ks st ->
    exists st', lazy_rounds nz r ks st = Some st' /\ linv ks st' /\ (forall q, D st q -> D st' q).
  Proof.
    induction r as [|r IH]; intros st L; cbn [lazy_rounds]; eauto.
    destruct (lazy_round_ok ks ks ltac:(auto) st L) as (st1 & E1 & L1 & M1). rewrite E1. cbn [obind].
    destruct (IH st1 L1) as (st2 & E2 & L2 & M2). exists st2. auto.
  Qed.

  (** ** EagerScanDec *)
  Section Eager.
    Hypothesis Hnz : nz = true.
    Hypothesis Hn : 0 < n.
    Hypothesis Hlast : val (n - 1) = 0%N.
    Hypothesis Hpos : forall p, p < n - 1 -> val p <> 0%N.
    Definition euse p := p < n - 1.
    Lemma euse_ref p s : Ref p s -> euse p /\ euse s.
    Proof.
      intros H. destruct (HRb _ _ H) as [Hp Hs]. pose proof (Ref_val _ _ H) as V. pose proof (HRr _ _ H) as Rk.
      assert (X : forall x, x < n -> val x = 0%N -> x = n - 1).
      { intros x Hx E. destruct (Nat.lt_ge_cases x (n - 1)); [exfalso; eapply Hpos; eauto|lia]. }
      assert (Y : forall x, x < n -> val x <> 0%N -> euse x).
      { intros x Hx E. unfold euse. destruct (Nat.lt_ge_cases x (n - 1)); auto. exfalso. apply E.
        replace x with (n - 1) by lia. auto. }
      destruct (N.eq_dec (val p) 0) as [E|E].
      - rewrite (X p), (X s) in Rk by congruence. lia.
      - split; apply Y; congruence.
    Qed.
    Lemma count_firstn_mono l : forall a b, a <= b -> count_true (firstn a l) <= count_true (firstn b l).
    Proof.
      unfold count_true. induction l as [|x l IH]; intros a b H; [rewrite !firstn_nil; auto|].
      destruct a, b; simpl; try lia. specialize (IH a b ltac:(lia)). destruct (bool_dec x true); lia.
    Qed.
    Lemma count_firstn_S l p : nth_error l p = Some true -> count_true (firstn (p + 1) l) = S (count_true (firstn p l)).
    Proof.
      unfold count_true. revert p; induction l as [|x l IH]; intros [|p] H; simpl in *; try discriminate.
      - apply Some_inj in H. subst. reflexivity.
      - destruct (bool_dec x true); rewrite IH by auto; auto.
    Qed.
    Lemma eager_inj bv p q k : p < n -> q < n -> eager_slot bv p = Some k -> eager_slot bv q = Some k -> p = q.
    Proof.
      intros _ _. unfold eager_slot. destruct (nth_error bv p) as [[]|] eqn:Ep; try discriminate.
      destruct (nth_error bv q) as [[]|] eqn:Eq; try discriminate. intros A B.
      apply Some_inj in A. apply Some_inj in B. rewrite count_firstn_S in A, B by auto.
      destruct (Nat.lt_trichotomy p q) as [H|[H|H]]; auto.
      - pose proof (count_firstn_mono bv (p + 1) q ltac:(lia)) as X. rewrite count_firstn_S in X by auto. lia.
      - pose proof (count_firstn_mono bv (q + 1) p ltac:(lia)) as X. rewrite count_firstn_S in X by auto. lia.
    Qed.
    Lemma marks_nth st p : bwf st -> p < n -> exists b, nth_error (marks (b_buf st)) p = Some b /\ (b = true <-> ~ D st p).
    Proof.
      intros W Hp. destruct (nth_error (b_buf st) p) as [v|] eqn:E.
      - exists (v =? 0)%N. split; [unfold marks; rewrite (map_nth_error _ _ _ E); auto|].
        unfold D, bdec. rewrite Hnz, E. cbn [obind]. destruct (v =? 0)%N; simpl; split; intros; congruence.
      - apply nth_error_None in E. rewrite (bw_len _ W) in E. lia.
    Qed.
    Lemma eager_init st : bwf st -> 
      inv (eager_slot (marks (b_buf st))) euse (fun p => D st p) (st, eager_buckets (marks (b_buf st))).
    Proof.
      intros W. set (bv := marks (b_buf st)).
      assert (Hbk : forall p k, euse p -> eager_slot bv p = Some k -> bucket (eager_buckets bv) k = Some []).
      { intros p k U E. unfold euse in U. unfold eager_slot in E. destruct (nth_error bv p) as [[]|] eqn:Ep; try discriminate.
        apply Some_inj in E. destruct (marks_nth st (n - 1) W ltac:(lia)) as (b & Eb & Hb).
        assert (Hd : ~ D st (n - 1)).
        { intros X. pose proof (bget_D st (n - 1) W ltac:(lia) X) as V. unfold bget in V. unfold D, bdec in X.
          rewrite Hnz, V, Hlast in X. discriminate. }
        apply Hb in Hd. subst b. fold bv in Eb.
        assert (Hlen : length bv = n) by (unfold bv, marks; rewrite map_length; apply W).
        assert (HS : count_true bv = S (count_true (firstn (n - 1) bv))).
        { rewrite <- (count_firstn_S _ _ Eb). f_equal. symmetry. apply firstn_all2. lia. }
        pose proof (count_firstn_mono bv (p + 1) (n - 1) ltac:(lia)).
        unfold bucket, eager_buckets. rewrite nth_error_app1 by (rewrite repeat_length; lia).
        rewrite nth_error_repeat by lia. auto. }
      split.
      - split; cbn [fst snd]; auto.
        + intros p k U Hp E. exists []. split; [eauto|intros q []].
        + intros p U Hp E. unfold eager_slot in E. destruct (marks_nth st p W Hp) as (b & Eb & Hb). fold bv in Eb.
          rewrite Eb in E. destruct b; [discriminate|].
          destruct (bdec_total st p W Hp) as (d & Ed & Hd). destruct d; [tauto|].
          assert (X : false = true) by (apply Hb; intros X; apply Hd in X; discriminate). discriminate.
      - intros s U Hs H. exfalso. apply H. unfold bk. cbn [snd]. destruct (eager_slot bv s) as [k|] eqn:E; auto.
        rewrite (Hbk s k); auto.
      - cbn [fst]. auto.
    Qed.
    Lemma eager_run_ok slot fuel ks : (forall p q k, p < n -> q < n -> slot p = Some k -> slot q = Some k -> p = q) ->
      R <= fuel -> forall L st, inv slot euse L st ->
      (forall t s l j, In (t, s, l) ks -> j < l -> Ref (t + j) (s + j)) ->
      exists st', eager_run slot nz fuel ks st = Some st' /\ inv slot euse (fun p => L p \/ in_kept ks p) st'.
    Proof.
      intros Hi Hf. induction ks as [|[[t s] l] ks IH]; intros L st I HR; cbn [eager_run].
      - exists st. split; auto. eapply inv_ext; [|eauto]. intros p [?|(t & s & l & [] & _)]; auto.
      - destruct (fwd_factor_ok slot euse euse_ref Hi fuel l Hf L st t s I) as (st1 & E1 & I1 & _).
        { intros j Hj. apply (HR t s l); auto. left; auto. }
        rewrite E1. cbn [obind]. destruct (IH _ st1 I1) as (st2 & E2 & I2).
        { intros t' s' l' j Hx Hj. apply (HR t' s' l'); auto. right; auto. }
        exists st2. split; auto. eapply inv_ext; [|eauto]. cbv beta.
        intros p [?|(t' & s' & l' & [Hx|Hx] & Hc)]; auto.
        + inversion Hx; subst. left. right. auto.
        + right. exists t', s', l'. auto.
    Qed.
    Lemma scan_dec_ok scans fuel fs : R <= fuel -> factors_ok 0 n fs ->
      (forall f j, In f fs -> j < f_len f -> Ref (f_pos f + j) (f_src f + j)) ->
      (forall x s, Ref x s -> exists f, In f fs /\ f_pos f <= x < f_pos f + f_len f) ->
      scan_dec scans fuel n (events text n 0 fs) = Some text.
    Proof.
      intros Hf Hok HF HL. unfold scan_dec. rewrite <- Hnz at 1.
      destruct (keep_run_ok fs 0 (b_init n, []) Hok HF) as ((st & ks) & E & K); [eauto|apply kinv_init|].
      rewrite E. cbn [obind]. destruct (lazy_rounds_ok scans ks st (k_l _ _ K)) as (st1 & E1 & L1 & M1).
      rewrite <- Hnz at 1. rewrite E1. cbn [obind].
      destruct (eager_run_ok (eager_slot (marks (b_buf st1))) fuel ks (eager_inj _) Hf _ _ (eager_init st1 (l_wf _ _ L1)))
        as (st2 & E2 & I2); [intros; eapply (l_ref _ _ L1); eauto|].
      rewrite <- Hnz. rewrite E2. cbn [obind]. f_equal.
      apply (inv_final (eager_slot (marks (b_buf st1))) euse euse_ref (eager_inj _)). split; try apply I2.
      intros p Hp _ Lv. apply (i_done _ _ _ _ I2); auto.
      destruct (k_done _ _ K p Hp Lv) as [X|X]; [left; apply M1; auto|right; auto].
    Qed.
  End Eager.

  (** ** MultimapBuffer *)
  Section MM.
    Hypothesis Hnz : nz = false.
    Variable pick : picker.
    Hypothesis Hpick : picker_ok pick.
    Lemma mm_live p : live p. Proof. left; auto. Qed.
    Definition low (r : nat) (e : nat * nat) : bool := rank (fst e) <? r.
    Definition keyed (p : nat) (e : nat * nat) : bool := fst e =? p.

    Lemma mm_erase_ok e m : In e m -> exists m', mm_erase e m = Some m' /\
      (forall x, In x m' -> In x m) /\ (forall x, In x m -> x = e \/ In x m') /\
      (forall P, P e = false -> filter P m' = filter P m) /\
      (forall P, P e = true -> S (length (filter P m')) = length (filter P m)).
    Proof.
      induction m as [|x m IH]; intros H; [destruct H|]. cbn [mm_erase].
      destruct (pair_dec x e) as [->|Hne].
      - exists m. split; auto. split; [right; auto|]. split; [intros x [<-|?]; auto|].
        split; intros P HP; simpl; rewrite HP; auto.
      - destruct H as [H|H]; [contradiction|]. destruct (IH H) as (m' & -> & A & B & C & E). cbn [obind].
        exists (x :: m'). split; auto. split; [intros y [<-|Hy]; [left; auto|right; auto]|].
        split; [intros y [<-|Hy]; [right; left; auto|destruct (B y Hy); auto; right; right; auto]|].
        split; intros P HP; simpl; [rewrite (C P HP); auto|]. specialize (E P HP). destruct (P x); simpl; lia.
    Qed.
    Record mwf (st : bst * mmap) : Prop := {
      mw_b : bwf (fst st); mw_ref : forall s q, In (s, q) (snd st) -> Ref q s }.
    Record mmsteps (r : nat) (st st' : bst * mmap) : Prop := {
      mm_wf : mwf st';
      mm_mono : forall p, D (fst st) p -> D (fst st') p;
      mm_sub : forall e, In e (snd st') -> In e (snd st);
      mm_drop : forall e, In e (snd st) -> In e (snd st') \/ D (fst st') (snd e);
      mm_low : filter (low r) (snd st') = filter (low r) (snd st);
      mm_new : forall s q, D (fst st') s -> ~ D (fst st) s -> ~ In (s, q) (snd st') }.
    Lemma filter_filter_le r r' (m : mmap) : r <= r' -> filter (low r) (filter (low r') m) = filter (low r) m.
    Proof.
      intros H. induction m as [|x m IH]; simpl; auto. unfold low in *. destruct (rank (fst x) <? r') eqn:E; simpl.
      - rewrite IH. auto.
      - replace (rank (fst x) <? r) with false by (symmetry; apply Nat.ltb_ge in E; apply Nat.ltb_ge; lia). auto.
    Qed.
    Lemma mmsteps_refl r st : mwf st -> mmsteps r st st.
    Proof. intros W. split; auto; intros; contradiction. Qed.
    Lemma mmsteps_trans r st1 st2 st3 : mmsteps r st1 st2 -> mmsteps r st2 st3 -> mmsteps r st1 st3.
    Proof.
      intros A B. split.
      - apply B.
      - intros p H. apply (mm_mono _ _ _ B), (mm_mono _ _ _ A); auto.
      - intros e H. apply (mm_sub _ _ _ A), (mm_sub _ _ _ B); auto.
      - intros e H. destruct (mm_drop _ _ _ A e H) as [X|X].
        + apply (mm_drop _ _ _ B); auto.
        + right. apply (mm_mono _ _ _ B); auto.
      - rewrite (mm_low _ _ _ B). apply (mm_low _ _ _ A).
      - intros s q H3 H1 Hin. unfold D in *. destruct (bdec nz (fst st2) s) as [[]|] eqn:E2.
        + apply (mm_new _ _ _ A s q); auto. apply (mm_sub _ _ _ B); auto.
        + apply (mm_new _ _ _ B s q); auto. unfold D. congruence.
        + apply (mm_new _ _ _ B s q); auto. unfold D. congruence.
    Qed.
    Lemma mmsteps_weaken r r' st st' : r' <= r -> mmsteps r st st' -> mmsteps r' st st'.
    Proof.
      intros H A. split; try apply A. rewrite <- (filter_filter_le r' r (snd st')), <- (filter_filter_le r' r (snd st)) by auto.
      f_equal. apply A.
    Qed.
    Lemma filter_keyed r p (m : mmap) : rank p < r -> filter (keyed p) (filter (low r) m) = filter (keyed p) m.
    Proof.
      intros H. induction m as [|x m IH]; auto. cbn [filter]. destruct (low r x) eqn:E; cbn [filter].
      - rewrite IH. auto.
      - destruct (keyed p x) eqn:F; auto. unfold keyed, low in *. apply Nat.eqb_eq in F. rewrite F in E.
        apply Nat.ltb_ge in E. lia.
    Qed.
    Lemma mm_loop_ok f pos :
      (forall q st, mwf st -> Ref q pos -> exists st', f q st = Some st' /\ mmsteps (rank q) st st' /\ D (fst st') q) ->
      forall k st, mwf st -> length (filter (keyed pos) (snd st)) <= k ->
      exists st', mm_loop pick f pos k st = Some st' /\ mmsteps (rank pos) st st' /\ (forall q, ~ In (pos, q) (snd st')).
    Proof.
      intros Hf. induction k as [|k IH]; intros st W Hk; cbn [mm_loop]; pose proof (Hpick (snd st) pos) as HP;
        destruct (pick (snd st) pos) as [q|] eqn:Ep.
      - assert (X : In (pos, q) (filter (keyed pos) (snd st))) by (apply filter_In; split; auto; unfold keyed; simpl; apply Nat.eqb_refl).
        destruct (filter (keyed pos) (snd st)); [destruct X|simpl in Hk; lia].
      - exists st. split; auto. split; [apply mmsteps_refl; auto|exact HP].
      - assert (HRq : Ref q pos) by (apply (mw_ref _ W); auto).
        destruct (Hf q st W HRq) as (st1 & E1 & M1 & D1). rewrite E1. cbn [obind].
        assert (Hkey : filter (keyed pos) (snd st1) = filter (keyed pos) (snd st)).
        { rewrite <- (filter_keyed (rank q) pos (snd st1)), <- (filter_keyed (rank q) pos (snd st)) by (apply HRr; auto).
          f_equal. apply M1. }
        assert (Hin : In (pos, q) (snd st1)).
        { apply (proj1 (filter_In (keyed pos) (pos, q) (snd st1))). rewrite Hkey. apply filter_In. split; auto. apply Nat.eqb_refl. }
        destruct (mm_erase_ok (pos, q) (snd st1) Hin) as (m' & Em & A & B & C & F). rewrite Em. cbn [obind].
        assert (M2 : mmsteps (rank pos) st (fst st1, m')).
        { eapply mmsteps_trans; [eapply mmsteps_weaken; [|exact M1]; pose proof (HRr _ _ HRq); lia|].
          split; cbn [fst snd]; auto.
          - split; cbn [fst snd]; [apply (mw_b _ (mm_wf _ _ _ M1))|]. intros s q' X. apply (mw_ref _ (mm_wf _ _ _ M1)). auto.
          - intros e X. destruct (B e X) as [->|Y]; auto.
          - apply C. unfold low. simpl. apply Nat.ltb_irrefl. }
        destruct (IH (fst st1, m') (mm_wf _ _ _ M2)) as (st3 & E3 & M3 & N3).
        { cbn [snd]. specialize (F (keyed pos) (Nat.eqb_refl _)). rewrite Hkey in F. lia. }
        exists st3. split; auto. split; auto. eapply mmsteps_trans; eauto.
      - exists st. split; auto. split; [apply mmsteps_refl; auto|exact HP].
    Qed.
    Lemma filter_le {A} (P : A -> bool) l : length (filter P l) <= length l.
    Proof. induction l; simpl; auto. destruct (P a); simpl; lia. Qed.
    Lemma mm_dla_ok fuel : forall pos st, mwf st -> pos < n -> R - rank pos <= fuel ->
      exists st', mm_dla pick fuel pos (val pos) st = Some st' /\ mmsteps (rank pos) st st' /\ D (fst st') pos.
    Proof.
      induction fuel as [|fuel IH]; intros pos st W Hp Hf.
      { pose proof (HRk pos Hp). lia. }
      cbn [mm_dla]. destruct (bput_ok (fst st) pos (mw_b _ W) Hp) as (b1 & E1 & W1 & HD1). rewrite E1. cbn [obind].
      pose proof (bput_val_mono _ _ _ E1 (mw_b _ W) Hp) as Mono1.
      destruct (mm_loop_ok (fun q => mm_dla pick fuel q (val pos)) pos) with (k := length (snd st)) (st := (b1, snd st))
        as (st2 & E2 & M2 & N2).
      { intros q st' W' HRq. rewrite <- (Ref_val _ _ HRq). apply IH; auto.
        - apply (HRb _ _ HRq).
        - pose proof (HRr _ _ HRq). lia. }
      { split; cbn [fst snd]; auto. apply (mw_ref _ W). }
      { cbn [snd]. apply filter_le. }
      rewrite E2. exists st2. split; auto. split.
      - split; try apply M2.
        + intros p H. apply (mm_mono _ _ _ M2). apply Mono1; auto.
        + intros s q H3 H1. destruct (Nat.eq_dec s pos) as [->|Hne]; [apply N2|].
          apply (mm_new _ _ _ M2); auto. cbn [fst]. intros X. apply HD1 in X. destruct X as [[? _]|[_ X]]; contradiction.
      - apply (mm_mono _ _ _ M2). cbn [fst]. apply HD1. left. split; auto. apply mm_live.
    Qed.
    Record minv (L : nat -> Prop) (st : bst * mmap) : Prop := {
      mi_wf : mwf st;
      mi_wait : forall s q, In (s, q) (snd st) -> ~ D (fst st) s;
      mi_done : forall p, L p -> p < n -> D (fst st) p \/ exists s, Ref p s /\ In (s, p) (snd st) }.
    Lemma minv_ext (L L' : nat -> Prop) st : (forall p, L' p -> L p) -> minv L st -> minv L' st.
    Proof. intros H [A B C]. split; auto. Qed.
    Lemma mm_factor_ok fuel num : R <= fuel -> forall L st t s, minv L st ->
      (forall j, j < num -> Ref (t + j) (s + j)) ->
      exists st', mm_factor pick fuel t s num st = Some st' /\ minv (fun p => L p \/ t <= p < t + num) st'.
    Proof.
      intros Hf. induction num as [|num IH]; intros L st t s I HR; cbn [mm_factor].
      - exists st. split; auto. eapply minv_ext; [|eauto]. intros p [?|?]; auto; lia.
      - pose proof (HR 0 ltac:(lia)) as HR0. rewrite !Nat.add_0_r in HR0. destruct (HRb _ _ HR0) as [Ht Hs].
        assert (HR' : forall j, j < num -> Ref (t + 1 + j) (s + 1 + j)).
        { intros j Hj. replace (t + 1 + j) with (t + S j) by lia. replace (s + 1 + j) with (s + S j) by lia. apply HR; lia. }
        pose proof (mi_wf _ _ I) as W.
        assert (G : exists st1, (do d <- bdec false (fst st) s;
            if d then do v <- bget (fst st) s; mm_dla pick fuel t v st else Some (fst st, (s, t) :: snd st)) = Some st1 /\
            minv (fun p => L p \/ p = t) st1).
        { destruct (bdec_total (fst st) s (mw_b _ W) Hs) as (d & Ed & Hd). rewrite Hnz in Ed. rewrite Ed. cbn [obind]. destruct d.
          - rewrite (bget_D _ _ (mw_b _ W) Hs) by tauto. cbn [obind]. rewrite <- (Ref_val _ _ HR0).
            destruct (mm_dla_ok fuel t st W Ht ltac:(lia)) as (st1 & E1 & M1 & D1). exists st1. split; auto. split.
            + apply M1.
            + intros s' q Hin X. destruct (bdec_total (fst st) s' (mw_b _ W)) as (d' & Ed' & Hd').
              { apply (HRb q). apply (mw_ref _ W). apply (mm_sub _ _ _ M1); auto. }
              destruct d'.
              * apply (mi_wait _ _ I s' q); [apply (mm_sub _ _ _ M1); auto|tauto].
              * apply (mm_new _ _ _ M1 s' q); auto. intros Y. apply Hd' in Y. discriminate.
            + intros p [HL| ->] Hp; auto. destruct (mi_done _ _ I p HL Hp) as [X|(s' & HR2 & Hin)].
              * left. apply (mm_mono _ _ _ M1); auto.
              * destruct (mm_drop _ _ _ M1 _ Hin) as [Y|Y]; [right; exists s'; auto|left; auto].
          - assert (HDs : ~ D (fst st) s) by (intros X; apply Hd in X; discriminate).
            eexists. split; [reflexivity|]. split; cbn [fst snd].
            + split; cbn [fst snd]; [apply W|]. intros s' q [X|X]; [inversion X; subst; auto|apply (mw_ref _ W); auto].
            + intros s' q [X|X]; [inversion X; subst; auto|apply (mi_wait _ _ I s' q); auto].
            + intros p [HL| ->] Hp.
              * destruct (mi_done _ _ I p HL Hp) as [X|(s' & HR2 & Hin)]; auto. right. exists s'. split; auto. right; auto.
              * right. exists s. split; auto. left; auto. }
        destruct G as (st1 & E1 & I1).
        destruct (bdec false (fst st) s) as [d|]; cbn [obind] in E1 |- *; [|discriminate]. rewrite E1. cbn [obind].
        destruct (IH _ st1 (t + 1) (s + 1) I1 HR') as (st2 & E2 & I2). exists st2. split; auto.
        eapply minv_ext; [|eauto]. cbv beta. intros p [?|?]; [auto|]. destruct (Nat.eq_dec p t); [auto|right; lia].
    Qed.
    Lemma mm_run_ok fuel ks : R <= fuel -> forall L st, minv L st ->
      (forall t s l j, In (t, s, l) ks -> j < l -> Ref (t + j) (s + j)) ->
      exists st', mm_run pick fuel ks st = Some st' /\ minv (fun p => L p \/ in_kept ks p) st'.
    Proof.
      intros Hf. induction ks as [|[[t s] l] ks IH]; intros L st I HR; cbn [mm_run].
      - exists st. split; auto. eapply minv_ext; [|eauto]. intros p [?|(t & s & l & [] & _)]; auto.
      - destruct (mm_factor_ok fuel l Hf L st t s I) as (st1 & E1 & I1).
        { intros j Hj. apply (HR t s l); auto. left; auto. }
        rewrite E1. cbn [obind]. destruct (IH _ st1 I1) as (st2 & E2 & I2).
        { intros t' s' l' j Hx Hj. apply (HR t' s' l'); auto. right; auto. }
        exists st2. split; auto. eapply minv_ext; [|eauto]. cbv beta.
        intros p [?|(t' & s' & l' & [Hx|Hx] & Hc)]; auto.
        + inversion Hx; subst. left. right. auto.
        + right. exists t', s', l'. auto.
    Qed.
    Lemma minv_final st : minv (fun p => p < n) st -> b_buf (fst st) = text.
    Proof.
      intros I. apply all_decoded; [apply (mw_b _ (mi_wf _ _ I))|].
      assert (G : forall r p, rank p < r -> p < n -> D (fst st) p).
      { induction r as [|r IH]; intros p Hr Hp; [lia|].
        destruct (mi_done _ _ I p Hp Hp) as [X|(s & HR & Hin)]; auto.
        exfalso. apply (mi_wait _ _ I s p Hin). apply IH; [|apply (HRb _ _ HR)]. pose proof (HRr _ _ HR). lia. }
      intros p Hp _. apply (G (S (rank p))); auto.
    Qed.
    Lemma multimap_dec_ok lz fuel fs : R <= fuel -> factors_ok 0 n fs ->
      (forall f j, In f fs -> j < f_len f -> Ref (f_pos f + j) (f_src f + j)) ->
      (forall x s, Ref x s -> exists f, In f fs /\ f_pos f <= x < f_pos f + f_len f) ->
      multimap_dec pick lz fuel n (events text n 0 fs) = Some text.
    Proof.
      intros Hf Hok HF HL. unfold multimap_dec. rewrite <- Hnz.
      destruct (keep_run_ok fs 0 (b_init n, []) Hok HF) as ((st & ks) & E & K); [eauto|apply kinv_init|].
      rewrite E. cbn [obind]. destruct (lazy_rounds_ok lz ks st (k_l _ _ K)) as (st1 & E1 & L1 & M1).
      rewrite E1. cbn [obind].
      destruct (mm_run_ok fuel ks Hf (fun p => D st1 p) (st1, [])) as (st2 & E2 & I2).
      { split; cbn [fst snd]; try (intros ? ? []); auto. split; cbn [fst snd]; [apply L1|intros ? ? []]. }
      { intros; eapply (l_ref _ _ L1); eauto. }
      rewrite E2. cbn [obind]. f_equal. apply minv_final. split; try apply I2.
      intros p Hp _. apply (mi_done _ _ I2); auto.
      destruct (k_done _ _ K p Hp (mm_live p)) as [X|X]; [left; apply M1; auto|right; auto].
    Qed.
  End MM.
End Dec.
