(** Proofs about the select structure of RankSelect.v *)
From Verif Require Import Base IntCodes IntCodesProofs IntVec IntVecProofs RankSelect RankSelectProofs.
Local Open Scope nat_scope.
#[local] Arguments Nat.div : simpl never.
#[local] Arguments Nat.modulo : simpl never.

Lemma divL q L e : e < L -> (q * L + e) / L = q.
Proof. intros H. symmetry. apply (Nat.div_unique _ _ _ e); lia. Qed.
Lemma modL q L e : e < L -> (q * L + e) mod L = e.
Proof. intros H. symmetry. apply (Nat.mod_unique _ _ q); lia. Qed.
Lemma dm q L : 0 < L -> q = (q / L) * L + q mod L /\ q mod L < L.
Proof. intros H. pose proof (Nat.div_mod q L ltac:(lia)). pose proof (Nat.mod_upper_bound q L ltac:(lia)). lia. Qed.

Lemma ar_last L M e : M < L -> e < L -> L * L <= M * L + e + (L - e) -> M = L - 1.
Proof. intros H1 H2 H3. assert (L <= M + 1); [|lia]. apply (Nat.mul_le_mono_pos_r _ _ L); lia. Qed.
Lemma ar_notlast L M e : M < L -> e < L -> ~ L * L <= M * L + e + (L - e) -> M + 1 < L.
Proof. intros H1 H2 H3. destruct (Nat.lt_ge_cases (M + 1) L); auto. exfalso. apply H3. assert (M = L - 1) by lia. subst. destruct L; nia. Qed.
Lemma ar_new q L Q M : 0 < L -> q = Q * L + M -> M = L - 1 -> q + 1 = (Q + 1) * L + 0 /\ (Q + 1) * (L * L) = (q + 1) * L.
Proof. intros H1 H2 H3. assert (E : q + 1 = (Q + 1) * L + 0) by lia. split; auto. rewrite E. lia. Qed.
Lemma div_unique Q M Q' M' L : Q * L + M = Q' * L + M' -> M < L -> M' < L -> Q = Q' /\ M = M'.
Proof. intros E H1 H2. pose proof (divL Q L M H1). pose proof (divL Q' L M' H2). rewrite E in *. assert (Q = Q') by congruence. subst. lia. Qed.

Lemma ar_le i j k y L : j = i * L + k -> i * (L * L) <= j * L + y.
Proof. intros ->. rewrite Nat.mul_add_distr_r, Nat.mul_assoc. lia. Qed.
Lemma ar_sup Q' Q M q e L : Q' + 1 <= Q -> q = Q * L + M -> (Q' + 1) * (L * L) <= q * L + e.
Proof.
  intros H ->. apply (Nat.le_trans _ (Q * (L * L))); [apply Nat.mul_le_mono_r; auto|]. eapply ar_le; eauto.
Qed.
Lemma ar_pos a L : 1 <= a -> 1 <= L -> 1 <= a * (L * L).
Proof. intros. destruct (a * (L * L)) eqn:E; [|lia]. apply Nat.mul_eq_0 in E. destruct E as [E|E]; [lia|]. apply Nat.mul_eq_0 in E. lia. Qed.
Lemma ar_lt j Q' M' L : j = Q' * L + M' -> M' < L -> j * L < (Q' + 1) * (L * L).
Proof. intros -> H. rewrite Nat.mul_assoc. apply Nat.mul_lt_mono_pos_r; lia. Qed.
Lemma ar_gt j i k L : j = i * L + k -> 0 < k -> 0 < L -> i * (L * L) < j * L.
Proof. intros -> H H'. rewrite Nat.mul_assoc. apply Nat.mul_lt_mono_pos_r; lia. Qed.

Section Sel.
  Variable data : list N.
  Variable b : bool.
  Hypothesis Hd : words_ok data.
  Definition flag (p : nat) : bool := Bool.eqb (getb data p) b.
  Let F := cntb flag.

  Lemma flag_word i k : k < 64 -> flag (64 * i + k) = wflag b (nth i data 0%N) k.
  Proof. intros H. unfold flag, wflag. rewrite getb_split; auto. Qed.
  Lemma F_word i : F (64 * (i + 1)) = F (64 * i) + basic_rank b (nth i data 0%N).
  Proof.
    unfold F. replace (64 * (i + 1)) with (64 * i + 64) by lia. rewrite cntb_add, basic_rank_ok. f_equal.
    apply cntb_ext. intros k Hk. apply flag_word. auto.
  Qed.
  (** select inside a word, seen globally *)
  Lemma sel_in_word i offs k : offs < 64 -> 1 <= k <= 64 ->
    let r := basic_select_l b (nth i data 0%N) offs k in
    (F (64 * i + offs) + k <= F (64 * (i + 1)) -> offs <= r < 64 /\ isel flag (F (64 * i + offs) + k) (64 * i + r)) /\
    (F (64 * (i + 1)) < F (64 * i + offs) + k -> r = SELECT_FAIL).
  Proof.
    intros Ho Hk r. destruct (basic_select_l_ok b (nth i data 0%N) offs k (words_ok_nth _ _ Hd) Hk Ho) as [A B]. fold r in A, B.
    assert (E : F (64 * (i + 1)) = F (64 * i + offs) + cntb (fun j => wflag b (nth i data 0%N) (offs + j)) (64 - offs)).
    { unfold F. replace (64 * (i + 1)) with (64 * i + offs + (64 - offs)) by lia. rewrite cntb_add. f_equal.
      apply cntb_ext. intros j Hj. rewrite <- flag_word by lia. f_equal. lia. }
    split; intros H.
    - destruct (A ltac:(lia)) as (p & Hp & [I1 I2] & ->). split; [lia|]. split.
      + rewrite flag_word by lia. auto.
      + rewrite Nat.add_assoc, cntb_add. unfold F. rewrite <- I2.
        rewrite (cntb_ext (fun i0 => flag (64 * i + offs + i0)) (fun j => wflag b (nth i data 0%N) (offs + j)) p); [lia|].
        intros j Hj. rewrite <- flag_word by lia. f_equal. lia.
    - apply B. lia.
  Qed.

  Lemma search_ok X P : isel flag X P -> P < 64 * length data -> forall fuel i x, length data < fuel + (i + 1) ->
    F (64 * (i + 1)) + x = X -> 1 <= x <= 64 -> sel_search fuel b data i x = Some P.
  Proof.
    intros I HP. induction fuel as [|fuel IH]; intros i x Hf HX Hx.
    - exfalso. pose proof (isel_S _ _ _ I). pose proof (cntb_mono flag (S P) (64 * (i + 1)) ltac:(lia)). fold F in H0. unfold F in *. lia.
    - cbn [sel_search]. assert (PG : 64 * (i + 1) <= P).
      { destruct (Nat.lt_ge_cases P (64 * (i + 1))); auto. pose proof (isel_S _ _ _ I).
        pose proof (cntb_mono flag (S P) (64 * (i + 1)) ltac:(lia)). unfold F in *. lia. }
      rewrite (nth_error_nth' data 0%N) by lia. cbn [obind].
      destruct (basic_select_ok b (nth (i + 1) data 0%N) x (words_ok_nth _ _ Hd) Hx) as [A B].
      rewrite <- basic_rank_ok in A, B. set (r := basic_select b (nth (i + 1) data 0%N) x) in *.
      destruct (Nat.le_gt_cases x (basic_rank b (nth (i + 1) data 0%N))) as [H|H].
      + destruct (A H) as (p & Hp & [I1 I2] & ->). replace (0 + p =? SELECT_FAIL) with false by (unfold SELECT_FAIL; lia).
        f_equal. replace ((i + 1) * 64 + (0 + p)) with (64 * (i + 1) + p) by lia.
        apply (isel_fun flag X); auto. split; [rewrite flag_word; auto|]. rewrite cntb_add.
        rewrite (cntb_ext (fun i0 => flag (64 * (i + 1) + i0)) (wflag b (nth (i + 1) data 0%N)) p); [unfold F in *; lia|].
        intros j Hj. apply flag_word. lia.
      + rewrite (B H), Nat.eqb_refl. apply IH; try lia. rewrite F_word. lia.
  Qed.
  Variable L : nat.
  Definition baseS (s p0 : nat) : Prop := (s = 0 /\ p0 = 0) \/ (1 <= s /\ isel flag (s * (L * L)) p0).
  Lemma baseS_fun s p p' : baseS s p -> baseS s p' -> p = p'.
  Proof. intros [[A B]|[A B]] [[C D]|[C D]]; try lia. eapply isel_fun; eauto. Qed.
  Variable T NS NB : nat.
  Hypothesis HL : 1 <= L <= 64.
  Hypothesis HNB : forall q, q * L <= T -> q <= NB.
  Hypothesis HNS : forall q, q * (L * L) <= T -> q <= NS.
  Record selinv (s : selst) (q e Q M : nat) : Prop := {
    si_q : q = Q * L + M;
    si_m : M < L;
    si_csb : ss_csb s = Q;
    si_cb : ss_cb s = q;
    si_rsb : ss_rsb s = M * L + e;
    si_off : baseS Q (ss_off s);
    si_wsup : words_ok (ss_sup s);
    si_wblk : words_ok (ss_blk s);
    si_rsup : room (ss_sup s) L NS;
    si_rblk : room (ss_blk s) L NB;
    si_sup : forall i p, i < Q -> isel flag ((i + 1) * (L * L)) p -> el (ss_sup s) L i = trunc L (N.of_nat p);
    si_blk : forall j p p0 Q' M', j < q -> isel flag ((j + 1) * L) p -> j + 1 = Q' * L + M' -> M' < L -> baseS Q' p0 ->
             el (ss_blk s) L j = trunc L (N.of_nat (p - p0));
    si_long : forall i p0 p1, i < Q -> baseS i p0 -> isel flag ((i + 1) * (L * L)) p1 -> p1 - p0 <= ss_long s;
    si_lb : ss_long s <= 64 * length data - 1 }.

  Lemma inner_ok i v fuel : i < length data -> v = nth i data 0%N -> F (64 * (i + 1)) <= T ->
    forall q e Q M rest offs ds s, rest < fuel -> e < L -> selinv s q e Q M -> ss_rb s = e + rest ->
    F (64 * i + offs) = q * L + e -> F (64 * (i + 1)) = q * L + e + rest -> offs <= 64 ->
    exists s' q' e' Q' M' rest' ds', sel_inner fuel b L i v offs (L - e) ds s = Some (s', ds') /\
      q' * L + e' + rest' = q * L + e + rest /\ e' + rest' < L /\ ds' + rest' = ds + rest /\ selinv s' q' e' Q' M' /\ ss_rb s' = e' + rest'.
  Proof.
    intros Hi Hv HT. induction fuel as [|fuel IH]; intros q e Q M rest offs ds s Hf He I Hr HF HE Ho; [lia|].
    cbn [sel_inner]. replace (ss_rb s <? L) with (e + rest <? L) by (rewrite Hr; auto). destruct (e + rest <? L) eqn:E.
    { exists s, q, e, Q, M, rest, ds. split; auto. split; auto. split; [lia|]. auto. }
    assert (Hofs : offs < 64).
    { destruct (Nat.eq_dec offs 64); [|lia]. subst offs. replace (64 * i + 64) with (64 * (i + 1)) in HF by lia. lia. }
    destruct (sel_in_word i offs (L - e) Hofs ltac:(lia)) as [A _]. rewrite <- Hv in A.
    set (o := basic_select_l b v offs (L - e)) in *. clearbody o.
    rewrite HF in A. destruct A as [Bo Is]; [lia|].
    replace (q * L + e + (L - e)) with ((q + 1) * L) in Is by lia.
    replace (i * 64 + o) with (64 * i + o) by lia.
    assert (Hpos : 64 * i + o <= 64 * length data - 1) by lia.
    assert (HNx : forall x, F (64 * i + (o + 1)) = x <-> F (S (64 * i + o)) = x) by (intros; replace (64 * i + (o + 1)) with (S (64 * i + o)) by lia; tauto).
    set (pos := 64 * i + o) in *. clearbody pos.
    assert (HqT : (q + 1) * L <= T) by lia.
    assert (HqB : q < NB) by (apply HNB in HqT; lia).
    pose proof (si_q _ _ _ _ _ I) as Eq. pose proof (si_m _ _ _ _ _ I) as Hm.
    pose proof (si_rsb _ _ _ _ _ I) as Ersb.
    (* the superblock step *)
    assert (St : exists s1 Q1 M1, (if L * L <=? ss_rsb s + (L - e) then
                do sup <- set_w (ss_sup s) L (ss_csb s) (N.of_nat pos);
                Some (mk_selst sup (ss_blk s) (ss_rsb s + (L - e) - L * L) (ss_rb s) (ss_csb s + 1) pos
                        (Nat.max (ss_long s) (pos - ss_off s)) (ss_cb s))
              else Some (mk_selst (ss_sup s) (ss_blk s) (ss_rsb s + (L - e)) (ss_rb s) (ss_csb s) (ss_off s) (ss_long s) (ss_cb s))) = Some s1 /\
        q + 1 = Q1 * L + M1 /\ M1 < L /\
        ss_csb s1 = Q1 /\ ss_cb s1 = q /\ ss_rsb s1 = M1 * L /\ baseS Q1 (ss_off s1) /\
        words_ok (ss_sup s1) /\ room (ss_sup s1) L NS /\ ss_blk s1 = ss_blk s /\ ss_rb s1 = ss_rb s /\
        (forall i p, i < Q1 -> isel flag ((i + 1) * (L * L)) p -> el (ss_sup s1) L i = trunc L (N.of_nat p)) /\
        (forall i p0 p1, i < Q1 -> baseS i p0 -> isel flag ((i + 1) * (L * L)) p1 -> p1 - p0 <= ss_long s1) /\
        ss_long s1 <= 64 * length data - 1).
    { destruct (L * L <=? ss_rsb s + (L - e)) eqn:Z.
      - assert (HM : M = L - 1) by (apply (ar_last L M e); auto; lia).
        destruct (ar_new q L Q M ltac:(lia) Eq HM) as (Q1 & EqL).
        assert (HQT : Q < NS) by (assert (Q + 1 <= NS) by (apply HNS; lia); lia).
        rewrite (si_csb _ _ _ _ _ I).
        destruct (set_w_ok (ss_sup s) L NS Q (N.of_nat pos) (si_wsup _ _ _ _ _ I) (si_rsup _ _ _ _ _ I) HQT) as (w & E1 & E2 & E3 & E4).
        rewrite E1. cbn [obind]. eexists _, (Q + 1), 0. split; [reflexivity|]. cbn [ss_csb ss_cb ss_rsb ss_off ss_sup ss_blk ss_rb ss_long].
        split; auto. split; [lia|]. split; auto. split; [apply (si_cb _ _ _ _ _ I)|]. split; [rewrite Ersb, HM; clear -He; destruct L; lia|].
        split; [right; split; [clear; lia|rewrite EqL; auto]|].
        split; auto. split; [eapply room_len; [apply (si_rsup _ _ _ _ _ I)|auto]|]. split; auto. split; auto. split; [|split].
        + intros i0 p Hi0 Ip. destruct (Nat.eq_dec i0 Q) as [->|Hne].
          * rewrite E4 by auto. rewrite Nat.eqb_refl. rewrite EqL in Ip. rewrite (isel_fun _ _ _ _ Ip Is). auto.
          * assert (i0 < Q) by (clear -Hi0 Hne; lia). rewrite E4 by (clear -H HQT; lia). replace (i0 =? Q) with false by (clear -Hne; lia).
            apply (si_sup _ _ _ _ _ I); auto.
        + intros i0 p0 p1 Hi0 Ip0 Ip1. destruct (Nat.eq_dec i0 Q) as [->|Hne].
          * rewrite EqL in Ip1. rewrite (isel_fun _ _ _ _ Ip1 Is). rewrite (baseS_fun _ _ _ Ip0 (si_off _ _ _ _ _ I)). clear; lia.
          * assert (i0 < Q) by (clear -Hi0 Hne; lia). pose proof (si_long _ _ _ _ _ I i0 p0 p1 H Ip0 Ip1) as LG. clear -LG; lia.
        + pose proof (si_lb _ _ _ _ _ I) as LB. clear -LB Hpos; lia.
      - assert (HM : M + 1 < L) by (apply (ar_notlast L M e); auto; lia).
        eexists _, Q, (M + 1). split; [reflexivity|]. cbn [ss_csb ss_cb ss_rsb ss_off ss_sup ss_blk ss_rb ss_long].
        split; [lia|]. split; [auto|].
        split; [apply (si_csb _ _ _ _ _ I)|]. split; [apply (si_cb _ _ _ _ _ I)|]. split; [lia|]. split; [apply (si_off _ _ _ _ _ I)|].
        split; [apply (si_wsup _ _ _ _ _ I)|]. split; [apply (si_rsup _ _ _ _ _ I)|]. split; auto. split; auto.
        split; [apply (si_sup _ _ _ _ _ I)|]. split; [apply (si_long _ _ _ _ _ I)|apply (si_lb _ _ _ _ _ I)]. }
    destruct St as (s1 & Q1 & M1 & E1 & PQ & PM & P1 & P2 & P3 & P4 & P5 & P6 & P7 & P8 & P9 & P10 & P11). rewrite E1. cbn [obind].
    rewrite P2, P7.
    destruct (set_w_ok (ss_blk s) L NB q (N.of_nat (pos - ss_off s1)) (si_wblk _ _ _ _ _ I) (si_rblk _ _ _ _ _ I) HqB) as (w & E2 & E3 & E4 & E5).
    rewrite E2. cbn [obind].
    replace (sel_inner fuel b L i v (o + 1) L) with (sel_inner fuel b L i v (o + 1) (L - 0)) by (f_equal; clear; lia).
    destruct (IH (q + 1) 0 Q1 M1 (rest - (L - e)) (o + 1) (ds + (L - e))
      (mk_selst (ss_sup s1) w (ss_rsb s1) (ss_rb s1 - L) (ss_csb s1) (ss_off s1) (ss_long s1) (q + 1)))
      as (s' & q' & e' & Q' & M' & rest' & ds' & R1 & R2 & R3 & R4 & R5 & R6); auto; try lia.
    - constructor; cbn [ss_csb ss_cb ss_rsb ss_off ss_sup ss_blk ss_rb ss_long]; auto; try lia.
      + eapply room_len; [apply (si_rblk _ _ _ _ _ I)|auto].
      + intros j p p0 Q' M' Hj Ip Ej Hj' Ip0. destruct (Nat.eq_dec j q) as [->|Hne].
        * rewrite E5 by auto. rewrite Nat.eqb_refl. rewrite PQ in Ej. destruct (div_unique _ _ _ _ _ Ej PM Hj') as [<- <-].
          rewrite (isel_fun _ _ _ _ Ip Is), (baseS_fun _ _ _ Ip0 P4). auto.
        * assert (j < q) by (clear -Hne Hj; lia). rewrite E5 by (clear -H HqB; lia). replace (j =? q) with false by (clear -Hne; lia).
          apply (si_blk _ _ _ _ _ I) with (Q' := Q') (M' := M'); auto.
    - cbn [ss_rb]. rewrite P8, Hr. lia.
    - apply HNx. unfold F. rewrite (isel_S _ _ _ Is). lia.
    - exists s', q', e', Q', M', rest', ds'. rewrite R1. split; auto. split; [lia|]. split; [lia|]. split; [lia|]. auto.
  Qed.
  Lemma word_ok i s q e Q M : i < length data -> F (64 * (i + 1)) <= T -> e < L -> selinv s q e Q M -> ss_rb s = e ->
    F (64 * i) = q * L + e ->
    exists s' q' e' Q' M', sel_word b L i (nth i data 0%N) s = Some s' /\ F (64 * (i + 1)) = q' * L + e' /\ e' < L /\
      selinv s' q' e' Q' M' /\ ss_rb s' = e'.
  Proof.
    intros Hi HT He I Hr HF. pose proof (F_word i) as FW. unfold sel_word. set (r := basic_rank b (nth i data 0%N)) in *.
    assert (r <= 64) by (unfold r; rewrite basic_rank_ok; apply cntb_le).
    assert (Rb : forall s1 q1 e1 Q1 M1 x y, selinv s1 q1 e1 Q1 M1 -> e1 + x < L ->
      selinv (mk_selst (ss_sup s1) (ss_blk s1) (ss_rsb s1 + x) y (ss_csb s1) (ss_off s1) (ss_long s1) (ss_cb s1)) q1 (e1 + x) Q1 M1).
    { intros s1 q1 e1 Q1 M1 x y [] Hx. constructor; cbn [ss_csb ss_cb ss_rsb ss_off ss_sup ss_blk ss_rb ss_long]; auto. lia. }
    rewrite Hr. destruct (L <=? e + r) eqn:E.
    - destruct (inner_ok i (nth i data 0%N) 65 Hi eq_refl HT q e Q M r 0 0
        (mk_selst (ss_sup s) (ss_blk s) (ss_rsb s) (e + r) (ss_csb s) (ss_off s) (ss_long s) (ss_cb s)))
        as (s' & q' & e' & Q' & M' & rest' & ds' & R1 & R2 & R3 & R4 & R5 & R6); auto; try lia.
      + destruct I; constructor; auto.
      + rewrite Nat.add_0_r. auto.
      + rewrite R1. cbn [obind]. eexists _, q', (e' + rest'), Q', M'. split; [reflexivity|]. split; [lia|]. split; auto.
        replace (r - ds') with rest' by lia. cbn [ss_rb]. split; [apply Rb; auto|lia].
    - eexists _, q, (e + r), Q, M. split; [reflexivity|]. split; [lia|]. split; [lia|]. split; [apply Rb; auto; lia|auto].
  Qed.
  Lemma loop_ok k : forall i s q e Q M, i + k <= length data -> F (64 * (i + k)) = T -> e < L -> selinv s q e Q M -> ss_rb s = e ->
    F (64 * i) = q * L + e ->
    exists s' q' e' Q' M', sel_loop b L data i k (F (64 * i)) s = Some (s', T) /\ T = q' * L + e' /\ e' < L /\ selinv s' q' e' Q' M'.
  Proof.
    induction k as [|k IH]; intros i s q e Q M Hi HT He I Hr HF; cbn [sel_loop].
    - rewrite Nat.add_0_r in HT. exists s, q, e, Q, M. rewrite HT in *. auto.
    - rewrite (nth_error_nth' data 0%N) by lia. cbn [obind].
      assert (MT : F (64 * (i + 1)) <= T) by (rewrite <- HT; apply cntb_mono; lia).
      destruct (word_ok i s q e Q M ltac:(lia) MT He I Hr HF) as (s1 & q1 & e1 & Q1 & M1 & E1 & E2 & E3 & E4 & E5).
      rewrite E1. cbn [obind]. rewrite <- F_word. apply (IH (i + 1) s1 q1 e1 Q1 M1); auto; try lia.
      rewrite <- HT. f_equal. lia.
  Qed.
End Sel.

Lemma pv_width_ok v w : wf v -> pv_fixed v = false -> 1 <= w <= 64 ->
  exists v', pv_width v w = Some v' /\ wf v' /\ pv_w v' = w /\ contents v' = map (trunc w) (contents v).
Proof.
  intros W Hf Hw. unfold pv_width. destruct (Nat.eq_dec w (pv_w v)) as [->|Hne].
  - unfold pv_resize_width. replace (pv_w v <? pv_w v) with false by lia. cbn [obind].
    rewrite Nat.sub_diag. cbn [fill_w obind]. eexists. split; [reflexivity|]. split; [apply W|]. split; auto.
    change (contents (with_ws v (pv_ws v))) with (contents v). symmetry. rewrite <- (map_id (contents v)) at 2.
    apply map_ext_in. intros x Hx. unfold contents in Hx. apply in_map_iff in Hx. destruct Hx as (i & <- & Hi). apply in_seq in Hi.
    apply N.mod_small. apply (get_w_ok _ _ (pv_n v)); [apply W|apply wf_room; auto|lia].
  - destruct (resize_width_ok v (pv_n v) 0%N w W Hf Hw ltac:(auto)) as (v' & E & W' & Ew & F & C).
    exists v'. split; auto. split; auto. split; auto. rewrite C, Nat.sub_diag, firstn_all2 by (rewrite contents_len; auto).
    apply app_nil_r.
Qed.
Lemma resize0_raw v ws n : wf v -> words_ok ws -> room ws (pv_w v) n ->
  wf (pv_resize0 (with_ws v ws) n) /\ contents (pv_resize0 (with_ws v ws) n) = map (el ws (pv_w v)) (seq 0 n).
Proof.
  intros (A & _ & _) W R. unfold pv_resize0. cbn [with_ws pv_w pv_ws pv_fixed]. split.
  - split; auto. split; [apply words_resize_ok; auto|]. apply words_resize_len.
  - unfold contents. cbn [pv_ws pv_w pv_n]. apply map_ext_in. intros j Hj. apply in_seq in Hj.
    apply rd_resize; auto; [apply (room_inr _ _ _ _ R); lia|]. pose proof (b2b_ge (n * pv_w v)). nia.
Qed.
Lemma filled_width_len n x w own : 1 <= w <= 64 -> forall v, pv_filled_width n x w false own = Some v ->
  pv_n v = n /\ length (pv_ws v) = bits2backing (n * w).
Proof.
  intros H v E. destruct (filled_width_ok n x w own H) as (v' & E' & W & Ew & _ & C). assert (v' = v) by congruence. subst v'.
  assert (pv_n v = n) by (rewrite <- (contents_len v), C; apply repeat_length). split; auto. destruct W as (_ & _ & ->). congruence.
Qed.
Lemma sup_room n L T : (N.of_nat n < 2 ^ N.of_nat L)%N -> 1 <= L <= 64 -> T <= 64 * ((n + 63) / 64) ->
  T / (L * L) * L <= 64 * bits2backing (idiv_ceil n (L * L) * L).
Proof.
  intros Hn HL HT. assert (P : L * L <> 0) by (apply Nat.neq_mul_0; lia).
  assert (D : T / (L * L) * (L * L) <= T) by (rewrite Nat.mul_comm; apply Nat.mul_div_le; auto).
  rewrite idiv_ceil_eq by lia.
  set (NS := T / (L * L)) in *. clearbody NS.
  destruct (Nat.eq_dec n 0) as [->|N0].
  { change ((0 + 63) / 64) with 0 in HT. assert (NS = 0) by nia. subst. lia. }
  assert (U : forall x, 1 <= x -> 1 <= (x + L * L - 1) / (L * L)).
  { intros x Hx. apply Nat.div_le_lower_bound; lia. }
  destruct (Nat.le_gt_cases n 64) as [H|H].
  - assert ((n + 63) / 64 = 1) by lia.
    assert (NS * L <= 64) by nia.
    pose proof (b2b_ge ((n + L * L - 1) / (L * L) * L)) as B. specialize (U n ltac:(lia)).
    assert (1 <= (n + L * L - 1) / (L * L) * L) by nia. lia.
  - assert (7 <= L).
    { destruct (Nat.lt_ge_cases L 7) as [C|C]; auto. assert (2 ^ N.of_nat L <= 2 ^ 6)%N by (apply N.pow_le_mono_r; lia).
      change (2 ^ 6)%N with 64%N in H0. lia. }
    destruct (Nat.eq_dec L 7) as [->|H7].
    + change (2 ^ N.of_nat 7)%N with 128%N in Hn. assert (NS <= 2) by lia.
      pose proof (b2b_ge ((n + 7 * 7 - 1) / (7 * 7) * 7)) as B. specialize (U n ltac:(lia)). lia.
    + eapply Nat.le_trans; [|apply b2b_ge]. apply Nat.mul_le_mono_r. apply Nat.div_le_lower_bound; auto.
      assert (64 <= L * L) by nia. lia.
Qed.

Section New.
  Variable b : bool.
  Variable bv : pvec.
  Hypothesis W : wf bv.
  Hypothesis Ew : pv_w bv = 1.
  Hypothesis Hn : (N.of_nat (pv_n bv) < 2 ^ 64)%N.
  Let n := pv_n bv.
  Let data := pv_ws bv.
  Let L := bits_forn (N.of_nat n).
  Let f := flag data b.
  Let F := cntb f.
  Let T := F (64 * length data).

  Lemma n_data : length data = (n + 63) / 64.
  Proof. unfold data, n. destruct W as (_ & _ & ->). rewrite Ew, Nat.mul_1_r, b2b_eq. auto. Qed.
  Lemma L_ok : 1 <= L <= 64 /\ (N.of_nat n < 2 ^ N.of_nat L)%N.
  Proof.
    unfold L, bits_forn, n. pose proof (bits_for_le64 _ Hn). pose proof (bits_for_pos (N.of_nat (pv_n bv))). pose proof (bits_for_bound (N.of_nat (pv_n bv))).
    split; [lia|]. rewrite N2Nat.id. auto.
  Qed.
  Lemma select_new_ok : exists s, select_new b bv = Some s /\ sl_max s = T /\ sl_bv s = bv /\
    forall x, 1 <= x <= F n -> exists p, select s x = Some p /\ isel f x p.
  Proof.
    destruct L_ok as [HL HnL]. pose proof n_data as ND. unfold select_new. fold n. fold L.
    assert (LL : 0 < L * L) by (apply Nat.mul_pos_pos; lia).
    destruct (filled_width_ok (idiv_ceil n (L * L)) 0 L 64 HL) as (sup & E1 & W1 & Ew1 & F1 & C1).
    destruct (filled_width_len _ _ _ _ HL _ E1) as [N1 B1]. rewrite E1. cbn [obind].
    destruct (filled_width_ok (idiv_ceil n L) 0 L 64 HL) as (blk & E2 & W2 & Ew2 & F2 & C2).
    destruct (filled_width_len _ _ _ _ HL _ E2) as [N2 B2]. rewrite E2. cbn [obind].
    assert (HT : T <= 64 * ((n + 63) / 64)) by (unfold T, F; rewrite <- ND; apply cntb_le).
    assert (I0 : selinv data b L (T / (L * L)) (T / L) (mk_selst (pv_ws sup) (pv_ws blk) 0 0 0 0 0 0) 0 0 0 0).
    { constructor; cbn [ss_csb ss_cb ss_rsb ss_off ss_sup ss_blk ss_rb ss_long]; try (intros; lia); auto.
      - left. auto.
      - apply W1.
      - apply W2.
      - split; auto. rewrite B1. apply sup_room; auto.
      - split; auto. rewrite B2. assert (T / L * L <= T) by (rewrite Nat.mul_comm; apply Nat.mul_div_le; lia).
        assert (n <= idiv_ceil n L * L).
        { rewrite idiv_ceil_eq by lia. pose proof (Nat.div_mod (n + L - 1) L ltac:(lia)). pose proof (Nat.mod_upper_bound (n + L - 1) L ltac:(lia)). lia. }
        pose proof (b2b_mono _ _ H0). rewrite b2b_eq in H1. lia. }
    destruct (loop_ok data b (proj1 (proj2 W)) L T (T / (L * L)) (T / L) HL) with (k := length data) (i := 0)
      (s := mk_selst (pv_ws sup) (pv_ws blk) 0 0 0 0 0 0) (q := 0) (e := 0) (Q := 0) (M := 0)
      as (s & q & e & Q & M & E3 & E4 & E5 & I); auto; try lia.
    { intros q0 H. apply Nat.div_le_lower_bound; lia. }
    { intros q0 H. apply Nat.div_le_lower_bound; lia. }
    replace (idiv_ceil n 64) with (length data) by (rewrite ND, idiv_ceil_eq by lia; f_equal; lia).
    change (pv_ws bv) with data. change (cntb (flag data b) (64 * 0)) with 0 in E3. rewrite E3. cbn [obind].
    set (lg := N.max (N.of_nat (ss_long s)) (w64 (N.of_nat n + 2 ^ 64 - N.of_nat (ss_off s)))).
    pose proof (si_lb _ _ _ _ _ _ _ _ _ _ I) as LB.
    assert (LG : (lg < 2 ^ 64)%N).
    { unfold lg. assert (N.of_nat (ss_long s) < 2 ^ 64)%N.
      { change (2 ^ 64)%N with 18446744073709551616%N in *. destruct (Nat.eq_dec (length data) 0); lia. }
      unfold w64. pose proof (N.mod_lt (N.of_nat n + 2 ^ 64 - N.of_nat (ss_off s)) (2 ^ 64) ltac:(discriminate)). lia. }
    assert (LW : 1 <= bits_forn lg <= 64).
    { unfold bits_forn. pose proof (bits_for_le64 _ LG). pose proof (bits_for_pos lg). lia. }
    assert (LBd : (lg < 2 ^ N.of_nat (bits_forn lg))%N) by (unfold bits_forn; rewrite N2Nat.id; apply bits_for_bound).
    set (lw := bits_forn lg) in *. clearbody lw.
    destruct (resize0_raw blk (ss_blk s) (ss_cb s) W2 (si_wblk _ _ _ _ _ _ _ _ _ _ I)) as [W3 C3].
    { rewrite Ew2. apply (room_le _ _ (T / L)); [apply (si_rblk _ _ _ _ _ _ _ _ _ _ I)|]. rewrite (si_cb _ _ _ _ _ _ _ _ _ _ I).
      apply Nat.div_le_lower_bound; lia. }
    destruct (resize0_raw sup (ss_sup s) (ss_csb s) W1 (si_wsup _ _ _ _ _ _ _ _ _ _ I)) as [W4 C4].
    { rewrite Ew1. apply (room_le _ _ (T / (L * L))); [apply (si_rsup _ _ _ _ _ _ _ _ _ _ I)|]. rewrite (si_csb _ _ _ _ _ _ _ _ _ _ I).
      apply Nat.div_le_lower_bound; [lia|]. pose proof (si_q _ _ _ _ _ _ _ _ _ _ I). rewrite Nat.mul_comm, E4. eapply ar_le; eauto. }
    destruct (pv_width_ok _ lw W3 ltac:(auto) LW) as (blk' & E6 & W5 & Ew5 & C5).
    rewrite E6. cbn [obind]. eexists. split; [reflexivity|]. split; [auto|]. split; [auto|].
    rewrite C3 in C5. rewrite Ew2, (si_cb _ _ _ _ _ _ _ _ _ _ I) in C5.
    assert (N5 : pv_n blk' = q) by (rewrite <- (contents_len blk'), C5, !map_length, seq_length; auto).
    set (sup' := pv_resize0 (with_ws sup (ss_sup s)) (ss_csb s)) in *.
    rewrite Ew1, (si_csb _ _ _ _ _ _ _ _ _ _ I) in C4.
    assert (N4 : pv_n sup' = Q) by (rewrite <- (contents_len sup'), C4, map_length, seq_length; auto).
    clearbody sup'.
    pose proof (si_q _ _ _ _ _ _ _ _ _ _ I) as Eq. pose proof (si_m _ _ _ _ _ _ _ _ _ _ I) as Hm.
    assert (FnT : F n <= T) by (apply cntb_mono; rewrite ND; lia).
    assert (InR : forall t p, isel f t p -> t <= F n -> p < n) by (intros t p Ip Ht; apply (isel_below f t); auto).
    (* the stored superblock positions in range *)
    assert (GS : forall i p, i < Q -> isel f ((i + 1) * (L * L)) p -> p < n -> pv_get sup' i = Some (N.of_nat p)).
    { intros i p Hi Ip Hp. rewrite get_ok by (auto; lia). f_equal. rewrite C4.
      rewrite (nth_indep _ 0%N (el (ss_sup s) L 0)) by (rewrite map_length, seq_length; auto). rewrite map_nth, seq_nth by auto.
      cbn [Nat.add]. rewrite (si_sup _ _ _ _ _ _ _ _ _ _ I i p Hi Ip). apply trunc_id. lia. }
    assert (GB : forall j p p0 Q' M', j < q -> isel f ((j + 1) * L) p -> j + 1 = Q' * L + M' -> M' < L -> baseS data b L Q' p0 -> p < n ->
                   (Q' = 0 -> p0 = 0) -> p0 <= p -> pv_get blk' j = Some (N.of_nat (p - p0))).
    { intros j p p0 Q' M' Hj Ip Ej HM' Ib Hp HZ Hle. rewrite get_ok by (auto; lia). f_equal. rewrite C5.
      rewrite (nth_indep _ 0%N (trunc lw (el (ss_blk s) L 0))) by (rewrite !map_length, seq_length; auto). rewrite !map_nth, seq_nth by auto.
      cbn [Nat.add]. rewrite (si_blk _ _ _ _ _ _ _ _ _ _ I j p p0 Q' M' Hj Ip Ej HM' Ib).
      rewrite (trunc_id L) by lia. apply trunc_id.
      assert (N.of_nat (p - p0) <= lg)%N; [|lia].
      assert (HQ : Q' <= Q).
      { destruct (Nat.le_gt_cases Q' Q); auto. exfalso. assert ((Q + 1) * L <= Q' * L) by (apply Nat.mul_le_mono_r; lia). lia. }
      destruct (Nat.eq_dec Q' Q) as [->|Hne].
      - assert (EO : ss_off s = p0) by (eapply (baseS_fun data b L); eauto; apply (si_off _ _ _ _ _ _ _ _ _ _ I)).
        unfold lg, w64. rewrite EO. replace (N.of_nat n + 2 ^ 64 - N.of_nat p0)%N with (N.of_nat (n - p0) + 1 * 2 ^ 64)%N by lia.
        rewrite N.mod_add by discriminate. rewrite N.mod_small by lia. lia.
      - assert (HQ1 : (Q' + 1) * (L * L) <= F (64 * length data)).
        { fold T. rewrite E4. apply (ar_sup Q' Q M); auto; lia. }
        destruct (isel_exists f _ _ (conj (ar_pos (Q' + 1) L ltac:(clear; lia) (proj1 HL)) HQ1)) as (p1 & _ & Ip1).
        pose proof (si_long _ _ _ _ _ _ _ _ _ _ I Q' p0 p1 ltac:(lia) Ib Ip1) as LGE.
        assert (p < p1). { apply (isel_lt f _ _ _ _ Ip Ip1). apply (ar_lt (j + 1) Q' M'); auto. }
        unfold lg. lia. }
    (* the query *)
    intros x Hx. destruct (isel_exists f n x Hx) as (P & HP & IP). exists P. split; auto.
    unfold select. cbn [sl_max sl_bv sl_supsize sl_bsize sl_sups sl_blocks sl_bit].
    replace (T <? x) with false by lia.
    destruct (dm x L ltac:(lia)) as [Ex Hy]. set (j := x / L) in *. set (y := x mod L) in *. clearbody y.
    assert (Ei : x / (L * L) = j / L) by (unfold j; rewrite Nat.div_div by lia; auto).
    rewrite Ei. destruct (dm j L ltac:(lia)) as [Ej Hk]. set (i := j / L) in *. set (k := j mod L) in *. clearbody i k j.
    assert (Ekk : j - i * (L * L / L) = k) by (rewrite Nat.div_mul by lia; lia). rewrite Ekk. clear Ei Ekk.
    assert (HiQ : i <= Q).
    { destruct (Nat.le_gt_cases i Q); auto. exfalso. assert ((Q + 1) * L <= i * L) by (apply Nat.mul_le_mono_r; lia).
      assert ((q + 1) * L <= j * L) by (apply Nat.mul_le_mono_r; lia). lia. }
    assert (Hjq : j <= q).
    { destruct (Nat.le_gt_cases j q); auto. exfalso. assert ((q + 1) * L <= j * L) by (apply Nat.mul_le_mono_r; lia). lia. }
    assert (Base : exists p0, baseS data b L i p0 /\ (i = 0 -> p0 = 0) /\ (0 < i -> p0 < n /\ isel f (i * (L * L)) p0)).
    { destruct (Nat.eq_dec i 0) as [->|Hi0]; [exists 0; split; [left; auto|split; [auto|lia]]|].
      destruct (isel_exists f n (i * (L * L))) as (p0 & Hp0 & Ip0); [split; [apply ar_pos; lia|eapply Nat.le_trans; [|apply Hx]; rewrite Ex; eapply ar_le; eauto]|]. exists p0. split; [right; split; [lia|auto]|]. split; [lia|auto]. }
    destruct Base as (p0 & Bp & Bz & Bi).
    assert (S1 : (if 0 <? i then do p <- pv_get sup' (i - 1); Some (N.to_nat p, x - i * (L * L)) else Some (0, x)) = Some (p0, k * L + y)).
    { destruct (0 <? i) eqn:Z.
      - destruct Bi as [Hp0 Ip0]; [lia|]. rewrite (GS (i - 1) p0); [|lia| |auto].
        + cbn [obind]. rewrite Nat2N.id. do 2 f_equal. rewrite Ex, Ej. lia.
        + replace (i - 1 + 1) with i by lia. auto.
      - assert (i = 0) by lia. rewrite Bz by auto. do 2 f_equal. rewrite Ex, Ej, H. lia. }
    rewrite S1. cbn [obind]. clear S1.
    destruct (k * L + y =? 0) eqn:Z0.
    { f_equal. assert (k * L = 0 /\ y = 0) as [K0 Y0] by lia. assert (Hx' : x = i * (L * L)) by (rewrite Ex, Ej; lia).
      destruct (Nat.eq_dec i 0) as [->|Hi0]; [lia|]. destruct Bi as [_ Ip0]; [lia|]. rewrite <- Hx' in Ip0. apply (isel_fun f x); auto. }
    assert (S2 : exists pos, (if 0 <? k then do p <- pv_get blk' (j - 1); Some (p0 + N.to_nat p, k * L + y - k * L) else Some (p0, k * L + y)) = Some (pos, y) /\
       ((i = 0 /\ k = 0 /\ pos = 0) \/ ((0 < i \/ 0 < k) /\ isel f (j * L) pos))).
    { destruct (0 <? k) eqn:Zk.
      - destruct (isel_exists f n (j * L)) as (p & Hp & Ip); [split; [|apply (Nat.le_trans _ x); [rewrite Ex; clear; lia|apply Hx]]; apply (Nat.le_trans _ (1 * 1)); [auto|apply Nat.mul_le_mono; lia]|]. exists p.
        assert (Hle : p0 <= p).
        { destruct (Nat.eq_dec i 0) as [Hi0|Hi0]; [rewrite Bz by auto; lia|]. destruct Bi as [_ Ip0]; [lia|].
          pose proof (isel_lt f _ _ _ _ Ip0 Ip (ar_gt j i k L Ej ltac:(lia) ltac:(lia))). lia. }
        rewrite (GB (j - 1) p p0 i k); auto; try lia; [|replace (j - 1 + 1) with j by lia; auto].
        cbn [obind]. rewrite Nat2N.id. split; [do 2 f_equal; lia|]. right. split; [lia|auto].
      - assert (k = 0) by lia. exists p0. split; [do 2 f_equal; rewrite H; lia|].
        destruct (Nat.eq_dec i 0) as [Hi0|Hi0]; [left; auto|]. right. split; [lia|]. destruct Bi as [_ Ip0]; [lia|].
        replace (j * L) with (i * (L * L)) by (rewrite Ej, H; lia). auto. }
    destruct S2 as (pos & S2 & Pos). rewrite S2. cbn [obind]. clear S2.
    destruct (y =? 0) eqn:Zy.
    { f_equal. destruct Pos as [(A1 & A2 & A3)|(A1 & A2)]; [lia|]. apply (isel_fun f x); auto. rewrite Ex. replace y with 0 by lia. rewrite Nat.add_0_r. auto. }
    set (pos' := if (0 <? i) || (0 <? k) then pos + 1 else pos).
    assert (Fp : F pos' = j * L).
    { unfold pos'. destruct Pos as [(A1 & A2 & A3)|(A1 & A2)].
      - rewrite A1, A2, A3. replace (j * L) with 0 by (rewrite Ej, A1, A2; lia). auto.
      - replace ((0 <? i) || (0 <? k)) with true by lia. rewrite Nat.add_1_r. apply (isel_S _ _ _ A2). }
    assert (Pge : pos' <= P).
    { destruct (Nat.le_gt_cases pos' P); auto. exfalso. pose proof (isel_S _ _ _ IP). pose proof (cntb_mono f (S P) pos' ltac:(lia)). unfold F in Fp. lia. }
    clearbody pos'. assert (HPd : P < 64 * length data) by lia.
    rewrite (nth_error_nth' data 0%N) by lia. cbn [obind].
    destruct (sel_in_word data b (proj1 (proj2 W)) (pos' / 64) (pos' mod 64) y ltac:(lia) ltac:(lia)) as [A B].
    replace (64 * (pos' / 64) + pos' mod 64) with pos' in A, B by lia. fold f in A, B. fold F in A, B. rewrite Fp in A, B.
    set (r := basic_select_l b (nth (pos' / 64) data 0%N) (pos' mod 64) y) in *.
    destruct (Nat.le_gt_cases (j * L + y) (F (64 * (pos' / 64 + 1)))) as [H|H].
    - destruct (A H) as [Hr Ir]. replace (r =? SELECT_FAIL) with false by (unfold SELECT_FAIL; lia). cbn [negb]. f_equal.
      replace (pos' + r - pos' mod 64) with (64 * (pos' / 64) + r) by lia. apply (isel_fun f x); auto. rewrite Ex. auto.
    - rewrite (B H), Nat.eqb_refl. cbn [negb]. rewrite basic_rank_lm_ok by lia.
      assert (FE : F (64 * (pos' / 64 + 1)) = F pos' + cntb (fun i => wflag b (nth (pos' / 64) data 0%N) (pos' mod 64 + i)) (64 - pos' mod 64)).
      { unfold F. replace (64 * (pos' / 64 + 1)) with (pos' + (64 - pos' mod 64)) by lia. rewrite cntb_add. f_equal.
        apply cntb_ext. intros a Ha. rewrite <- (flag_word data b) by lia. unfold f. f_equal. lia. }
      rewrite FE, Fp in H. rewrite Fp in FE.
      set (cc := cntb (fun i => wflag b (nth (pos' / 64) data 0%N) (pos' mod 64 + i)) (64 - pos' mod 64)) in *. clearbody cc.
      change (pv_ws bv) with data. apply (search_ok data b (proj1 (proj2 W)) x P IP HPd); [lia| |lia].
      change (cntb (flag data b)) with F. rewrite FE, Ex. lia.
  Qed.
End New.
