(** Proofs about LFS2: the encoding and the decoder. *)
From Coq Require Import Permutation Sorted.
From Verif Require Import Base BitIO BitIOProofs IntCodes IntCodesProofs Coders CodersProofs BitCoders Strategies HuffmanProofs
  Lfs LfsSpec LfsProofs LfsEsaProofs LfsTree LfsTreeSpec LfsTreeProofs Lfs2 Lfs2Proofs.
Local Open Scope nat_scope.

Lemma free_lits_in : forall text off p c, nth_error text p = Some c -> nth_error off p = Some 0 -> In c (free_lits text off).
Proof.
  induction text as [|a text IH]; intros [|f off] [|p] c H1 H2; try discriminate; cbn [free_lits nth_error] in *.
  - injection H1 as <-. injection H2 as ->. left. auto.
  - apply in_or_app. right. eapply IH; eauto.
Qed.
Lemma free_lits_sub : forall text off c, In c (free_lits text off) -> In c text.
Proof.
  induction text as [|a text IH]; intros [|f off] c H; cbn [free_lits] in H; try destruct H.
  apply in_app_iff in H. destruct H as [H|H]; [|right; eauto]. destruct (f =? 0); [|destruct H]. destruct H as [->|[]]. left. auto.
Qed.
Lemma free_lits_len : forall text off, length (free_lits text off) <= length text.
Proof.
  induction text as [|a text IH]; intros [|f off]; cbn [free_lits length]; try lia.
  rewrite app_length. specialize (IH off). destruct (f =? 0); cbn [length]; lia.
Qed.
Lemma announced_sub text y c : In c (announced text y) -> In c text.
Proof.
  unfold announced. intros H. apply in_app_iff in H. destruct H as [H|H]; [eapply free_lits_sub; eauto|].
  apply in_concat in H. destruct H as (l & H1 & H2). apply in_map_iff in H1. destruct H1 as (r & <- & _).
  apply free_lits_sub in H2. assert (G : forall k (t : list N), In c (firstn k t) -> In c t).
  { intros k t. rewrite <- (firstn_skipn k t) at 2. intros. apply in_or_app. auto. }
  apply G in H2. rewrite <- (firstn_skipn (fst r) text). apply in_or_app. auto.
Qed.
Lemma nth_firstn_skipn {A} (l : list A) p k q : q < k -> nth_error (firstn k (skipn p l)) q = nth_error l (p + q).
Proof.
  intros H. revert p. induction l as [|a l IH]; intros p.
  - rewrite skipn_nil, firstn_nil. generalize (p + q). intros z. destruct q, z; auto.
  - destruct p as [|p]; [|apply IH]. cbn [skipn Nat.add]. clear IH. revert k H. generalize (a :: l).
    induction q as [|q IHq]; intros t k H; destruct k, t; auto; try lia. cbn. apply IHq. lia.
Qed.

Section Enc2.
  Context (text : list N) (mn : nat).
  Let n := length text.
  Hypothesis Hmn : 1 <= mn.
  Hypothesis Hb : bytes_ok text.
  Hypothesis Hlen : (N.of_nat (length text) < 2 ^ 32)%N.

  Lemma linv_mn cur y dead ns : linv text mn cur y dead ns -> linv text mn mn y dead ns.
  Proof.
    intros I. assert (A : inv text mn 1 mn dead (y_syms y) ns).
    { pose proof (block_len text mn cur dead (y_syms y) ns) as B. pose proof (l_inv _ _ _ _ _ _ I) as V. pose proof V as V0. destruct V.
      constructor; auto.
      - apply Forall_forall. intros u Hu. apply (B u V0 Hu).
      - revert i_dcur. apply Forall_impl. tauto. }
    destruct I. constructor; auto.
  Qed.

  Section Items.
  Context (syms : list rule) (lits : list N).
  (** the items spell [w]; their symbols are [jmin] or later *)
  Fixpoint items_ok (jmin : nat) (its : list item) (w : list N) : Prop :=
    match its with
    | [] => w = []
    | ILit c :: r => exists w', w = c :: w' /\ In c lits /\ items_ok jmin r w'
    | ISym v :: r => exists m s len w', v = S m /\ nth_error syms m = Some (s, len) /\ jmin <= m /\ 1 <= len /\ s + len <= n /\
        w = piece text s len ++ w' /\ items_ok jmin r w'
    end.

  Lemma walk_gen layer e jmin (good : nat -> Prop) : e <= n ->
    (forall p, p < e -> good p ->
       (nth_error layer p = Some 0 /\ (forall c, nth_error text p = Some c -> In c lits) /\ good (p + 1)) \/
       (exists m s len, nth_error layer p = Some (S m) /\ nth_error syms m = Some (s, len) /\ jmin <= m /\ 1 <= len /\ s + len <= n /\
          p + len <= e /\ piece text s len = piece text p len /\ good (p + len))) ->
    forall fuel p, e - p <= fuel -> p <= e -> good p ->
    exists its, walk text syms layer fuel p e = Some its /\ items_ok jmin its (piece text p (e - p)).
  Proof.
    intros He Hs. induction fuel as [|fuel IH]; intros p Hf Hp Hg; cbn [walk].
    { replace (p <? e) with false by lia. exists []. split; auto. cbn. replace (e - p) with 0 by lia. reflexivity. }
    destruct (Nat.ltb_spec p e) as [L|L].
    2: { exists []. split; auto. cbn. replace (e - p) with 0 by lia. reflexivity. }
    destruct (Hs p L Hg) as [(E1 & E2 & E3)|(m & s & len & E1 & E2 & E3 & E4 & E5 & E6 & E7 & E8)]; rewrite E1; cbn [obind].
    - cbn [Nat.eqb]. destruct (nth_error text p) as [c|] eqn:Ec; [|apply nth_error_None in Ec; unfold n in *; lia]. cbn [obind].
      destruct (IH (p + 1)) as (its & W1 & W2); auto; try lia. rewrite W1. cbn [obind].
      eexists. split; [reflexivity|]. cbn [items_ok]. exists (piece text (p + 1) (e - (p + 1))). split; [|split; auto].
      unfold piece. rewrite (skipn_nth_cons text Hlen _ _ Ec). replace (e - p) with (S (e - (p + 1))) by lia. reflexivity.
    - cbn [Nat.eqb symbol]. rewrite E2. cbn [obind].
      destruct (IH (p + len)) as (its & W1 & W2); auto; try lia. rewrite W1. cbn [obind].
      eexists. split; [reflexivity|]. cbn [items_ok]. exists m, s, len, (piece text (p + len) (e - (p + len))).
      repeat (split; auto). rewrite E7. rewrite (piece_piece text Hlen). f_equal. lia.
  Qed.
  End Items.

  Section Layer.
  Context (y : lay) (dead : list bool) (ns : list nts) (cur : nat).
  Hypothesis I : linv text mn cur y dead ns.
  Notation lits := (announced text y).

  Lemma rule_range k s len : nth_error (y_syms y) k = Some (s, len) -> 1 <= len /\ s + len <= n.
  Proof.
    intros H. pose proof (i_rule _ _ _ _ _ _ _ (l_inv _ _ _ _ _ _ I)) as R. rewrite Forall_forall in R.
    apply (R _ (nth_error_In _ _ H)).
  Qed.
  Lemma rule_walk j ps L : nth_error (y_syms y) j = Some (ps, L) ->
    exists its, walk text (y_syms y) (y_sl y) L ps (ps + L) = Some its /\ items_ok (y_syms y) lits (S j) its (piece text ps L).
  Proof.
    intros Hj. destruct (rule_range _ _ _ Hj) as [R1 R2].
    destruct (walk_gen (y_syms y) lits (y_sl y) (ps + L) (S j) (fun p => ps <= p)) with (fuel := L) (p := ps)
      as (its & W1 & W2); try lia.
    - intros p Hp Hg. destruct (l_sl _ _ _ _ _ _ I p) as [H|(m & s & len & j' & ps' & L' & H1 & H2 & H3 & H4 & H5 & H6 & H7)];
        [unfold n in *; lia| |].
      + left. split; auto. split; [|lia]. intros c Hc. unfold announced. apply in_or_app. right.
        apply in_concat. exists (rule_lits text (y_sl y) (ps, L)). split; [apply in_map; eapply nth_error_In; eauto|].
        unfold rule_lits. cbn [fst snd]. apply free_lits_in with (p := p - ps); rewrite nth_firstn_skipn by lia;
          replace (ps + (p - ps)) with p by lia; auto.
      + right. destruct (rule_range _ _ _ H2) as [Q1 Q2].
        assert (E : (ps', j', L') = (ps, j, L)).
        { apply (same_block ns _ _ p).
          - apply (i_apart _ _ _ _ _ _ _ (l_inv _ _ _ _ _ _ I)).
          - apply (l_self _ _ _ _ _ _ I); auto.
          - apply (l_self _ _ _ _ _ _ I); auto.
          - unfold cov. cbn [fst snd]. lia.
          - unfold cov. cbn [fst snd]. lia. }
        injection E as -> -> ->. exists m, s, len. repeat (split; auto); lia.
    - exists its. split; auto. replace (ps + L - ps) with L in W2 by lia. auto.
  Qed.
  Lemma start_walk :
    exists its, walk text (y_syms y) (y_fl y) n 0 n = Some its /\ items_ok (y_syms y) lits 0 its text.
  Proof.
    destruct (walk_gen (y_syms y) lits (y_fl y) n 0 (fun p => forall u, In u ns -> cov u p -> fst (fst u) = p)) with (fuel := n) (p := 0)
      as (its & W1 & W2); try lia.
    - intros p Hp Hg. destruct (l_fl _ _ _ _ _ _ I p Hp) as [(u & U1 & U2 & U3)|[U1 U2]].
      + right. destruct (block_len text mn cur dead (y_syms y) ns u (l_inv _ _ _ _ _ _ I) U1) as (B1 & B2 & s & B3 & B4).
        destruct (rule_range _ _ _ B3) as [Q1 Q2]. exists (snd (fst u)), s, (snd u). rewrite U2 in B2, B4. fold n in B2.
        split; [exact U3|]. split; [exact B3|]. split; [lia|]. split; [lia|]. split; [lia|]. split; [lia|]. split; [exact B4|].
        intros v V1 V2. destruct (Nat.eq_dec (fst (fst v)) (p + snd u)) as [E|E]; auto. exfalso.
        assert (v = u) as ->.
        { apply (same_block ns v u (p + snd u - 1)); auto; [apply (i_apart _ _ _ _ _ _ _ (l_inv _ _ _ _ _ _ I))| |];
            unfold cov in *; lia. }
        unfold cov in V2. lia.
      + left. assert (Nc : forall u, In u ns -> ~ cov u p) by (intros u Hu Hc; apply (U2 u Hu); auto).
        split; auto. split.
        * intros c Hc. destruct (l_off _ _ _ _ _ _ I p Hp) as [(u & V1 & V2 & _)|[V _]]; [exfalso; eapply Nc; eauto|].
          unfold announced. apply in_or_app. left. eapply free_lits_in; eauto.
        * intros u Hu Hc. destruct (Nat.eq_dec (fst (fst u)) (p + 1)) as [E|E]; auto. exfalso. apply (Nc u Hu). unfold cov in *. lia.
    - intros u _ Hc. unfold cov in Hc. lia.
    - exists its. split; auto. rewrite Nat.sub_0_r in W2. unfold piece, n in W2. cbn [skipn] in W2. rewrite firstn_all in W2. auto.
  Qed.

  (** ** bits *)
  Context (cl : bcoder) (ls : bc_st cl) (dl : bc_dst cl).
  Hypothesis HL : deco cl ls dl lits.
  Let dn := length (y_syms y).
  Hypothesis Hdn : (N.of_nat dn < 2 ^ 32)%N.

  Lemma lits_byte c : In c lits -> (c < 256)%N.
  Proof. intros H. apply announced_sub in H. unfold bytes_ok in Hb. rewrite Forall_forall in Hb. apply Hb; auto. Qed.
  Lemma lit_item c : In c lits ->
    exists z b, bc_enc cl ls (0%N, RBit) = Some z /\ bc_enc cl ls (c, RLit) = Some b /\ z <> [] /\
      forall s rest, bisR s (z ++ b ++ rest) -> exists s1 s2, bc_dec cl RBit dl s = Some (0%N, s1) /\
        bc_dec cl RLit dl s1 = Some (c, s2) /\ bisR s2 rest.
  Proof.
    intros Hc. destruct (HL 0%N RBit) as (z & Z1 & Z2 & Z3); [cbn; lia|discriminate|].
    destruct (HL c RLit) as (b & F1 & _ & F3); [exact (lits_byte _ Hc)|auto|].
    exists z, b. repeat (split; auto). intros s rest HR.
    destruct (Z3 _ _ HR) as (s1 & Z4 & HR1). destruct (F3 _ _ HR1) as (s2 & F4 & HR2). eauto.
  Qed.
  Lemma sym_item m : m < dn ->
    exists z b, bc_enc cl ls (1%N, RBit) = Some z /\ bc_enc cl ls (N.of_nat (S m), RInt 0 (N.of_nat dn)) = Some b /\ z <> [] /\
      forall s rest, bisR s (z ++ b ++ rest) -> exists s1 v s2, bc_dec cl RBit dl s = Some (1%N, s1) /\
        bc_dec cl (RInt 0 (N.of_nat dn)) dl s1 = Some (v, s2) /\ N.to_nat (w32 (w32 v + 2 ^ 32 - 1)) = m /\ bisR s2 rest.
  Proof.
    intros Hm. destruct (HL 1%N RBit) as (z & Z1 & Z2 & Z3); [cbn; lia|discriminate|].
    destruct (HL (N.of_nat (S m)) (RInt 0 (N.of_nat dn))) as (b & F1 & _ & F3).
    { cbn -[N.of_nat]. rewrite pow64. lia. } { discriminate. }
    exists z, b. repeat (split; auto). intros s rest HR.
    destruct (Z3 _ _ HR) as (s1 & Z4 & HR1). destruct (F3 _ _ HR1) as (s2 & F4 & HR2).
    exists s1, (N.of_nat (S m)), s2. repeat (split; auto). rewrite (w32_small (N.of_nat (S m))) by lia. rewrite w32_diff by lia. lia.
  Qed.
  Lemma sym_lt m r : nth_error (y_syms y) m = Some r -> m < dn.
  Proof. intros H. apply nth_error_Some. congruence. Qed.
  Lemma piece_len s len : s + len <= n -> length (piece text s len) = len.
  Proof. intros H. unfold piece. rewrite firstn_length, skipn_length. unfold n in H. lia. Qed.

  Let lens := map (fun r : rule => N.of_nat (snd r)) (y_syms y).
  Lemma read_rule_ok jmin dict : (forall m s len, jmin <= m -> nth_error (y_syms y) m = Some (s, len) -> nth_error dict m = Some (piece text s len)) ->
    forall its w, items_ok (y_syms y) lits jmin its w ->
    exists b, enc_seq cl ls (flat_map (item_calls dn) its) = Some b /\
      forall fuel s rest, length w <= fuel -> bisR s (b ++ rest) ->
      exists s', read_rule cl fuel dl lens dict (N.of_nat (length w)) s = Some (w, s') /\ bisR s' rest.
  Proof.
    intros Hd. induction its as [|[c|v] its IH]; intros w Hw; cbn [items_ok flat_map item_calls app] in *.
    - subst w. exists []. split; auto. intros [|fuel] s rest _ HR; cbn [read_rule length]; exists s; auto.
    - destruct Hw as (w' & -> & Hc & Hw). destruct (IH _ Hw) as (b' & E & R).
      destruct (lit_item c Hc) as (z & b & Z1 & Z2 & Z3 & Z4). cbn [enc_seq]. rewrite Z1, Z2, E. cbn [obind].
      exists (z ++ b ++ b'). split; auto. intros [|fuel] s rest Hf HR; [cbn in Hf; lia|]. cbn [length] in *. cbn [read_rule].
      rewrite (proj2 (N.eqb_neq _ 0)) by lia. rewrite <- !app_assoc in HR.
      destruct (Z4 _ _ HR) as (s1 & s2 & Y1 & Y2 & HR2). rewrite Y1. cbn [obind]. rewrite N.eqb_refl. rewrite Y2. cbn [obind].
      replace (N.of_nat (S (length w')) - 1)%N with (N.of_nat (length w')) by lia.
      destruct (R fuel s2 rest) as (s3 & R1 & HR3); auto; [lia|]. rewrite R1. cbn [obind]. exists s3. split; auto.
      unfold w8. rewrite N.mod_small by (apply lits_byte; auto). auto.
    - destruct Hw as (m & s0 & len & w' & -> & Hm & Hj & H1 & H2 & -> & Hw). destruct (IH _ Hw) as (b' & E & R).
      destruct (sym_item m (sym_lt _ _ Hm)) as (z & b & Z1 & Z2 & Z3 & Z4). cbn [enc_seq]. rewrite Z1, Z2, E. cbn [obind].
      exists (z ++ b ++ b'). split; auto. intros [|fuel] s rest Hf HR; rewrite app_length, piece_len in Hf by auto; [lia|]. cbn [read_rule].
      rewrite app_length, piece_len by auto.
      rewrite (proj2 (N.eqb_neq _ 0)) by lia. rewrite <- !app_assoc in HR.
      destruct (Z4 _ _ HR) as (s1 & v & s2 & Y1 & Y2 & Y3 & HR2). rewrite Y1. cbn [obind]. change (1 =? 0)%N with false. cbv iota.
      replace (length lens) with dn by (unfold lens; rewrite map_length; reflexivity). rewrite Y2. cbn [obind]. rewrite Y3.
      rewrite (Hd _ _ _ Hj Hm).
      assert (El : nth_error lens m = Some (N.of_nat len)) by exact (map_nth_error (fun r : rule => N.of_nat (snd r)) m _ Hm).
      rewrite El. replace (N.of_nat (len + length w') - N.of_nat len)%N with (N.of_nat (length w')) by lia.
      destruct (R fuel s2 rest) as (s3 & R1 & HR3); auto; [lia|]. rewrite R1. cbn [obind]. exists s3. split; auto.
  Qed.

  Lemma read_start_ok dict : length dict = dn ->
    (forall m s len, nth_error (y_syms y) m = Some (s, len) -> nth_error dict m = Some (piece text s len)) ->
    forall its w, items_ok (y_syms y) lits 0 its w ->
    exists b, enc_seq cl ls (flat_map (item_calls dn) its) = Some b /\
      forall fuel s, length w <= fuel -> bisR s b -> read_start cl fuel dl dict s = Some w.
  Proof.
    intros Hdl Hd. induction its as [|[c|v] its IH]; intros w Hw; cbn [items_ok flat_map item_calls app] in *.
    - subst w. exists []. split; auto. intros [|fuel] s _ HR; cbn [read_start]; rewrite (bisR_eofb _ _ HR); auto.
    - destruct Hw as (w' & -> & Hc & Hw). destruct (IH _ Hw) as (b' & E & R).
      destruct (lit_item c Hc) as (z & b & Z1 & Z2 & Z3 & Z4). cbn [enc_seq]. rewrite Z1, Z2, E. cbn [obind].
      exists (z ++ b ++ b'). split; auto. intros [|fuel] s Hf HR; [cbn in Hf; lia|]. cbn [length] in *. cbn [read_start].
      rewrite (bisR_eofb _ _ HR). destruct z as [|z0 z]; [congruence|]. cbn [app].
      change (z0 :: z ++ b ++ b') with ((z0 :: z) ++ b ++ b') in HR.
      destruct (Z4 _ _ HR) as (s1 & s2 & Y1 & Y2 & HR2). rewrite Y1. cbn [obind]. rewrite N.eqb_refl. rewrite Y2. cbn [obind].
      rewrite (R fuel s2) by (auto; lia). cbn [obind].
      unfold w8. rewrite N.mod_small by (apply lits_byte; auto). auto.
    - destruct Hw as (m & s0 & len & w' & -> & Hm & Hj & H1 & H2 & -> & Hw). destruct (IH _ Hw) as (b' & E & R).
      destruct (sym_item m (sym_lt _ _ Hm)) as (z & b & Z1 & Z2 & Z3 & Z4). cbn [enc_seq]. rewrite Z1, Z2, E. cbn [obind].
      exists (z ++ b ++ b'). split; auto. intros [|fuel] s Hf HR; rewrite app_length, piece_len in Hf by auto; [lia|]. cbn [read_start].
      rewrite (bisR_eofb _ _ HR). destruct z as [|z0 z]; [congruence|]. cbn [app].
      change (z0 :: z ++ b ++ b') with ((z0 :: z) ++ b ++ b') in HR.
      destruct (Z4 _ _ HR) as (s1 & v & s2 & Y1 & Y2 & Y3 & HR2). rewrite Y1. cbn [obind]. change (1 =? 0)%N with false. cbv iota.
      rewrite Hdl. rewrite Y2. cbn [obind]. rewrite Y3. rewrite (Hd _ _ _ Hm).
      rewrite (R fuel s2) by (auto; lia). cbn [obind]. auto.
  Qed.

  Lemma read_rules_ok : forall i, i <= dn ->
    exists its b, rule_items text (y_syms y) (y_sl y) (rev (firstn i (y_syms y))) = Some its /\
      enc_seq cl ls (flat_map (item_calls dn) its) = Some b /\
      forall fuel dict s rest, n <= fuel -> length dict = dn ->
        (forall m s len, i <= m -> nth_error (y_syms y) m = Some (s, len) -> nth_error dict m = Some (piece text s len)) ->
        bisR s (b ++ rest) ->
        exists dict' s', read_rules cl fuel i dl lens dict s = Some (dict', s') /\ bisR s' rest /\ length dict' = dn /\
          forall m s len, nth_error (y_syms y) m = Some (s, len) -> nth_error dict' m = Some (piece text s len).
  Proof.
    induction i as [|i IH]; intros Hi.
    - exists [], []. split; auto. split; auto. intros fuel dict s rest _ Hl Hd HR. exists dict, s. cbn [read_rules].
      split; auto. split; auto. split; auto. intros m s0 len. apply Hd. lia.
    - destruct (IH ltac:(lia)) as (its & b & E1 & E2 & E3).
      destruct (nth_error (y_syms y) i) as [[ps L]|] eqn:Er; [|apply nth_error_None in Er; unfold dn in Hi; lia].
      assert (F : firstn (S i) (y_syms y) = firstn i (y_syms y) ++ [(ps, L)]).
      { clear - Er. revert i Er. induction (y_syms y) as [|a l IHl]; intros [|i] E; try discriminate.
        - cbn in *. congruence.
        - cbn [firstn app]. f_equal. apply IHl. exact E. }
      rewrite F, rev_app_distr. cbn [rev app rule_items].
      destruct (rule_walk i ps L Er) as (its0 & W1 & W2). rewrite W1. cbn [obind]. rewrite E1. cbn [obind].
      destruct (rule_range _ _ _ Er) as [Q1 Q2].
      assert (G : exists b0, enc_seq cl ls (flat_map (item_calls dn) its0) = Some b0).
      { destruct (read_rule_ok (S i) (map (fun r => piece text (fst r) (snd r)) (y_syms y))) with (its := its0) (w := piece text ps L) as (b0 & B & _); eauto.
        intros m s len _ Hm. exact (map_nth_error (fun r : rule => piece text (fst r) (snd r)) m _ Hm). }
      destruct G as (b0 & G).
      exists (its0 ++ its), (b0 ++ b). split; auto. split.
      { rewrite flat_map_app, enc_app, G, E2. auto. }
      intros fuel dict s rest Hf Hl Hd HR. cbn [read_rules].
      assert (El : nth_error lens i = Some (N.of_nat L)) by exact (map_nth_error (fun r : rule => N.of_nat (snd r)) i _ Er).
      rewrite El. cbn [obind].
      destruct (read_rule_ok (S i) dict) with (its := its0) (w := piece text ps L) as (b0' & B1 & B2); auto.
      assert (b0' = b0) as -> by congruence. rewrite <- app_assoc in HR. rewrite piece_len in B2 by auto.
      destruct (B2 fuel s (b ++ rest)) as (s1 & B3 & HR1); auto; [unfold n in *; lia|].
      rewrite B3. cbn [obind]. apply E3; auto.
      + rewrite upd_length. auto.
      + intros m s0 len Hm Hs. destruct (Nat.eq_dec i m) as [<-|Hne].
        * rewrite nth_error_upd_eq by (rewrite Hl; unfold dn; apply nth_error_Some; congruence). congruence.
        * rewrite nth_error_upd_ne by auto. apply Hd; auto. lia.
  Qed.
  End Layer.
End Enc2.

Lemma lfs2_encode_ok cl cn Pl (Pn : list N -> Prop) text mn cur y dead ns : bcoder_ok Pl cl -> bcoder_ok Pn cn ->
  bytes_ok text -> (N.of_nat (length text) < 2 ^ 32)%N -> 1 <= mn -> linv text mn cur y dead ns ->
  Pl (announced text y) -> Pn [] ->
  exists f, lfs2_encode cl cn text y = Some f /\ bytes_ok f /\
    forall fuel, length text < fuel -> lfs2_decode cl cn fuel f = Some text.
Proof.
  intros HL HN Hb Hlen Hmn I Pl1 Pn1.
  assert (Ha : bytes_ok (announced text y)).
  { apply Forall_forall. intros c Hc. apply announced_sub in Hc. unfold bytes_ok in Hb. rewrite Forall_forall in Hb. apply Hb; auto. }
  destruct (HL _ Ha Pl1) as (ls & h1 & dl & L1 & L2 & L3).
  destruct (HN [] (Forall_nil _) Pn1) as (ns_ & h2 & dn & N1 & N2 & N3).
  unfold lfs2_encode. rewrite L1, N1. cbn [obind].
  apply linv_mn in I.
  destruct (inv_final text mn 1 mn dead (y_syms y) ns Hmn (l_inv _ _ _ _ _ _ I)) as ([R1 R2] & _ & Hd & _ & _).
  set (d := y_syms y) in *.
  assert (G : exists b1, enc_seq cn ns_ (length_calls d) = Some b1 /\
    forall fuel s rest, length d < fuel -> bisR s (b1 ++ rest) -> exists l0 s1 s', 
      bc_dec cn (RInt 0 uint_max) dn s = Some (l0, s1) /\
      read_lengths cn fuel dn (w32 l0) (w32 l0) s1 = Some (map (fun r => N.of_nat (snd r)) d, s') /\ bisR s' rest).
  { apply lengths_ok with (text := text); auto. }
  destruct G as (b1 & G1 & G2). rewrite G1. cbn [obind].
  assert (Hdn : (N.of_nat (length (y_syms y)) < 2 ^ 32)%N) by (fold d; lia).
  destruct (read_rules_ok text mn Hmn Hb Hlen y dead ns mn I cl ls dl L3 Hdn (length d) ltac:(unfold d; lia)) as (ri & b2 & D1 & D2 & D3).
  fold d in D1, D2, D3. rewrite firstn_all in D1. rewrite D1. cbn [obind]. rewrite D2. cbn [obind].
  destruct (start_walk text mn Hmn Hlen y dead ns mn I) as (si & S1 & S2). fold d in S1, S2. rewrite S1. cbn [obind].
  assert (B : exists b3, enc_seq cl ls (flat_map (item_calls (length d)) si) = Some b3 /\
    forall dict fuel s, length dict = length d -> (forall m s len, nth_error d m = Some (s, len) -> nth_error dict m = Some (piece text s len)) ->
      length text <= fuel -> bisR s b3 -> read_start cl fuel dl dict s = Some text).
  { destruct (read_start_ok text mn Hmn Hb Hlen y cl ls dl L3 Hdn (map (fun r => piece text (fst r) (snd r)) d)) with (its := si) (w := text) as (b3 & B1 & B2); auto.
    - apply map_length.
    - intros m s len Hm. exact (map_nth_error (fun r : rule => piece text (fst r) (snd r)) m _ Hm).
    - exists b3. split; auto. intros dict fuel s X1 X2 X3 X4.
      destruct (read_start_ok text mn Hmn Hb Hlen y cl ls dl L3 Hdn dict X1 X2 si text S2) as (b3' & B1' & B2').
      fold d in B1, B1'. assert (Some b3' = Some b3) as Eb by (rewrite <- B1, <- B1'; reflexivity). injection Eb as ->. auto. }
  destruct B as (b3 & B1 & B2). rewrite B1. cbn [obind].
  eexists. split; [reflexivity|]. split; [apply bitstream_bytes_ok_pf|].
  intros fuel Hf. unfold lfs2_decode.
  destruct (L2 _ _ (bisR_file (h1 ++ h2 ++ b1 ++ b2 ++ b3))) as (s1 & E1 & HR1). rewrite E1. cbn [obind].
  destruct (N2 _ _ HR1) as (s2 & E2 & HR2). rewrite E2. cbn [obind].
  destruct (G2 fuel _ _ ltac:(lia) HR2) as (l0 & s3 & s4 & E3 & E4 & HR4). rewrite E3. cbn [obind]. rewrite E4. cbn [obind].
  rewrite map_length.
  destruct (D3 fuel (repeat [] (length d)) s4 b3) as (dict & s5 & E5 & HR5 & X1 & X2); auto; [lia|apply repeat_length| |].
  { intros m s len Hm Hs. assert (m < length d) by (apply nth_error_Some; congruence). lia. }
  rewrite E5. cbn [obind]. apply B2; auto. lia.
Qed.

(** the literals announced to the coder: at most twice as many as the text has *)
Lemma sum_sub {A} (f : A -> nat) : forall l l' : list A, NoDup l -> incl l l' -> list_sum (map f l) <= list_sum (map f l').
Proof.
  induction l as [|a l IH]; intros l' Hd Hi; [cbn; lia|]. inversion Hd as [|? ? D1 D2]; subst.
  destruct (in_split a l') as (l1 & l2 & ->); [apply Hi; left; auto|].
  assert (G : list_sum (map f l) <= list_sum (map f (l1 ++ l2))).
  { apply IH; auto. intros x Hx. specialize (Hi x (or_intror Hx)). apply in_app_iff in Hi. apply in_or_app.
    destruct Hi as [|[<-|]]; auto. contradiction. }
  rewrite !map_app, !list_sum_app in *. cbn [map list_sum fold_right] in *. unfold list_sum in *. cbn [fold_right]. lia.
Qed.
Lemma uses_sum text d : forall ns pos, pos <= length text -> uses_ok text d pos ns -> pos + list_sum (map snd ns) <= length text.
Proof.
  induction ns as [|[[st sym] l] ns IH]; intros pos Hp Hu; [cbn; lia|]. cbn [uses_ok] in Hu. destruct Hu as (U1 & U2 & _ & U3).
  specialize (IH _ U2 U3). cbn [map list_sum snd fold_right] in *. unfold list_sum in *. cbn [fold_right]. lia.
Qed.
Lemma announced_len text mn cur y dead ns : 1 <= mn -> linv text mn cur y dead ns -> length (announced text y) <= 2 * length text.
Proof.
  intros Hmn I. apply linv_mn in I. unfold announced. rewrite app_length. pose proof (free_lits_len text (y_off y)) as F.
  destruct (inv_final text mn 1 mn dead (y_syms y) ns Hmn (l_inv _ _ _ _ _ _ I)) as (_ & U & _).
  apply uses_sum in U; [|lia]. cbn [Nat.add] in U.
  assert (E1 : length (concat (map (rule_lits text (y_sl y)) (y_syms y))) <= list_sum (map snd (y_syms y))).
  { clear. induction (y_syms y) as [|r l IH]; cbn [map concat]; [cbn; lia|]. rewrite app_length.
    assert (length (rule_lits text (y_sl y) r) <= snd r).
    { unfold rule_lits. etransitivity; [apply free_lits_len|]. rewrite firstn_length. lia. }
    cbn [map]. unfold list_sum in *. cbn [fold_right]. lia. }
  set (tr := map (fun k => (fst (nth k (y_syms y) (0, 0)), k, snd (nth k (y_syms y) (0, 0)))) (seq 0 (length (y_syms y)))).
  assert (E2 : list_sum (map snd tr) <= list_sum (map snd (nts_sort ns))).
  { apply sum_sub.
    - unfold tr. apply FinFun.Injective_map_NoDup; [|apply seq_NoDup]. intros a b E. injection E. auto.
    - intros u Hu. apply (Permutation_in _ (nts_sort_perm ns)). unfold tr in Hu. apply in_map_iff in Hu. destruct Hu as (k & <- & Hk).
      apply in_seq in Hk. apply (l_self _ _ _ _ _ _ I). rewrite (nth_error_nth' (y_syms y) (0, 0)) by lia.
      destruct (nth k (y_syms y) (0, 0)). auto. }
  assert (E3 : map snd tr = map snd (y_syms y)).
  { unfold tr. rewrite map_map. cbn [snd]. clear. generalize (y_syms y) as l. intros l.
    assert (G : forall l pre, map (fun k => snd (nth k (pre ++ l) (0, 0))) (seq (length pre) (length l)) = map snd (l : list rule)).
    { clear. induction l as [|a l IH]; intros pre; [auto|]. cbn [length seq map]. f_equal.
      - rewrite app_nth2, Nat.sub_diag by lia. auto.
      - specialize (IH (pre ++ [a])). rewrite app_length, <- app_assoc in IH. cbn [length app] in IH. rewrite Nat.add_1_r in IH. exact IH. }
    exact (G l []). }
  rewrite E3 in E2. lia.
Qed.

(** every character of the text is announced *)
Lemma items_in text syms lits j : forall its w c, items_ok text syms lits j its w -> In c w ->
  In c lits \/ exists m s len, j <= m /\ nth_error syms m = Some (s, len) /\ In c (piece text s len).
Proof.
  induction its as [|[a|v] its IH]; intros w c Hw Hc; cbn [items_ok] in Hw.
  - subst w. destruct Hc.
  - destruct Hw as (w' & -> & Ha & Hw). destruct Hc as [<-|Hc]; eauto.
  - destruct Hw as (m & s & len & w' & _ & Hm & Hj & _ & _ & -> & Hw). apply in_app_iff in Hc. destruct Hc as [Hc|Hc]; eauto 7.
Qed.
Lemma announced_all text mn cur y dead ns c : 1 <= mn -> (N.of_nat (length text) < 2 ^ 32)%N -> linv text mn cur y dead ns ->
  In c text -> In c (announced text y).
Proof.
  intros Hmn Hlen I Hc.
  assert (R : forall k m s len, length (y_syms y) - m <= k -> nth_error (y_syms y) m = Some (s, len) -> In c (piece text s len) -> In c (announced text y)).
  { induction k as [|k IH]; intros m s len Hk Hm Hp.
    - assert (m < length (y_syms y)) by (apply nth_error_Some; congruence). lia.
    - destruct (rule_walk text mn Hmn Hlen y dead ns cur I m s len Hm) as (its & _ & W).
      destruct (items_in _ _ _ _ _ _ _ W Hp) as [|(m' & s' & len' & G1 & G2 & G3)]; auto. apply (IH m' s' len'); auto. lia. }
  destruct (start_walk text mn Hmn Hlen y dead ns cur I) as (its & _ & W).
  destruct (items_in _ _ _ _ _ _ _ W Hc) as [|(m & s & len & _ & G2 & G3)]; auto. eapply R; eauto.
Qed.
