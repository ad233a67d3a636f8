(** Proofs about LZ78 and LZW. *)
From Verif Require Import Base BitIO BitIOProofs IntCodes IntCodesProofs Coders CodersProofs LZ.
Local Open Scope N_scope.

Lemma ent_find_some E p c : forall k, ent_find E p c = Some k -> nth_error E k = Some (p, c).
Proof.
  induction E as [|[p' c'] E IH]; simpl; intros k H; [discriminate|].
  destruct ((p' =? p) && (c' =? c)) eqn:B.
  - apply Some_inj in H; subst k. cbn. do 2 f_equal; lia.
  - destruct (ent_find E p c) as [k'|]; simpl in H; [|discriminate].
    apply Some_inj in H; subst k. simpl. auto.
Qed.

Lemma ent_find_lt E p c k : ent_find E p c = Some k -> (k < length E)%nat.
Proof. intros H. apply ent_find_some in H. apply nth_error_Some. congruence. Qed.

Lemma at_find_cases a p c :
  (exists k, nth_error (a_ent a) k = Some (p, c) /\ (k < length (a_ent a))%nat /\
     at_find a p c = (a_roots a + N.of_nat k, false, a)) \/
  at_find a p c = (at_size a, true, mk_atrie (a_roots a) (a_ent a ++ [(p, c)])).
Proof.
  unfold at_find, at_size. destruct (ent_find (a_ent a) p c) as [k|] eqn:F; [left|right; reflexivity].
  exists k. split; [eapply ent_find_some; eauto|]. split; [eapply ent_find_lt; eauto|reflexivity].
Qed.

Lemma last_cons {A} (l : list A) : forall x d, last (x :: l) d = last l x.
Proof.
  induction l as [|y l IH]; intros x d; [reflexivity|].
  change (last (x :: y :: l) d) with (last (y :: l) d). rewrite (IH y d), (IH y x). reflexivity.
Qed.

(** ** LZ78 *)
Inductive spells (E : list (N * N)) : N -> list N -> Prop :=
| sp_root : spells E 0 []
| sp_node : forall k p c w, nth_error E k = Some (p, c) -> p <= N.of_nat k ->
    spells E p w -> spells E (1 + N.of_nat k) (w ++ [c]).

Lemma spells_mono E E' i w : spells E i w -> spells (E ++ E') i w.
Proof.
  induction 1; [constructor|]. econstructor; eauto.
  rewrite nth_error_app1; auto. apply nth_error_Some. congruence.
Qed.
Lemma spells_len E i w : spells E i w -> N.of_nat (length w) <= i.
Proof. induction 1; simpl; [lia|]. rewrite app_length; simpl. lia. Qed.
Lemma spells_bound E i w : spells E i w -> i <= N.of_nat (length E).
Proof.
  induction 1; [lia|]. assert (k < length E)%nat by (apply nth_error_Some; congruence). lia.
Qed.

Lemma chain_spells E i w : spells E i w -> forall fuel lit buf, (length w <= fuel)%nat ->
  lz78_chain fuel E i lit buf = Some (w ++ lit :: buf).
Proof.
  induction 1 as [|k p c w Hn Hp Hs IH]; intros fuel lit buf Hf.
  - destruct fuel; reflexivity.
  - rewrite app_length in Hf; simpl in Hf. destruct fuel as [|fuel]; [lia|].
    cbn [lz78_chain]. replace (1 + N.of_nat k =? 0) with false by lia.
    replace (N.to_nat (1 + N.of_nat k - 1)) with k by lia. rewrite Hn.
    rewrite IH by lia. rewrite <- app_assoc. reflexivity.
Qed.

Section Loop78.
  Variable t : trie.
  Variable lim : N.
  Variable TR : t_st t -> atrie -> Prop.
  Hypothesis Hroot : forall st a c, TR st a -> c < a_roots a -> t_root t st c = c.
  Hypothesis Hsize : forall st a, TR st a -> t_size t st = at_size a.
  Hypothesis Hfind : forall st a p c, TR st a -> p < at_size a -> c < 256 -> at_size a < lim ->
       exists st', t_find t st p c = Some (fst (at_find a p c), st') /\ TR st' (snd (at_find a p c)).
  Variable dms : N.

  Lemma lz78_loop_ok : forall text st E node parent lastc pend,
    TR st (mk_atrie 1 E) -> bytes_ok text -> byte_ok lastc ->
    dms = 0 \/ N.of_nat (length E + length text) + 1 < dms ->
    N.of_nat (length E + length text) + 1 < lim -> N.of_nat (length E + length text) + 1 < 2 ^ 32 ->
    (forall k p c, nth_error E k = Some (p, c) -> p <= N.of_nat k) ->
    spells E node pend ->
    (node <> 0 -> exists wp, pend = wp ++ [lastc] /\ spells E parent wp) ->
    exists cs, lz78_loop t dms st node parent (N.of_nat (length E)) lastc text = Some cs /\
      Forall call_okc cs /\ (last text lastc < 128 -> Forall call_ok cs) /\
      (length cs <= 2 + 2 * length text)%nat /\
      forall c R s fuel, decodes c R -> R s cs -> (length text + (if N.eqb node 0 then 0 else 1) <= fuel)%nat ->
        lz78_dec_loop c fuel E (N.of_nat (length E)) s = Some (pend ++ text).
  Proof.
    induction text as [|x text IH]; intros st E node parent lastc pend HR Hb Hl Hdms Hlim H32 Hwf Hsp Hpar.
    - simpl. destruct (N.eqb_spec node 0) as [Hn|Hn].
      + exists []. repeat split; auto. 
        intros c R s fuel Hd Hs Hf. subst node. inversion Hsp; subst; [|lia].
        destruct fuel; simpl; rewrite (proj1 Hd _ Hs); reflexivity.
      + destruct (Hpar Hn) as (wp & -> & Hspp).
        pose proof (spells_bound _ _ _ Hspp).
        pose proof (spells_len _ _ _ Hspp).
        exists [(parent, RInt 0 (N.of_nat (length E))); (sext8 lastc, RLit)].
        unfold byte_ok in Hl. simpl in Hlim, H32.
        split; [reflexivity|]. split; [|split; [|split]].
        * constructor; [|constructor; [|constructor]]; simpl; unfold sext8; [lia|]; destruct (N.ltb_spec lastc 128); unfold byte_ok in *; lia.
        * intros Hla. simpl in Hla. unfold sext8. replace (lastc <? 128) with true by lia.
          repeat constructor; simpl; lia.
        * simpl; lia.
        * intros c R s fuel [Hd1 Hd2] Hs Hf. destruct fuel as [|fuel]; [simpl in Hf; lia|].
          destruct (Hd2 _ _ _ _ Hs) as (He1 & s1 & D1 & Hs1).
          destruct (Hd2 _ _ _ _ Hs1) as (He2 & s2 & D2 & Hs2).
          cbn [lz78_dec_loop]. rewrite He1, D1. cbn [obind].
          rewrite D2. cbn [obind call_val]. cbv zeta.
          assert (Hv : w8 (sext8 lastc) = lastc).
          { unfold w8, sext8. destruct (N.ltb_spec lastc 128); lia. }
          rewrite Hv.
          replace (w32 parent) with parent by (unfold w32; rewrite N.mod_small; lia).
          rewrite (chain_spells _ _ _ (spells_mono _ _ _ _ Hspp)) by (rewrite app_length; simpl; lia).
          simpl obind. destruct fuel; cbn [lz78_dec_loop]; rewrite (Hd1 _ Hs2); simpl;
            rewrite !app_nil_r; reflexivity.
    - inversion Hb as [|? ? Hx Hb']; subst. simpl in Hlim, H32, Hdms.
      pose proof (spells_bound _ _ _ Hsp) as Hnb.
      pose proof (spells_len _ _ _ Hsp) as Hnl.
      destruct (Hfind st (mk_atrie 1 E) node x HR) as (st' & F & HR').
      { unfold at_size; simpl; lia. } { exact Hx. } { unfold at_size; simpl; lia. }
      assert (Hlast : forall d, last (x :: text) d = last text x).
      { intros d. apply last_cons. }
      rewrite Hlast. cbn [lz78_loop]. rewrite F.
      destruct (at_find_cases (mk_atrie 1 E) node x) as [(k & Hk & Hkl & Hat)|Hat]; rewrite Hat in *; simpl in HR'.
      + cbn [fst]. simpl a_roots. simpl in Hk, Hkl.
        pose proof (Hwf _ _ _ Hk) as Hle.
        destruct (IH st' E (1 + N.of_nat k) node x (pend ++ [x])) as (cs & L & Ok1 & Ok2 & Len & Dec); auto; try lia.
        { econstructor; eauto. } { intros _. eexists; split; [reflexivity|auto]. }
        exists cs. rewrite L. repeat split; auto; try (simpl; lia).
        intros c R s fuel Hd Hs Hf. rewrite (Dec c R s fuel Hd Hs).
        { rewrite <- app_assoc. reflexivity. }
        replace (1 + N.of_nat k =? 0) with false by lia. simpl in Hf. destruct (node =? 0); simpl in *; lia.
      + cbn [fst]. rewrite (Hsize _ _ HR'). unfold at_size at 1. simpl a_roots. simpl a_ent.
        cbn [length] in Hdms.
        replace (1 + N.of_nat (length (E ++ [(node, x)])) =? dms) with false by (rewrite app_length; cbn [length]; lia).
        rewrite (Hroot _ _ _ HR') by (simpl; lia).
        destruct (IH st' (E ++ [(node, x)]) 0 0 x []) as (cs & L & Ok1 & Ok2 & Len & Dec); auto;
          try (rewrite app_length; simpl; lia).
        { intros k p c Hk. destruct (Nat.lt_ge_cases k (length E)).
          - rewrite nth_error_app1 in Hk by auto. eauto.
          - rewrite nth_error_app2 in Hk by auto. destruct (k - length E)%nat eqn:D; simpl in Hk.
            + apply Some_inj in Hk. inversion Hk; subst. lia.
            + destruct n; discriminate. }
        { constructor. } { lia. }
        rewrite app_length in L. simpl in L.
        replace (N.of_nat (length E + 1)) with (N.of_nat (length E) + 1) in L by lia.
        rewrite L. simpl obind. eexists; split; [reflexivity|]. split; [|split; [|split]].
        * constructor; [simpl; lia|]. constructor; [simpl; auto|auto].
        * intros Hl'. constructor; [simpl; lia|]. constructor; [simpl; auto|auto].
        * simpl; lia.
        * intros c R s fuel [Hd1 Hd2] Hs Hf. destruct fuel as [|fuel]; [simpl in Hf; lia|].
          destruct (Hd2 _ _ _ _ Hs) as (He1 & s1 & D1 & Hs1).
          destruct (Hd2 _ _ _ _ Hs1) as (He2 & s2 & D2 & Hs2).
          cbn [lz78_dec_loop]. rewrite He1, D1. cbn [obind].
          rewrite D2. cbn [obind call_val]. cbv zeta.
          replace (w8 x) with x by (unfold w8; rewrite N.mod_small; auto).
          replace (w32 node) with node by (unfold w32; rewrite N.mod_small; lia).
          rewrite (chain_spells _ _ _ (spells_mono _ _ _ _ Hsp)) by (rewrite app_length; simpl; lia).
          simpl obind. 
          specialize (Dec c R s2 fuel (conj Hd1 Hd2) Hs2).
          rewrite app_length in Dec. simpl in Dec.
          replace (N.of_nat (length E + 1)) with (N.of_nat (length E) + 1) in Dec by lia.
          rewrite Dec by (simpl in Hf; lia). simpl. rewrite <- app_assoc. reflexivity.
  Qed.
End Loop78.

Lemma lz78_calls_ok lim t dms text : trie_ok lim t -> bytes_ok text ->
  dms = 0 \/ N.of_nat (length text) + 1 < dms ->
  N.of_nat (length text) + 1 < lim -> N.of_nat (length text) + 1 < 2 ^ 32 ->
  exists cs, lz78_calls t dms text = Some cs /\ Forall call_okc cs /\
    (last text 0 < 128 -> Forall call_ok cs) /\
    forall c R s fuel, decodes c R -> R s cs -> (length text <= fuel)%nat ->
      lz78_dec_loop c fuel [] 0 s = Some text.
Proof.
  intros (TR & Hi & Hr & Hroot & Hsize & Hfind) Hb Hdms Hl H32.
  destruct (Hi 1 (or_introl eq_refl)) as (st & I & HR).
  unfold lz78_calls. rewrite I. cbn [obind]. rewrite (Hroot _ _ _ HR) by (simpl; lia).
  destruct (lz78_loop_ok t lim TR Hroot Hsize Hfind dms text st [] 0 0 0 [])
    as (cs & L & O1 & O2 & _ & D); auto; try (simpl; lia).
  - unfold byte_ok; lia.
  - intros [|k] p c H; discriminate.
  - constructor.
  - exists cs. repeat split; auto. intros c R s fuel Hd Hs Hf. apply (D c R s fuel Hd Hs). simpl; lia.
Qed.

Lemma lz78_char_pf : forall lim t dms c text, dms = 0 \/ N.of_nat (length text) + 1 < dms -> trie_ok lim t -> coder_ok_char c -> bytes_ok text ->
  N.of_nat (length text) + 1 < lim -> N.of_nat (length text) + 1 < 2 ^ 32 ->
  exists f, lz78_compress t dms c text = Some f /\
    forall fuel, (length text <= fuel)%nat -> lz78_decompress c fuel f = Some text.
Proof.
  intros lim t dms c text Hdms Ht Hc Hb Hl H32.
  destruct (lz78_calls_ok lim t dms text Ht Hb Hdms Hl H32) as (cs & L & O & _ & D).
  destruct (Hc [] cs O) as (f & s & R & E & Op & Dec & Hs).
  exists f. unfold lz78_compress. rewrite L. cbn [obind]. split; auto.
  intros fuel Hf. unfold lz78_decompress. rewrite Op. cbn [obind]. eauto.
Qed.

Lemma lz78_pf : forall lim t dms c text, dms = 0 \/ N.of_nat (length text) + 1 < dms -> trie_ok lim t -> coder_ok c -> bytes_ok text ->
  last text 0 < 128 ->
  N.of_nat (length text) + 1 < lim -> N.of_nat (length text) + 1 < 2 ^ 32 ->
  exists f, lz78_compress t dms c text = Some f /\
    forall fuel, (length text <= fuel)%nat -> lz78_decompress c fuel f = Some text.
Proof.
  intros lim t dms c text Hdms Ht Hc Hb Hla Hl H32.
  destruct (lz78_calls_ok lim t dms text Ht Hb Hdms Hl H32) as (cs & L & _ & O & D).
  destruct (Hc [] cs (O Hla)) as (f & s & R & E & Op & Dec & Hs).
  exists f. unfold lz78_compress. rewrite L. cbn [obind]. split; auto.
  intros fuel Hf. unfold lz78_decompress. rewrite Op. cbn [obind]. eauto.
Qed.

Lemma spec_trie_ok lim : trie_ok lim spec_trie.
Proof.
  exists (fun st a => st = a). repeat split.
  - intros; eexists; split; reflexivity.
  - intros; eexists; split; reflexivity.
  - intros; subst; reflexivity.
  - intros st a p c -> _ _ _. exists (snd (at_find a p c)). simpl.
    destruct (at_find a p c) as [x y]. auto.
Qed.

(** ** LZW *)
Inductive spw (dms : N) (D : list (N * N)) : N -> list N -> Prop :=
| spw_root : forall k c, nth_error D k = Some (dms, c) -> spw dms D (N.of_nat k) [c]
| spw_node : forall k p c w, nth_error D k = Some (p, c) -> p < N.of_nat k ->
    spw dms D p w -> spw dms D (N.of_nat k) (w ++ [c]).

Lemma spw_mono dms E E' i w : spw dms E i w -> spw dms (E ++ E') i w.
Proof.
  assert (A : forall k x, nth_error E k = Some x -> nth_error (E ++ E') k = Some x).
  { intros k x H. rewrite nth_error_app1; auto. apply nth_error_Some. congruence. }
  induction 1; [apply spw_root|eapply spw_node]; eauto.
Qed.
Lemma spw_prefix dms E E' i w : spw dms (E ++ E') i w -> i < N.of_nat (length E) -> spw dms E i w.
Proof.
  intros H. remember (E ++ E') as F. induction H; subst F; intros Hi.
  - apply spw_root. rewrite nth_error_app1 in H by lia. auto.
  - eapply spw_node; eauto.
    + rewrite nth_error_app1 in H by lia. eauto.
    + apply IHspw; auto. lia.
Qed.
Lemma spw_bound dms E i w : spw dms E i w -> i < N.of_nat (length E).
Proof.
  destruct 1; match goal with H : nth_error _ ?k = _ |- _ => assert (k < length E)%nat by (apply nth_error_Some; congruence) end; lia.
Qed.
Lemma spw_len dms E i w : spw dms E i w -> N.of_nat (length w) <= i + 1.
Proof. induction 1; simpl; [lia|]. rewrite app_length; simpl. lia. Qed.
Lemma spw_ne dms E i w : spw dms E i w -> w <> [].
Proof. destruct 1; [discriminate|]. destruct w; discriminate. Qed.

Lemma rebuild_spw dms E i w : spw dms E i w -> N.of_nat (length E) <= dms ->
  forall fuel acc, (length w <= fuel)%nat ->
  lzw_rebuild fuel dms E i acc = Some (w ++ acc).
Proof.
  intros H Hd. induction H; intros fuel acc Hf.
  - destruct fuel as [|fuel]; [simpl in Hf; lia|]. cbn [lzw_rebuild].
    assert (k < length E)%nat by (apply nth_error_Some; congruence).
    replace (N.of_nat k =? dms) with false by lia. rewrite Nnat.Nat2N.id, H.
    destruct fuel; cbn [lzw_rebuild]; rewrite N.eqb_refl; reflexivity.
  - rewrite app_length in Hf; simpl in Hf. destruct fuel as [|fuel]; [lia|].
    cbn [lzw_rebuild]. 
    assert (k < length E)%nat by (apply nth_error_Some; congruence).
    replace (N.of_nat k =? dms) with false by lia. rewrite Nnat.Nat2N.id, H.
    rewrite IHspw by lia. rewrite <- app_assoc. reflexivity.
Qed.

Definition range_blind (c : coder) (hi : N) : Prop :=
  forall a b s, 256 <= a <= hi -> 256 <= b <= hi -> c_dec c (RInt 0 a) s = c_dec c (RInt 0 b) s.

Lemma dict0_len D : length (lzw_dict0 D) = 256%nat.
Proof. unfold lzw_dict0. rewrite map_length, seq_length. reflexivity. Qed.
Lemma dict0_nth D c : c < 256 -> nth_error (lzw_dict0 D) (N.to_nat c) = Some (D, c).
Proof.
  intros H. unfold lzw_dict0. rewrite nth_error_map. rewrite (nth_error_nth' _ 0%nat) by (rewrite seq_length; lia).
  cbn [option_map]. rewrite seq_nth by lia. do 2 f_equal. lia.
Qed.

(** first byte of a string *)
Definition hd_is (c : N) (w : list N) : Prop := exists w', w = c :: w'.

Section LoopW.
  Variable t : trie.
  Variable lim : N.
  Variable TR : t_st t -> atrie -> Prop.
  Hypothesis Hreset : forall st a k, TR st a -> (k = 1 \/ k = 256) -> exists st', t_reset t k st = Some st' /\ TR st' (mk_atrie k []).
  Hypothesis Hroot : forall st a c, TR st a -> c < a_roots a -> t_root t st c = c.
  Hypothesis Hsize : forall st a, TR st a -> t_size t st = at_size a.
  Hypothesis Hfind : forall st a p c, TR st a -> p < at_size a -> c < 256 -> at_size a < lim ->
       exists st', t_find t st p c = Some (fst (at_find a p c), st') /\ TR st' (snd (at_find a p c)).
  Variables (cd D : N).
  Hypothesis HD : 257 <= D < 2 ^ 32.

  (** decoder state against the compressor's entries [E] and the pending string *)
  Inductive lzw_inv (E : list (N * N)) (pend : list N) (node : N) : list (N * N) -> N -> Prop :=
  | inv_start : E = [] -> lzw_inv E pend node (lzw_dict0 D) D
  | inv_run : forall E' i c0, E = E' ++ [(i, c0)] -> hd_is c0 pend ->
      (exists wi, spw D (lzw_dict0 D ++ E') i wi) ->
      lzw_inv E pend node (lzw_dict0 D ++ E') i
  | inv_reset : forall X i, E = [] -> cd = D ->
      N.of_nat (length (lzw_dict0 D ++ X)) = D - 1 ->
      (exists wi, spw D (lzw_dict0 D ++ X) i wi) ->
      lzw_inv E pend node (lzw_dict0 D ++ X) i.

  Lemma lzw_inv_pend E p p' n n' d i : lzw_inv E p n d i -> (forall c, hd_is c p -> hd_is c p') ->
    lzw_inv E p' n' d i.
  Proof. destruct 1; intros; [apply inv_start|eapply inv_run|eapply inv_reset]; eauto. Qed.

  Definition cnt_ok (c : coder) (fc counter : N) : Prop :=
    (cd = 0 /\ counter = fc) \/ (cd = D /\ range_blind c D).

  (** one step of the decoder on the code of the pending string *)
  Lemma lzw_dec_step c R E pend node d i fc counter s rest fuel :
    decodes c R -> R s ((node, RInt 0 (fc + 256)) :: rest) -> fc = N.of_nat (length E) ->
    cnt_ok c fc counter -> lzw_inv E pend node d i ->
    256 + N.of_nat (length E) < D ->
    counter + 256 <= N.of_nat (length d) + (if i =? D then 0 else 1) ->
    spw D (lzw_dict0 D ++ E) node pend ->
    exists d' s', R s' rest /\
      lzw_dec_loop c D (S fuel) d i counter s
        = (do r <- lzw_dec_loop c D fuel d' node (counter + 1) s'; Some (pend ++ r)) /\
      (d' = lzw_dict0 D ++ E \/ (E = [] /\ cd = D /\ N.of_nat (length d') = D /\ exists X, d' = lzw_dict0 D ++ X)) /\
      counter + 256 <= N.of_nat (length d').
  Proof.
    intros [Hd1 Hd2] Hs Hfc Hcnt Hinv Hsz Hct Hsp.
    destruct (Hd2 _ _ _ _ Hs) as (He & s' & Dc & Hs').
    pose proof (spw_bound _ _ _ _ Hsp) as Hnb. rewrite app_length, dict0_len in Hnb.
    assert (Hd_len : N.of_nat (length d) < D).
    { destruct Hinv as [|E' i' c0 HE|X i']; [rewrite dict0_len; lia| |lia].
      subst E. rewrite !app_length in *. rewrite dict0_len in *. simpl in *. lia. }
    assert (Dc' : c_dec c (RInt 0 (counter + 256)) s = Some (node, s')).
    { destruct Hcnt as [[_ ->]|(_ & Hbl)]; [exact Dc|].
      rewrite (Hbl (counter + 256) (fc + 256)) by (destruct (i =? D); lia). exact Dc. }
    assert (Hkw : w32 node = node) by (unfold w32; rewrite N.mod_small; lia).
    cbn [lzw_dec_loop]. replace (N.of_nat (length d) =? D) with false by lia.
    rewrite He, Dc'. cbn [obind]. rewrite Hkw.
    destruct pend as [|p0 pend']; [destruct (spw_ne _ _ _ _ Hsp eq_refl)|].
    destruct Hinv as [HE|E' i' c0 HE [pd Hhd] [wi Hwi]|X i' HE Hcd HX [wi Hwi]].
    - subst E. rewrite app_nil_r in Hsp. rewrite dict0_len. simpl in Hnb.
      replace (N.of_nat 256 <? node) with false by lia. replace (node =? N.of_nat 256) with false by lia.
      rewrite (rebuild_spw _ _ _ _ Hsp) by (rewrite ?dict0_len; try lia; apply spw_len in Hsp; lia).
      cbn [obind]. rewrite app_nil_r. rewrite N.eqb_refl.
      exists (lzw_dict0 D), s'. split; [auto|]. split; [reflexivity|]. split; [left; rewrite app_nil_r; auto|]. rewrite dict0_len in *. rewrite N.eqb_refl in Hct. lia.
    - apply cons_inj in Hhd. destruct Hhd as [-> ->].
      subst E. rewrite app_length in Hnb, Hsz; simpl in Hnb, Hsz.
      rewrite app_assoc in Hsp.
      set (d := lzw_dict0 D ++ E') in *.
      assert (Hdl : length d = (256 + length E')%nat) by (unfold d; rewrite app_length, dict0_len; reflexivity).
      replace (N.of_nat (length d) <? node) with false by lia.
      destruct (N.eqb_spec node (N.of_nat (length d))) as [Hk|Hk].
      + rewrite (rebuild_spw _ _ _ _ Hwi) by (try lia; apply spw_len in Hwi as ?; apply spw_bound in Hwi; lia).
        cbn [obind]. rewrite app_nil_r.
        (* the pending string is the entry just created by the compressor *)
        assert (Hpend : c0 :: pd = wi ++ [c0] \/ False).
        { inversion Hsp as [k c1 Hn Hk2 Hp2|k p c1 w1 Hn Hlt Hw1 Hk2 Hp2]; subst.
          - left. assert (k = length d) by lia. subst k. rewrite nth_error_app2 in Hn by lia.
            rewrite Nat.sub_diag in Hn. simpl in Hn. apply Some_inj in Hn. inversion Hn; subst.
            apply spw_bound in Hwi. lia.
          - left. assert (k = length d) by lia. subst k. rewrite nth_error_app2 in Hn by lia.
            rewrite Nat.sub_diag in Hn. simpl in Hn. apply Some_inj in Hn. inversion Hn; subst.
            f_equal. clear - Hw1 Hwi HD Hlt Hdl Hsz. apply spw_prefix in Hw1; [|lia].
            assert (Hle : N.of_nat (length d) <= D) by lia.
            pose proof (rebuild_spw _ _ _ _ Hw1 Hle (length w1 + length wi) []) as A1.
            pose proof (rebuild_spw _ _ _ _ Hwi Hle (length w1 + length wi) []) as A2.
            rewrite A1 in A2 by lia. rewrite !app_nil_r in A2. apply Some_inj. rewrite A2; auto. lia. }
        destruct Hpend as [Hpend|[]].
        destruct wi as [|w0 wi']; [destruct (spw_ne _ _ _ _ Hwi eq_refl)|].
        simpl in Hpend. apply cons_inj in Hpend. destruct Hpend as [<- Hpd].
        cbv zeta.
        rewrite (rebuild_spw _ _ _ _ Hsp).
        2:{ rewrite app_length; simpl; lia. }
        2:{ apply spw_len in Hsp as Hq. rewrite app_length; simpl in *; lia. }
        cbn [obind]. rewrite app_nil_r.
        exists (d ++ [(i', c0)]), s'. split; [auto|]. split; [reflexivity|].
        split; [left; unfold d; rewrite <- app_assoc; reflexivity|].
        rewrite (app_length d). cbn [length]. clearbody d. destruct (i' =? D); lia.
      + assert (Hsp' : spw D d node (c0 :: pd)) by (apply spw_prefix in Hsp; auto; lia).
        rewrite (rebuild_spw _ _ _ _ Hsp') by (try lia; apply spw_len in Hsp' as ?; simpl in *; lia).
        cbn [obind]. rewrite app_nil_r.
        apply spw_bound in Hwi. replace (i' =? D) with false by lia. cbv zeta.
        exists (d ++ [(i', c0)]), s'. split; [auto|]. split; [reflexivity|].
        split; [left; unfold d; rewrite <- app_assoc; reflexivity|].
        rewrite (app_length d). cbn [length]. clearbody d. destruct (i' =? D); lia.
    - subst E. rewrite app_nil_r in Hsp. simpl in Hnb.
      set (d := lzw_dict0 D ++ X) in *.
      assert (Hdl : (256 <= length d)%nat) by (unfold d; rewrite app_length, dict0_len; lia).
      replace (N.of_nat (length d) <? node) with false by lia.
      replace (node =? N.of_nat (length d)) with false by lia.
      assert (Hsp' : spw D d node (p0 :: pend')) by (apply spw_mono; auto).
      rewrite (rebuild_spw _ _ _ _ Hsp') by (try lia; apply spw_len in Hsp' as ?; simpl in *; lia).
      cbn [obind]. rewrite app_nil_r.
      apply spw_bound in Hwi. replace (i' =? D) with false by lia. cbv zeta.
      exists (d ++ [(i', p0)]), s'. split; [auto|]. split; [reflexivity|].
      split; [right|]. 
      + repeat split; auto. { rewrite (app_length d). cbn [length]. clearbody d. lia. }
        exists (X ++ [(i', p0)]). unfold d. rewrite app_assoc. reflexivity.
      + rewrite (app_length d). cbn [length]. clearbody d. destruct (i' =? D); lia.
  Qed.

  Lemma lzw_dec_head c fuel d i counter s : N.of_nat (length d) = D ->
    lzw_dec_loop c D fuel d i counter s = lzw_dec_loop c D fuel (lzw_dict0 D) i 0 s.
  Proof.
    intros H. destruct fuel; cbn [lzw_dec_loop]; rewrite ?dict0_len;
      replace (N.of_nat (length d) =? D) with true by lia;
      replace (N.of_nat 256 =? D) with false by lia; rewrite ?dict0_len; reflexivity.
  Qed.

  Hypothesis Hcd : cd = 0 \/ cd = D.

  Lemma lzw_loop_ok : forall text st E node pend,
    TR st (mk_atrie 256 E) -> bytes_ok text -> 
    (cd = 0 -> 257 + N.of_nat (length E + length text) < D) -> D <= lim ->
    256 + N.of_nat (length E) < D ->
    (forall k p c, nth_error E k = Some (p, c) -> p < 256 + N.of_nat k) ->
    spw D (lzw_dict0 D ++ E) node pend ->
    exists cs, lzw_loop t cd st node (N.of_nat (length E)) text = Some cs /\
      Forall call_ok cs /\
      forall c R s fuel d i counter, decodes c R -> R s cs -> (S (length text) <= fuel)%nat ->
        cnt_ok c (N.of_nat (length E)) counter -> lzw_inv E pend node d i ->
        counter + 256 <= N.of_nat (length d) + (if i =? D then 0 else 1) ->
        lzw_dec_loop c D fuel d i counter s = Some (pend ++ text).
  Proof.
    induction text as [|x text IH]; intros st E node pend HR Hb Hlen Hlim Hsz Hwf Hsp;
      pose proof (spw_bound _ _ _ _ Hsp) as Hnb; rewrite app_length, dict0_len in Hnb.
    - exists [(node, RInt 0 (N.of_nat (length E) + 256))]. split; [reflexivity|]. split.
      { repeat constructor; lia. }
      intros c R s fuel d i counter Hd Hs Hf Hc Hinv Hct. destruct fuel as [|fuel]; [lia|].
      destruct (lzw_dec_step c R E pend node d i _ counter s [] fuel Hd Hs eq_refl Hc Hinv Hsz Hct Hsp)
        as (d' & s' & Hs' & Eq & _ & _).
      rewrite Eq. assert (L : forall fuel d' i c', lzw_dec_loop c D fuel d' i c' s' = Some []).
      { intros fu ? ? ?. destruct fu; cbn [lzw_dec_loop]; rewrite (proj1 Hd _ Hs'); reflexivity. }
      rewrite L. reflexivity.
    - inversion Hb as [|? ? Hx Hb']; subst.
      destruct (Hfind st (mk_atrie 256 E) node x HR) as (st' & F & HR').
      { unfold at_size; simpl; lia. } { exact Hx. } { unfold at_size; simpl; lia. }
      cbn [lzw_loop]. rewrite F.
      destruct (at_find_cases (mk_atrie 256 E) node x) as [(k & Hk & Hkl & Hat)|Hat]; rewrite Hat in *; simpl in HR'.
      + cbn [fst]. simpl a_roots. simpl in Hk, Hkl.
        destruct (IH st' E (256 + N.of_nat k) (pend ++ [x])) as (cs & L & Ok & Dec); auto.
        { intros H0; specialize (Hlen H0); simpl in Hlen; lia. }
        { replace (256 + N.of_nat k) with (N.of_nat (256 + k)) by lia. apply (spw_node _ _ _ node); [ | |exact Hsp].
          - rewrite nth_error_app2; rewrite dict0_len; [|lia]. replace (256 + k - 256)%nat with k by lia. eauto.
          - apply Hwf in Hk. lia. }
        exists cs. rewrite L. split; [reflexivity|]. split; [auto|].
        intros c R s fuel d i counter Hd Hs Hf Hc Hinv Hct.
        rewrite (Dec c R s fuel d i counter); auto.
        { rewrite <- app_assoc; reflexivity. } { simpl in Hf; lia. }
        { eapply lzw_inv_pend; eauto. intros c1 [w' ->]. exists (w' ++ [x]); reflexivity. }
      + cbn [fst]. rewrite (Hsize _ _ HR'). unfold at_size at 1. simpl a_roots. simpl a_ent.
        rewrite (Hroot _ _ _ HR') by exact Hx.
        assert (Hx0 : forall E, spw D (lzw_dict0 D ++ E) x [x]).
        { intros E0. apply spw_mono. rewrite <- (Nnat.N2Nat.id x) at 1. apply spw_root. apply dict0_nth; exact Hx. }
        assert (Hwf1 : forall k p c, nth_error (E ++ [(node, x)]) k = Some (p, c) -> p < 256 + N.of_nat k).
        { intros k p c Hk. destruct (Nat.lt_ge_cases k (length E)).
          - rewrite nth_error_app1 in Hk by auto. eauto.
          - rewrite nth_error_app2 in Hk by auto. destruct (k - length E)%nat eqn:Dk; simpl in Hk.
            + apply Some_inj in Hk. inversion Hk; subst. lia.
            + destruct n; discriminate. }
        rewrite app_length. cbn [length].
        destruct (N.eqb_spec (256 + N.of_nat (length E + 1)) cd) as [Heq|Hne].
        * assert (HcD : cd = D) by (destruct Hcd; lia).
          destruct (Hreset _ _ 256 HR' (or_intror eq_refl)) as (st2 & Rs & HR2). rewrite Rs. cbn [obind].
          destruct (IH st2 [] x [x]) as (cs & L & Ok & Dec); auto; try (simpl; lia).
          { intros k p c Hk; destruct k; discriminate. }
          simpl length in L. change (N.of_nat 0) with 0 in L. rewrite L. cbn [obind].
          eexists; split; [reflexivity|]. split.
          { constructor; auto. simpl; lia. }
          intros c R s fuel d i counter Hd Hs Hf Hc Hinv Hct. destruct fuel as [|fuel]; [simpl in Hf; lia|].
          destruct (lzw_dec_step c R E pend node d i _ counter s cs fuel Hd Hs eq_refl Hc Hinv Hsz Hct Hsp)
            as (d' & s' & Hs' & Eq & Hd' & Hct').
          rewrite Eq. assert (Hc' : forall a b, cnt_ok c a b).
          { intros a b. right. split; auto. destruct Hc as [[? _]|[_ ?]]; [lia|auto]. }
          destruct Hd' as [->|(-> & _ & Hl & X & ->)].
          { rewrite (Dec c R s' fuel _ _ _ Hd Hs'); [reflexivity| |apply Hc'| |].
            - simpl in Hf; lia.
            - apply inv_reset; auto. { rewrite app_length, dict0_len; lia. } eauto.
            - replace (node =? D) with false by lia. lia. }
          { rewrite lzw_dec_head by auto.
            rewrite (Dec c R s' fuel _ _ _ Hd Hs'); [reflexivity| |apply Hc'| |].
            - simpl in Hf; lia.
            - replace (lzw_dict0 D) with (lzw_dict0 D ++ []) by apply app_nil_r.
              apply inv_reset; auto. { rewrite app_nil_r, dict0_len. simpl in Heq. lia. } eauto.
            - rewrite dict0_len. lia. }
        * destruct (IH st' (E ++ [(node, x)]) x [x]) as (cs & L & Ok & Dec); auto.
          { intros H0; specialize (Hlen H0); rewrite app_length; simpl in *; lia. }
          { rewrite app_length; cbn [length]. destruct Hcd; [specialize (Hlen H); simpl in Hlen|]; lia. }
          rewrite app_length in L, Dec. cbn [length] in L, Dec.
          replace (N.of_nat (length E + 1)) with (N.of_nat (length E) + 1) in L, Dec by lia.
          rewrite L. cbn [obind]. eexists; split; [reflexivity|]. split.
          { constructor; auto. simpl; lia. }
          intros c R s fuel d i counter Hd Hs Hf Hc Hinv Hct. destruct fuel as [|fuel]; [simpl in Hf; lia|].
          destruct (lzw_dec_step c R E pend node d i _ counter s cs fuel Hd Hs eq_refl Hc Hinv Hsz Hct Hsp)
            as (d' & s' & Hs' & Eq & Hd' & Hct').
          rewrite Eq. 
          destruct Hd' as [->|(-> & HcD & Hl & X & ->)].
          { rewrite (Dec c R s' fuel _ _ _ Hd Hs'); [reflexivity| | | |].
            - simpl in Hf; lia.
            - destruct Hc as [[? ->]|?]; [left|right]; auto.
            - eapply inv_run; eauto. exists []; reflexivity.
            - replace (node =? D) with false by lia. lia. }
          { rewrite lzw_dec_head by auto.
            rewrite (Dec c R s' fuel _ _ _ Hd Hs'); [reflexivity| | | |].
            - simpl in Hf; lia.
            - destruct Hc as [[? ->]|?]; [lia|right]; auto.
            - replace (lzw_dict0 D) with (lzw_dict0 D ++ []) by apply app_nil_r.
              eapply inv_run; eauto. exists []; reflexivity.
            - rewrite dict0_len. lia. }
  Qed.
End LoopW.

Lemma lzw_pf : forall lim t c text, trie_ok lim t -> coder_ok c -> bytes_ok text ->
  N.of_nat (length text) + 258 < 2 ^ 32 -> 2 ^ 32 - 1 <= lim ->
  exists f, lzw_compress t 0 c text = Some f /\
    forall fuel, (length text <= fuel)%nat -> lzw_decompress c 0 fuel f = Some text.
Proof.
  intros lim t c text (TR & Hi & Hreset & Hroot & Hsize & Hfind) Hcod Hb Hl Hlim.
  destruct (Hi 256 (or_intror eq_refl)) as (st & I & HR).
  unfold lzw_compress, lzw_calls. rewrite I. cbn [obind].
  destruct text as [|x text].
  - cbn [obind]. destruct (Hcod [] [] (Forall_nil _)) as (f & s & R & Ef & Op & Dec & Hs).
    exists f. split; auto. intros fuel _. unfold lzw_decompress. rewrite Op. cbn [obind].
    destruct fuel; cbn [lzw_dec_loop]; rewrite (proj1 Dec _ Hs); reflexivity.
  - inversion Hb as [|? ? Hx Hb']; subst. cbn [length] in Hl.
    rewrite (Hroot _ _ _ HR) by exact Hx.
    destruct (lzw_loop_ok t lim TR Hreset Hroot Hsize Hfind 0 (2 ^ 32 - 1) ltac:(lia) (or_introl eq_refl) text st [] x [x])
      as (cs & L & Ok & D); auto; try (cbn [length]; lia).
    { intros k p c0 Hk; destruct k; discriminate. }
    { rewrite app_nil_r. rewrite <- (Nnat.N2Nat.id x) at 1. apply spw_root. apply dict0_nth; exact Hx. }
    change (N.of_nat (length [])) with 0 in L. rewrite L. cbn [obind].
    destruct (Hcod [] cs Ok) as (f & s & R & Ef & Op & Dec & Hs).
    exists f. split; auto. intros fuel Hf. unfold lzw_decompress. rewrite Op. cbn [obind].
    change (0 =? 0) with true. cbv iota. 
    rewrite (D c R s fuel _ _ _ Dec Hs); [reflexivity|exact Hf| | |].
    + left; auto.
    + apply inv_start; reflexivity.
    + rewrite dict0_len, N.eqb_refl. lia.
Qed.

Lemma lzw_bounded_pf : forall lim t c dms text, trie_ok lim t -> coder_ok c -> bytes_ok text ->
  257 <= dms < 2 ^ 32 -> dms <= lim -> range_blind c dms ->
  exists f, lzw_compress t dms c text = Some f /\
    forall fuel, (length text <= fuel)%nat -> lzw_decompress c dms fuel f = Some text.
Proof.
  intros lim t c dms text (TR & Hi & Hreset & Hroot & Hsize & Hfind) Hcod Hb Hd Hlim Hblind.
  destruct (Hi 256 (or_intror eq_refl)) as (st & I & HR).
  unfold lzw_compress, lzw_calls. rewrite I. cbn [obind].
  assert (Hd0 : dms =? 0 = false) by lia.
  destruct text as [|x text].
  - cbn [obind]. destruct (Hcod [] [] (Forall_nil _)) as (f & s & R & Ef & Op & Dec & Hs).
    exists f. split; auto. intros fuel _. unfold lzw_decompress. rewrite Op. cbn [obind].
    destruct fuel; cbn [lzw_dec_loop]; rewrite (proj1 Dec _ Hs); reflexivity.
  - inversion Hb as [|? ? Hx Hb']; subst.
    rewrite (Hroot _ _ _ HR) by exact Hx.
    destruct (lzw_loop_ok t lim TR Hreset Hroot Hsize Hfind dms dms ltac:(lia) (or_intror eq_refl) text st [] x [x])
      as (cs & L & Ok & D); auto; try (cbn [length]; lia).
    { intros k p c0 Hk; destruct k; discriminate. }
    { rewrite app_nil_r. rewrite <- (Nnat.N2Nat.id x) at 1. apply spw_root. apply dict0_nth; exact Hx. }
    change (N.of_nat (length [])) with 0 in L. rewrite L. cbn [obind].
    destruct (Hcod [] cs Ok) as (f & s & R & Ef & Op & Dec & Hs).
    exists f. split; auto. intros fuel Hf. unfold lzw_decompress. rewrite Op, Hd0. cbn [obind].
    rewrite (D c R s fuel _ _ _ Dec Hs); [reflexivity|exact Hf| | |].
    + right; auto.
    + apply inv_start; reflexivity.
    + rewrite dict0_len, N.eqb_refl. lia.
Qed.

Lemma simple_blind k dms : k <> BitC -> range_blind (simple_coder k) dms.
Proof. intros Hk a b s _ _. destruct k; try reflexivity. congruence. Qed.

Lemma bitc_blind dms : dms <= 511 -> range_blind (simple_coder BitC) dms.
Proof.
  intros Hd a b s Ha Hb.
  assert (forall x, 256 <= x <= 511 -> bits_forn (w64 (x + 2 ^ 64 - 0)) = 9%nat).
  { intros x Hx. replace (w64 (x + 2 ^ 64 - 0)) with x by (unfold w64; lia).
    assert (P : forallb (fun n => (bits_forn (256 + N.of_nat n) =? 9)%nat) (seq 0 256) = true) by (vm_compute; reflexivity).
    rewrite forallb_forall in P. specialize (P (N.to_nat (x - 256))).
    replace (256 + N.of_nat (N.to_nat (x - 256))) with x in P by lia.
    apply Nat.eqb_eq, P, in_seq. lia. }
  simpl. rewrite !H by lia. reflexivity.
Qed.
