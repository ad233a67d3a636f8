(** Proofs about LZ78 with a bounded dictionary. *)
From Verif Require Import Base BitIO BitIOProofs IntCodes IntCodesProofs Coders CodersProofs LZ LZProofs LZ78BoundedSpec.
Local Open Scope N_scope.

Lemma index_of_some D : forall w i, index_of w D = Some i -> nth_error D i = Some w.
Proof.
  induction D as [|u D IH]; intros w i H; [discriminate|]. cbn [index_of] in H.
  destruct (list_eq_dec N.eq_dec u w) as [->|Hn].
  - apply Some_inj in H. subst i. reflexivity.
  - destruct (index_of w D) as [j|] eqn:J; [|discriminate]. apply Some_inj in H. subst i. cbn. auto.
Qed.
Lemma index_of_none D : forall w i, index_of w D = None -> nth_error D i <> Some w.
Proof.
  induction D as [|u D IH]; intros w i H; [destruct i; discriminate|]. cbn [index_of] in H.
  destruct (list_eq_dec N.eq_dec u w) as [->|Hn]; [discriminate|].
  destruct (index_of w D) as [j|] eqn:J; [discriminate|]. destruct i as [|i]; cbn; [congruence|]. auto.
Qed.

Lemma ent_find_none E p c : ent_find E p c = None -> forall k, nth_error E k <> Some (p, c).
Proof.
  induction E as [|[p' c'] E IH]; intros H k; [destruct k; discriminate|].
  cbn [ent_find] in H. destruct ((p' =? p) && (c' =? c)) eqn:B; [discriminate|].
  destruct (ent_find E p c) eqn:F; [discriminate|]. destruct k as [|k]; cbn.
  - intros H'. apply Some_inj in H'. injection H' as -> ->. rewrite !N.eqb_refl in B. discriminate.
  - apply IH. auto.
Qed.

Lemma spells_fun E i w : spells E i w -> forall w', spells E i w' -> w = w'.
Proof.
  induction 1 as [|k p c w Hn Hp Hs IH]; intros w' H'.
  - inversion H'; subst; [reflexivity|lia].
  - inversion H' as [|k' p' c' u Hn' Hp' Hs']; subst; [lia|].
    assert (k' = k) by lia. subst k'. rewrite Hn in Hn'. apply Some_inj in Hn'. injection Hn' as <- <-.
    f_equal. auto.
Qed.
Lemma spells_inj E : NoDup E -> forall i w, spells E i w -> forall j, spells E j w -> i = j.
Proof.
  intros Nd. induction 1 as [|k p c w Hn Hp Hs IH]; intros j Hj.
  - inversion Hj as [|k' p' c' u Hn' Hp' Hs']; subst; [reflexivity|]. destruct u; discriminate.
  - inversion Hj as [E0|k' p' c' u Hn' Hp' Hs' E1 E2].
    + destruct w; discriminate.
    + apply app_inj_tail in E2. destruct E2 as [-> ->]. rewrite <- (IH _ Hs') in *.
      assert (k = k'); [|lia]. apply (proj1 (NoDup_nth_error E) Nd).
      * apply nth_error_Some. congruence.
      * congruence.
Qed.

(** [D] lists the strings of the nodes of [E]. *)
Definition phr (E : list (N * N)) (D : list (list N)) : Prop :=
  length D = length E /\ forall i u, nth_error D i = Some u -> spells E (1 + N.of_nat i) u.

Lemma phr_nil : phr [] [].
Proof. split; [reflexivity|]. intros [|i] u; discriminate. Qed.
Lemma phr_snoc E D node w x : phr E D -> spells E node w -> phr (E ++ [(node, x)]) (D ++ [w ++ [x]]).
Proof.
  intros [Hl Hs] Hsp. split; [rewrite !app_length; cbn; lia|]. intros i u Hi.
  destruct (Nat.lt_ge_cases i (length D)) as [L|L].
  - rewrite nth_error_app1 in Hi by auto. apply spells_mono. auto.
  - rewrite nth_error_app2 in Hi by auto. destruct (i - length D)%nat as [|n] eqn:Ei; [|destruct n; discriminate].
    cbn in Hi. apply Some_inj in Hi. subst u. replace i with (length E) by lia.
    econstructor.
    + rewrite nth_error_app2, Nat.sub_diag by lia. reflexivity.
    + eapply spells_bound; eauto.
    + apply spells_mono. auto.
Qed.

(** the node number of a nonempty spelled string is its position *)
Lemma phr_index E D node w : phr E D -> NoDup E -> spells E node w -> node <> 0 ->
  index_of w D = Some (N.to_nat (node - 1)).
Proof.
  intros [Hl Hs] Nd Hsp Hn. pose proof (spells_bound _ _ _ Hsp) as Hb.
  destruct (nth_error D (N.to_nat (node - 1))) as [u|] eqn:Hu.
  2: { apply nth_error_None in Hu. lia. }
  pose proof (Hs _ _ Hu) as H1. replace (1 + N.of_nat (N.to_nat (node - 1))) with node in H1 by lia.
  rewrite (spells_fun _ _ _ H1 _ Hsp) in Hu.
  destruct (index_of w D) as [j|] eqn:J.
  - apply index_of_some in J. f_equal. pose proof (spells_inj _ Nd _ _ (Hs _ _ J) _ Hsp). lia.
  - exfalso. exact (index_of_none _ _ _ J Hu).
Qed.

(** child lookup = phrase lookup *)
Lemma phr_find E D node w x : phr E D -> NoDup E -> (forall k p c, nth_error E k = Some (p, c) -> p <= N.of_nat k) ->
  spells E node w ->
  index_of (w ++ [x]) D = ent_find E node x.
Proof.
  intros HP Nd Wf Hsp. destruct (ent_find E node x) as [k|] eqn:F.
  - pose proof (ent_find_some _ _ _ _ F) as Hk.
    rewrite (phr_index E D (1 + N.of_nat k) (w ++ [x])); auto; [f_equal; lia| |lia].
    econstructor; eauto.
  - destruct (index_of (w ++ [x]) D) as [j|] eqn:J; [exfalso|reflexivity].
    apply index_of_some in J. pose proof (proj2 HP _ _ J) as Hj.
    inversion Hj as [|k p c u Hn Hp Hs E1 E2]; [destruct w; discriminate|].
    apply app_inj_tail in E2. destruct E2 as [-> ->].
    rewrite (spells_inj _ Nd _ _ Hs _ Hsp) in Hn. exact (ent_find_none _ _ _ F _ Hn).
Qed.

(** the decoder's entries [G] read a node number of the current epoch *)
Definition base (Fo : option (list (list N))) (D : list (list N)) := match Fo with None => D | Some F => F end.
Lemma reread_spells E D G Fo node w : phr E D -> NoDup E -> spells E node w ->
  (forall i u, nth_error (base Fo D) i = Some u -> spells G (1 + N.of_nat i) u) ->
  (length D <= length (base Fo D))%nat ->
  spells G node (reread Fo D w).
Proof.
  intros HP Nd Hsp HG HL. destruct (N.eq_dec node 0) as [->|Hn].
  - inversion Hsp; subst; [|lia]. unfold reread.
    destruct (index_of [] D) as [i|] eqn:I; [|constructor].
    apply index_of_some in I. pose proof (proj2 HP _ _ I) as HH. inversion HH as [|k p c u Hk1 Hk2 Hk3 E1 E2]; [lia|destruct u; discriminate].
  - unfold reread. rewrite (phr_index _ _ _ _ HP Nd Hsp Hn).
    pose proof (spells_bound _ _ _ Hsp) as Hb. destruct HP as [Hl _].
    destruct (nth_error (base Fo D) (N.to_nat (node - 1))) as [u|] eqn:Hu.
    2: { apply nth_error_None in Hu. lia. }
    pose proof (HG _ _ Hu) as HH. replace (1 + N.of_nat (N.to_nat (node - 1))) with node in HH by lia.
    unfold base in Hu. rewrite (nth_error_nth _ _ _ Hu). exact HH.
Qed.

Definition blind0 (c : coder) : Prop := forall a b s, c_dec c (RInt 0 a) s = c_dec c (RInt 0 b) s.

Lemma parse_ne text : forall y DD w0, (1 <= length (lz78_parse DD w0 (y :: text)))%nat.
Proof.
  induction text as [|z text IHt]; intros y DD w0; cbn [lz78_parse].
  - destruct (index_of (w0 ++ [y]) DD); [|cbn [length]; lia].
    destruct (w0 ++ [y]) eqn:Q; [destruct w0; discriminate|cbn [length]; lia].
  - destruct (index_of (w0 ++ [y]) DD); [|cbn [length]; lia]. apply IHt.
Qed.

Section LoopB.
  Variable t : trie.
  Variable lim : N.
  Variable TR : t_st t -> atrie -> Prop.
  Hypothesis Hreset : forall st a k, TR st a -> (k = 1 \/ k = 256) -> exists st', t_reset t k st = Some st' /\ TR st' (mk_atrie k []).
  Hypothesis Hroot : forall st a c, TR st a -> c < a_roots a -> t_root t st c = c.
  Hypothesis Hsize : forall st a, TR st a -> t_size t st = at_size a.
  Hypothesis Hfind : forall st a p c, TR st a -> p < at_size a -> c < 256 -> at_size a < lim ->
       exists st', t_find t st p c = Some (fst (at_find a p c), st') /\ TR st' (snd (at_find a p c)).
  Variable dms : N.

  Lemma lz78_loop_b : forall text st E G Fo D node parent lastc w gfc,
    TR st (mk_atrie 1 E) -> bytes_ok text -> byte_ok lastc ->
    N.of_nat (length E + length text) + 1 < lim -> N.of_nat (length E + length text) + 1 < 2 ^ 32 ->
    (forall k p c, nth_error E k = Some (p, c) -> p <= N.of_nat k) -> NoDup E -> phr E D ->
    (forall i u, nth_error (base Fo D) i = Some u -> spells G (1 + N.of_nat i) u) ->
    match Fo with None => G = E /\ (1 < dms -> N.of_nat (length D) + 1 < dms) | Some F => N.of_nat (length F) + 1 = dms /\ N.of_nat (length D) + 1 < dms end ->
    spells E node w ->
    (node <> 0 -> exists wp, w = wp ++ [lastc] /\ spells E parent wp) ->
    exists cs, lz78_loop t dms st node parent (N.of_nat (length E)) lastc text = Some cs /\
      Forall call_okc cs /\ (last text lastc < 128 -> Forall call_ok cs) /\
      forall c R s fuel, decodes c R ->
        blind0 c \/ (text = [] /\ w = []) \/
          (Fo = None /\ gfc = N.of_nat (length E) /\
           (dms <= 1 \/ N.of_nat (length D + length (lz78_parse D w text)) < dms)) ->
        R s cs -> (length text + (if N.eqb node 0 then 0 else 1) <= fuel)%nat ->
        lz78_dec_loop c fuel G gfc s = Some (lz78_reread dms Fo D w text).
  Proof.
    induction text as [|x text IH];
      intros st E G Fo D node parent lastc w gfc HR Hb Hl Hlim H32 Hwf Nd HP HG HF Hsp Hpar.
    - cbn [lz78_loop]. destruct (N.eqb_spec node 0) as [Hn|Hn].
      + exists []. split; [reflexivity|]. split; [constructor|]. split; [constructor|].
        intros c R s fuel Hd _ Hs Hf. subst node. inversion Hsp; subst; [|lia].
        destruct fuel; cbn [lz78_dec_loop]; rewrite (proj1 Hd _ Hs); reflexivity.
      + destruct (Hpar Hn) as (wp & -> & Hspp).
        pose proof (spells_bound _ _ _ Hspp).
        exists [(parent, RInt 0 (N.of_nat (length E))); (sext8 lastc, RLit)].
        unfold byte_ok in Hl. cbn [length] in Hlim, H32.
        split; [reflexivity|]. split; [|split].
        * constructor; [|constructor; [|constructor]]; simpl; unfold sext8; [lia|]; destruct (N.ltb_spec lastc 128); unfold byte_ok in *; lia.
        * intros Hla. simpl in Hla. unfold sext8. replace (lastc <? 128) with true by lia.
          repeat constructor; simpl; lia.
        * intros c R s fuel [Hd1 Hd2] Hcnt Hs Hf. destruct fuel as [|fuel]; [simpl in Hf; lia|].
          destruct (Hd2 _ _ _ _ Hs) as (He1 & s1 & D1 & Hs1).
          destruct (Hd2 _ _ _ _ Hs1) as (He2 & s2 & D2 & Hs2).
          assert (D1' : c_dec c (RInt 0 gfc) s = Some (parent, s1)).
          { destruct Hcnt as [Hbl|[[_ Hw]|(_ & -> & _)]]; [|destruct wp; discriminate|exact D1].
            rewrite (Hbl gfc (N.of_nat (length E))). exact D1. }
          cbn [lz78_dec_loop]. rewrite He1, D1'. cbn [obind].
          rewrite D2. cbn [obind call_val]. cbv zeta.
          assert (Hv : w8 (sext8 lastc) = lastc).
          { unfold w8, sext8. destruct (N.ltb_spec lastc 128); lia. }
          rewrite Hv.
          replace (w32 parent) with parent by (unfold w32; rewrite N.mod_small; lia).
          assert (HSG : spells G parent (reread Fo D wp)).
          { eapply reread_spells; eauto. destruct Fo as [F|]; cbn [base]; [lia|reflexivity]. }
          pose proof (spells_len _ _ _ HSG). pose proof (spells_bound _ _ _ HSG).
          rewrite (chain_spells _ _ _ (spells_mono _ _ _ _ HSG)) by (rewrite app_length; simpl; lia).
          cbn [obind]. cbn [lz78_reread].
          rewrite removelast_last, last_last. destruct (wp ++ [lastc]) as [|y0 y1] eqn:Ew; [destruct wp; discriminate|].
          destruct fuel; cbn [lz78_dec_loop]; rewrite (Hd1 _ Hs2); cbn [obind]; rewrite app_nil_r; reflexivity.
    - inversion Hb as [|? ? Hx Hb']; subst. cbn [length] in Hlim, H32.
      pose proof (spells_bound _ _ _ Hsp) as Hnb.
      destruct (Hfind st (mk_atrie 1 E) node x HR) as (st' & F & HR').
      { unfold at_size; simpl; lia. } { exact Hx. } { unfold at_size; simpl; lia. }
      rewrite last_cons. cbn [lz78_loop lz78_reread lz78_parse]. rewrite F.
      rewrite (phr_find E D node w x HP Nd Hwf Hsp).
      unfold at_find in HR' |- *. cbn [a_ent a_roots] in *.
      destruct (ent_find E node x) as [k|] eqn:Fk; cbn [fst snd] in HR' |- *.
      + pose proof (ent_find_some _ _ _ _ Fk) as Hk. pose proof (ent_find_lt _ _ _ _ Fk) as Hkl.
        pose proof (Hwf _ _ _ Hk) as Hle.
        destruct (IH st' E G Fo D (1 + N.of_nat k) node x (w ++ [x]) gfc) as (cs & L & Ok1 & Ok2 & Dec); auto; try lia.
        { econstructor; eauto. } { intros _. eexists; split; [reflexivity|auto]. }
        exists cs. rewrite L. split; [reflexivity|]. split; [auto|]. split; [auto|].
        intros c R s fuel Hd Hcnt Hs Hf. apply (Dec c R s fuel Hd); auto.
        { destruct Hcnt as [Hc|[[Hc _]|Hc]]; [auto|discriminate|]. right; right; auto. }
        replace (1 + N.of_nat k =? 0) with false by lia. cbn [length] in Hf. destruct (node =? 0); lia.
      + rewrite (Hsize _ _ HR'). unfold at_size at 1. cbn [a_roots a_ent].
        rewrite (Hroot _ _ _ HR') by (cbn [a_roots]; lia).
        set (E' := E ++ [(node, x)]) in *. set (D' := D ++ [w ++ [x]]).
        assert (HP' : phr E' D') by (apply phr_snoc; auto).
        assert (HlE : length E' = (length E + 1)%nat) by (unfold E'; rewrite app_length; reflexivity).
        assert (HlD : length D' = (length E + 1)%nat) by (rewrite (proj1 HP'); exact HlE).
        assert (HlD0 : length D = length E) by (exact (proj1 HP)).
        assert (Nd' : NoDup E').
        { unfold E'. apply NoDup_nth_error. intros i j Hi Hij. rewrite app_length in Hi. cbn [length] in Hi.
          assert (Hnn : forall q, (q < length E)%nat -> nth_error E q <> Some (node, x)) by (intros q _; apply ent_find_none; auto).
          assert (Hj : (j < length E + 1)%nat).
          { assert (HX : nth_error (E ++ [(node, x)]) j <> None).
            { rewrite <- Hij. apply nth_error_Some. rewrite app_length. exact Hi. }
            apply nth_error_Some in HX. rewrite app_length in HX. exact HX. }
          destruct (Nat.lt_ge_cases i (length E)) as [Li|Li]; destruct (Nat.lt_ge_cases j (length E)) as [Lj|Lj].
          - rewrite !nth_error_app1 in Hij by auto. apply (proj1 (NoDup_nth_error E) Nd); auto.
          - exfalso. rewrite nth_error_app1 in Hij by auto. rewrite nth_error_app2 in Hij by auto.
            replace (j - length E)%nat with 0%nat in Hij by lia. cbn in Hij. exact (Hnn _ Li Hij).
          - exfalso. rewrite (nth_error_app1 _ _ Lj) in Hij. rewrite nth_error_app2 in Hij by auto.
            replace (i - length E)%nat with 0%nat in Hij by lia. cbn in Hij. symmetry in Hij. exact (Hnn _ Lj Hij).
          - lia. }
        assert (Wf' : forall k p c, nth_error E' k = Some (p, c) -> p <= N.of_nat k).
        { intros k p c Hk. unfold E' in Hk. destruct (Nat.lt_ge_cases k (length E)).
          - rewrite nth_error_app1 in Hk by auto. eauto.
          - rewrite nth_error_app2 in Hk by auto. destruct (k - length E)%nat as [|n] eqn:Dk; cbn in Hk.
            + apply Some_inj in Hk. inversion Hk; subst. lia.
            + destruct n; discriminate. }
        replace (1 + N.of_nat (length E')) with (N.of_nat (length D') + 1) by lia.
        set (G' := G ++ [(node, x)]).
        assert (HSG : spells G node (reread Fo D w)).
        { eapply reread_spells; eauto. destruct Fo as [F0|]; cbn [base]; [lia|reflexivity]. }
        (* one factor of the decoder, then the rest *)
        assert (Step : forall c R s fuel cs rest, decodes c R -> blind0 c \/ gfc = N.of_nat (length E) ->
           R s ((node, RInt 0 (N.of_nat (length E))) :: (x, RLit) :: cs) ->
           (forall s2, R s2 cs -> lz78_dec_loop c fuel G' (gfc + 1) s2 = Some rest) ->
           lz78_dec_loop c (S fuel) G gfc s = Some (reread Fo D w ++ x :: rest)).
        { intros c R s fuel cs rest [Hd1 Hd2] Hcnt Hs Hrest.
          destruct (Hd2 _ _ _ _ Hs) as (He1 & s1 & D1 & Hs1).
          destruct (Hd2 _ _ _ _ Hs1) as (He2 & s2 & D2 & Hs2).
          assert (D1' : c_dec c (RInt 0 gfc) s = Some (node, s1)).
          { destruct Hcnt as [Hbl| ->]; [|exact D1].
            rewrite (Hbl gfc (N.of_nat (length E))). exact D1. }
          cbn [lz78_dec_loop]. rewrite He1, D1'. cbn [obind].
          rewrite D2. cbn [obind call_val]. cbv zeta.
          replace (w8 x) with x by (unfold w8; rewrite N.mod_small; auto).
          replace (w32 node) with node by (unfold w32; rewrite N.mod_small; lia).
          pose proof (spells_len _ _ _ HSG). pose proof (spells_bound _ _ _ HSG).
          rewrite (chain_spells _ _ _ (spells_mono _ _ _ _ HSG)) by (rewrite app_length; simpl; lia).
          cbn [obind]. change (G ++ [(node, x)]) with G'. rewrite (Hrest _ Hs2). cbn [obind].
          rewrite <- app_assoc. reflexivity. }
        assert (HG' : forall i u, nth_error (match Fo with None => D' | Some F0 => F0 end) i = Some u -> spells G' (1 + N.of_nat i) u).
        { intros i u Hi. unfold G'. destruct Fo as [F0|].
          - apply spells_mono. auto.
          - destruct HF as [-> _]. apply (proj2 HP'). auto. }
        assert (HB : byte_ok x) by exact Hx.
        destruct (N.eqb_spec (N.of_nat (length D') + 1) dms) as [Hfull|Hfull].
        * destruct (Hreset _ _ 1 HR' (or_introl eq_refl)) as (st2 & Rs & HR2). rewrite Rs. cbn [obind].
          destruct (IH st2 [] G' (Some (match Fo with None => D' | Some F0 => F0 end)) [] 0 0 x [] (gfc + 1))
            as (cs & L & Ok1 & Ok2 & Dec); auto; try (cbn [length]; lia).
          { intros [|k] p c Hk; discriminate. } { constructor. } { apply phr_nil. }
          { cbn [length]. split; [|lia]. destruct Fo as [F0|]; [tauto|lia]. }
          { constructor. }
          cbn [length] in L. change (N.of_nat 0) with 0 in L.
          rewrite L. cbn [obind]. eexists; split; [reflexivity|]. split; [|split].
          -- constructor; [simpl; lia|]. constructor; [simpl; unfold byte_ok in *; auto|auto].
          -- intros Hl'. constructor; [simpl; lia|]. constructor; [simpl; unfold byte_ok in *; auto|auto].
          -- intros c R s fuel Hd Hcnt Hs Hf. cbn [length] in Hf. destruct fuel as [|fuel]; [lia|].
             apply (Step c R s fuel cs); auto.
             { destruct Hcnt as [Hc|[[Hc _]|(_ & Hc & _)]]; [auto|discriminate|auto]. }
             intros s2 Hs2. apply (Dec c R s2 fuel Hd); auto.
             ++ destruct Hcnt as [Hc|[[Hc _]|(HFo & _ & Hc)]]; [auto|discriminate|].
                right; left. split; [|reflexivity]. cbn [length] in Hc.
                destruct text as [|y text']; [reflexivity|exfalso].
                assert (HL : (1 <= length (lz78_parse D' [] (y :: text')))%nat).
                { apply parse_ne. }
                change (D ++ [w ++ [x]]) with D' in Hc. lia.
             ++ change (0 =? 0) with true. cbv iota. destruct (node =? 0); cbv iota in Hf; lia.
        * destruct (IH st' E' G' Fo D' 0 0 x [] (gfc + 1)) as (cs & L & Ok1 & Ok2 & Dec); auto; try lia.
          { destruct Fo as [F0|]; [|destruct HF as [-> HF2]; split; [reflexivity|lia]]. lia. }
          { constructor. }
          replace (N.of_nat (length E) + 1) with (N.of_nat (length E')) by lia.
          rewrite L. cbn [obind]. eexists; split; [reflexivity|]. split; [|split].
          -- constructor; [simpl; lia|]. constructor; [simpl; unfold byte_ok in *; auto|auto].
          -- intros Hl'. constructor; [simpl; lia|]. constructor; [simpl; unfold byte_ok in *; auto|auto].
          -- intros c R s fuel Hd Hcnt Hs Hf. cbn [length] in Hf. destruct fuel as [|fuel]; [lia|].
             apply (Step c R s fuel cs); auto.
             { destruct Hcnt as [Hc|[[Hc _]|(_ & Hc & _)]]; [auto|discriminate|auto]. }
             intros s2 Hs2. apply (Dec c R s2 fuel Hd); auto.
             ++ destruct Hcnt as [Hc|[[Hc _]|(HFo & Hg & Hc)]]; [auto|discriminate|].
                right; right. split; [auto|]. split; [lia|]. cbn [length] in Hc.
                change (D ++ [w ++ [x]]) with D' in Hc. lia.
             ++ change (0 =? 0) with true. cbv iota. destruct (node =? 0); cbv iota in Hf; lia.
  Qed.
End LoopB.

Lemma lz78_calls_b lim t dms text : trie_ok lim t -> bytes_ok text ->
  N.of_nat (length text) + 1 < lim -> N.of_nat (length text) + 1 < 2 ^ 32 ->
  exists cs, lz78_calls t dms text = Some cs /\ Forall call_okc cs /\
    (last text 0 < 128 -> Forall call_ok cs) /\
    forall c R s fuel, decodes c R -> blind0 c \/ dms <= 1 \/ N.of_nat (length (lz78_factors text)) < dms ->
      R s cs -> (length text <= fuel)%nat ->
      lz78_dec_loop c fuel [] 0 s = Some (lz78_read_back dms text).
Proof.
  intros (TR & Hi & Hr & Hroot & Hsize & Hfind) Hb Hl H32.
  destruct (Hi 1 (or_introl eq_refl)) as (st & I & HR).
  unfold lz78_calls. rewrite I. cbn [obind]. rewrite (Hroot _ _ _ HR) by (simpl; lia).
  destruct (lz78_loop_b t lim TR Hr Hroot Hsize Hfind dms text st [] [] None [] 0 0 0 [] 0)
    as (cs & L & O1 & O2 & D); auto; try (simpl; lia).
  - unfold byte_ok; lia.
  - intros [|k] p c H; discriminate.
  - constructor.
  - apply phr_nil.
  - intros [|i] u H; discriminate.
  - constructor.
  - exists cs. split; [exact L|]. split; [auto|]. split; [auto|].
    intros c R s fuel Hd Hc Hs Hf. apply (D c R s fuel Hd); auto; [|simpl; lia].
    destruct Hc as [Hc|Hc]; [auto|]. right; right. split; [reflexivity|]. split; [reflexivity|].
    unfold lz78_factors in Hc. cbn [length]. rewrite Nat.add_0_l. exact Hc.
Qed.

Lemma lz78_b_pf lim t dms c text :
  trie_ok lim t -> bytes_ok text ->
  N.of_nat (length text) + 1 < lim -> N.of_nat (length text) + 1 < 2 ^ 32 ->
  coder_ok_char c \/ (coder_ok c /\ last text 0 < 128) ->
  blind0 c \/ dms <= 1 \/ N.of_nat (length (lz78_factors text)) < dms ->
  exists f, lz78_compress t dms c text = Some f /\
    forall fuel, (length text <= fuel)%nat -> lz78_decompress c fuel f = Some (lz78_read_back dms text).
Proof.
  intros Ht Hb Hl H32 Hc Hbl.
  destruct (lz78_calls_b lim t dms text Ht Hb Hl H32) as (cs & L & O1 & O2 & D).
  assert (HE : exists f s R, c_enc c [] cs = Some f /\ c_open c f = Some s /\ decodes c R /\ R s cs).
  { destruct Hc as [Hc|[Hc Hla]]; [destruct (Hc [] cs O1) as (f & s & R & H)|destruct (Hc [] cs (O2 Hla)) as (f & s & R & H)]; exists f, s, R; tauto. }
  destruct HE as (f & s & R & E & Op & Dec & Hs).
  exists f. unfold lz78_compress. rewrite L. cbn [obind]. split; auto.
  intros fuel Hf. unfold lz78_decompress. rewrite Op. cbn [obind]. eauto.
Qed.

(** ** When the text read back is the text *)
Lemma index_of_app D D' w i : index_of w D = Some i -> index_of w (D ++ D') = Some i.
Proof.
  revert i. induction D as [|u D IH]; intros i H; [discriminate|]. cbn [index_of app] in *.
  destruct (list_eq_dec N.eq_dec u w); [auto|].
  destruct (index_of w D) as [j|] eqn:J; [|discriminate]. rewrite (IH j eq_refl). exact H.
Qed.
Lemma index_of_app_new D w : index_of w (D ++ [w]) <> None.
Proof.
  induction D as [|u D IH]; cbn [index_of app].
  - destruct (list_eq_dec N.eq_dec w w); congruence.
  - destruct (list_eq_dec N.eq_dec u w); [discriminate|]. destruct (index_of w (D ++ [w])); [discriminate|congruence].
Qed.

Definition known (D : list (list N)) (w : list N) : Prop := w = [] \/ index_of w D <> None.
Lemma known_mono D D' w : known D w -> known (D ++ D') w.
Proof.
  intros [H|H]; [left; auto|right]. destruct (index_of w D) as [i|] eqn:I; [|congruence].
  rewrite (index_of_app _ _ _ _ I). discriminate.
Qed.
Lemma reread_known D w : known D w -> ~ In [] D -> reread None D w = w.
Proof.
  intros [->|H] Hn; unfold reread.
  - destruct (index_of [] D) as [i|] eqn:I; [|reflexivity]. apply index_of_some, nth_error_In in I. tauto.
  - destruct (index_of w D) as [i|] eqn:I; [|congruence]. apply index_of_some in I.
    apply nth_error_nth. exact I.
Qed.

Lemma reread_one_epoch dms text : forall D w,
  dms <= 1 \/ N.of_nat (length D + length (lz78_parse D w text)) < dms ->
  ~ In [] D -> known D w -> known D (removelast w) ->
  (forall u c, index_of (u ++ [c]) D <> None -> known D u) ->
  lz78_reread dms None D w text = w ++ text.
Proof.
  induction text as [|x text IH]; intros D w Hd Hn Hw Hrw Hcl; cbn [lz78_reread].
  - destruct w as [|y w']; [reflexivity|]. rewrite app_nil_r.
    rewrite (reread_known D (removelast (y :: w'))) by auto. symmetry. apply app_removelast_last. discriminate.
  - cbn [lz78_parse] in Hd. destruct (index_of (w ++ [x]) D) as [i|] eqn:I.
    + rewrite IH; auto.
      * rewrite <- app_assoc. reflexivity.
      * right. congruence.
      * rewrite removelast_last. auto.
    + rewrite (reread_known D w) by auto. cbn [length] in Hd.
      assert (Hn' : ~ In [] (D ++ [w ++ [x]])).
      { rewrite in_app_iff. intros [H|[H|[]]]; [tauto|]. destruct w; discriminate. }
      destruct (N.eqb_spec (N.of_nat (length (D ++ [w ++ [x]])) + 1) dms) as [Hf|Hf].
      * assert (text = []) as ->.
        { destruct text as [|y text']; [reflexivity|exfalso].
          pose proof (parse_ne text' y (D ++ [w ++ [x]]) []). rewrite app_length in Hf. cbn [length] in Hf. lia. }
        cbn [lz78_reread]. reflexivity.
      * rewrite IH; [reflexivity| |auto|left; auto|left; auto|].
        { rewrite app_length. cbn [length]. lia. }
        intros u c Hu. destruct (index_of (u ++ [c]) D) as [i|] eqn:Iu.
        { apply known_mono, (Hcl u c). congruence. }
        apply known_mono. destruct (index_of (u ++ [c]) (D ++ [w ++ [x]])) as [i|] eqn:Iu'; [|congruence].
        apply index_of_some in Iu'. destruct (Nat.lt_ge_cases i (length D)) as [Li|Li].
        { rewrite nth_error_app1 in Iu' by auto. exfalso. exact (index_of_none _ _ _ Iu Iu'). }
        rewrite nth_error_app2 in Iu' by auto. destruct (i - length D)%nat as [|n]; [|destruct n; discriminate].
        cbn in Iu'. apply Some_inj, app_inj_tail in Iu'. destruct Iu' as [-> _]. exact Hw.
Qed.
Lemma read_back_one_epoch dms text : dms <= 1 \/ N.of_nat (length (lz78_factors text)) < dms ->
  lz78_read_back dms text = text.
Proof.
  intros H. unfold lz78_read_back. rewrite reread_one_epoch; auto; try (left; reflexivity).
  intros u c Hu. cbn in Hu. congruence.
Qed.

Lemma reread_two text : forall Fo, lz78_reread 2 Fo [] [] text = text.
Proof.
  induction text as [|x text IH]; intros Fo; [reflexivity|]. cbn [lz78_reread index_of app length reread].
  change (N.of_nat 1 + 1 =? 2) with true. cbv iota. f_equal. apply IH.
Qed.
Lemma read_back_two text : lz78_read_back 2 text = text.
Proof. apply reread_two. Qed.

(** the staircase a aa aaa ... *)
Lemma index_stairs a i : forall n s,
  index_of (repeat a i) (map (repeat a) (seq s n)) = if ((s <=? i) && (i <? s + n))%nat then Some (i - s)%nat else None.
Proof.
  induction n as [|n IH]; intros s; cbn [seq map index_of].
  - destruct (Nat.leb_spec s i); destruct (Nat.ltb_spec i (s + 0)); try reflexivity. lia.
  - destruct (list_eq_dec N.eq_dec (repeat a s) (repeat a i)) as [E|E].
    + apply (f_equal (@length N)) in E. rewrite !repeat_length in E. subst s.
      replace ((i <=? i) && (i <? i + S n))%nat with true by lia. f_equal; lia.
    + assert (s <> i) by congruence. rewrite IH.
      replace ((s <=? i) && (i <? s + S n))%nat with ((S s <=? i) && (i <? S s + n))%nat by lia.
      destruct (Nat.leb_spec (S s) i); destruct (Nat.ltb_spec i (S s + n)); cbn [andb option_map]; try reflexivity.
      f_equal; lia.
Qed.

Lemma reread_stair dms a n rest : forall m j, (m + j = n)%nat ->
  lz78_reread dms None (map (repeat a) (seq 1 n)) (repeat a j) (repeat a (S m) ++ rest)
  = repeat a (S n) ++
    (if N.of_nat n + 2 =? dms then lz78_reread dms (Some (map (repeat a) (seq 1 (S n)))) [] [] rest
     else lz78_reread dms None (map (repeat a) (seq 1 (S n))) [] rest).
Proof.
  assert (R1 : forall j, repeat a j ++ [a] = repeat a (S j)).
  { intros j. change [a] with (repeat a 1). rewrite <- repeat_app. f_equal; lia. }
  induction m as [|m IH]; intros j Hj.
  - cbn [repeat app lz78_reread]; rewrite R1, index_stairs. assert (j = n) by lia. subst j. replace ((1 <=? S n) && (S n <? 1 + n))%nat with false by lia.
    assert (ED : map (repeat a) (seq 1 n) ++ [repeat a (S n)] = map (repeat a) (seq 1 (S n))).
    { rewrite seq_S, map_app. reflexivity. }
    rewrite ED. rewrite map_length, seq_length. replace (N.of_nat (S n) + 1) with (N.of_nat n + 2) by lia.
    assert (ER : reread None (map (repeat a) (seq 1 n)) (repeat a n) = repeat a n).
    { apply reread_known.
      - destruct n as [|n]; [left; reflexivity|right]. rewrite index_stairs.
        replace ((1 <=? S n) && (S n <? 1 + S n))%nat with true by lia. discriminate.
      - intros H. apply in_map_iff in H. destruct H as (q & Hq & Hin). apply in_seq in Hin.
        destruct q; [lia|discriminate]. }
    rewrite ER. etransitivity; [apply (app_assoc (repeat a n) [a])|]. rewrite R1. reflexivity.
  - change (repeat a (S (S m)) ++ rest) with (a :: (repeat a (S m) ++ rest)). set (tl := repeat a (S m) ++ rest).
    cbn [lz78_reread]. rewrite R1, index_stairs. replace ((1 <=? S j) && (S j <? 1 + n))%nat with true by lia.
    unfold tl. rewrite (IH (S j)) by lia. reflexivity.
Qed.

(** a, aa, ..., a^(k-1), then b b c *)
Definition lz78_bad_text (k : nat) (a b c : N) : list N :=
  concat (map (repeat a) (seq 1 (k - 1))) ++ [b; b; c].

Lemma reread_stairs dms a rest : forall m n, N.of_nat (n + m) + 1 = dms -> (1 <= m)%nat ->
  lz78_reread dms None (map (repeat a) (seq 1 n)) [] (concat (map (repeat a) (seq (S n) m)) ++ rest)
  = concat (map (repeat a) (seq (S n) m)) ++ lz78_reread dms (Some (map (repeat a) (seq 1 (n + m)))) [] [] rest.
Proof.
  induction m as [|m IH]; intros n Hd Hm; [lia|].
  cbn [seq map concat]. rewrite <- !app_assoc.
  rewrite (reread_stair dms a n _ n 0 (Nat.add_0_r n)).
  f_equal. destruct (N.eqb_spec (N.of_nat n + 2) dms) as [E|E].
  - assert (m = 0)%nat by lia. subst m. replace (n + 1)%nat with (S n) by lia. reflexivity.
  - rewrite IH by lia. replace (S n + m)%nat with (n + S m)%nat by lia. reflexivity.
Qed.

Lemma read_back_bad k a b c : (3 <= k)%nat ->
  lz78_read_back (N.of_nat k) (lz78_bad_text k a b c) = concat (map (repeat a) (seq 1 (k - 1))) ++ [b; a; c] \/ b = c.
Proof.
  intros Hk. destruct (N.eq_dec b c) as [|Hbc]; [right; auto|left].
  unfold lz78_read_back, lz78_bad_text.
  change (@nil (list N)) with (map (repeat a) (seq 1 0)) at 1.
  rewrite (reread_stairs (N.of_nat k) a [b; b; c] (k - 1) 0) by lia. f_equal.
  cbn [Nat.add]. set (F := map (repeat a) (seq 1 (k - 1))).
  cbn [lz78_reread app index_of length reread].
  replace (N.of_nat 1 + 1 =? N.of_nat k) with false by lia.
  cbn [lz78_reread app index_of].
  destruct (list_eq_dec N.eq_dec [b] [b]) as [_|Q]; [|congruence].
  destruct (list_eq_dec N.eq_dec [b] [b; c]) as [Q|_]; [discriminate|]. cbn [option_map].
  unfold reread. cbn [index_of]. destruct (list_eq_dec N.eq_dec [b] [b]) as [_|Q]; [|congruence].
  assert (EF : nth 0 F [] = [a]).
  { unfold F. destruct (k - 1)%nat eqn:E; [lia|]. reflexivity. }
  rewrite EF. cbn [app length]. destruct (N.of_nat 2 + 1 =? N.of_nat k); reflexivity.
Qed.
Lemma bad_text_len k a b c : (1 <= k)%nat -> (2 * length (lz78_bad_text k a b c) = k * (k - 1) + 6)%nat.
Proof.
  intros Hk. unfold lz78_bad_text. rewrite app_length. cbn [length].
  assert (H : forall n, (2 * length (concat (map (repeat a) (seq 1 n))) = (n + 1) * n)%nat).
  { induction n as [|n IH]; [reflexivity|]. rewrite seq_S, map_app, concat_app, app_length.
    cbn [map concat]. rewrite app_nil_r, repeat_length. lia. }
  pose proof (H (k - 1)%nat). replace (k - 1 + 1)%nat with k in H0 by lia. lia.
Qed.
Lemma bad_text_bytes k a b c : byte_ok a -> byte_ok b -> byte_ok c -> bytes_ok (lz78_bad_text k a b c).
Proof.
  intros Ha Hb Hc. unfold lz78_bad_text, bytes_ok. apply Forall_app. split.
  - apply Forall_concat. apply Forall_map. apply Forall_forall. intros n _. apply Forall_forall.
    intros x Hx. apply repeat_spec in Hx. subst; auto.
  - repeat constructor; auto.
Qed.
Lemma simple_blind0 k : k <> BitC -> blind0 (simple_coder k).
Proof. intros Hk a b s. destruct k; try reflexivity. congruence. Qed.
