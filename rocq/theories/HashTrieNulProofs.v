(** HashTrie with NUL bytes: what LZ78 keeps. *)
From Verif Require Import Base BitIO IntCodes Coders CodersProofs LZ LZProofs Tries HashTrieProofs LZ78BoundedSpec LZ78BoundedProofs.
Local Open Scope N_scope.

Lemma drop_step D w c text : w <> [] \/ c <> 0 ->
  lz78_drop D w (c :: text) = c :: match index_of (w ++ [c]) D with
               | Some _ => lz78_drop D (w ++ [c]) text
               | None => lz78_drop (D ++ [w ++ [c]]) [] text
               end.
Proof. intros H. destruct w as [|x w]; [|reflexivity]. destruct c as [|q]; [destruct H; congruence|reflexivity]. Qed.
Lemma drop_length text : forall D w, (length (lz78_drop D w text) <= length text)%nat.
Proof.
  induction text as [|c text IH]; intros D w; [apply le_n|].
  destruct (list_eq_dec N.eq_dec w []) as [->|Hw]; [destruct (N.eq_dec c 0) as [->|Hc]|].
  - cbn [lz78_drop length]. apply le_S, IH.
  - rewrite drop_step by auto. cbn [length]. apply le_n_S. destruct (index_of ([] ++ [c]) D); apply IH.
  - rewrite drop_step by auto. cbn [length]. apply le_n_S. destruct (index_of (w ++ [c]) D); apply IH.
Qed.
Lemma drop_bytes text : bytes_ok text -> forall D w, bytes_ok (lz78_drop D w text).
Proof.
  induction 1 as [|c text Hc Hb IH]; intros D w; [constructor|].
  destruct (list_eq_dec N.eq_dec w []) as [->|Hw]; [destruct (N.eq_dec c 0) as [->|Hc0]|].
  - cbn [lz78_drop]. apply IH.
  - rewrite drop_step by auto. constructor; auto. destruct (index_of ([] ++ [c]) D); apply IH.
  - rewrite drop_step by auto. constructor; auto. destruct (index_of (w ++ [c]) D); apply IH.
Qed.

(** the text is kept iff no factor starts with NUL *)
Lemma drop_id_iff text : forall D w, hd 1 w <> 0 ->
  lz78_drop D w text = text <-> Forall (fun f => hd 1 f <> 0) (lz78_parse D w text).
Proof.
  induction text as [|c text IH]; intros D w Hw.
  - cbn [lz78_drop lz78_parse]. split; [intros _|reflexivity]. destruct w; repeat constructor; auto.
  - destruct (list_eq_dec N.eq_dec w []) as [->|Hn]; [destruct (N.eq_dec c 0) as [->|Hc]|].
    + cbn [lz78_drop lz78_parse app]. split.
      * intros E. pose proof (drop_length text D []). apply (f_equal (@length N)) in E. cbn [length] in E. lia.
      * intros F. exfalso.
        assert (G : forall tx DD u, hd 1 u = 0 -> u <> [] -> exists f, In f (lz78_parse DD u tx) /\ hd 1 f = 0).
        { clear. induction tx as [|x tx IHt]; intros DD u Hu Hne; cbn [lz78_parse].
          - destruct u; [congruence|]. eexists; split; [left; reflexivity|auto].
          - destruct (index_of (u ++ [x]) DD).
            + apply IHt; destruct u; cbn in *; congruence.
            + eexists; split; [left; reflexivity|]. destruct u; cbn in *; congruence. }
        rewrite Forall_forall in F. destruct (index_of [0] D).
        { destruct (G text D [0]) as (f & Hin & Hf); [reflexivity|discriminate|]. exact (F f Hin Hf). }
        { apply (F [0]); [left; reflexivity|reflexivity]. }
    + rewrite drop_step by auto. cbn [lz78_parse app].
      destruct (index_of [c] D).
      * rewrite <- IH by (cbn; auto). split; [intros E; injection E; auto|intros ->; reflexivity].
      * split.
        -- intros E. injection E as E. constructor; [cbn; auto|]. apply IH; [cbn; lia|auto].
        -- intros F. inversion F; subst. f_equal. apply IH; [cbn; lia|auto].
    + rewrite drop_step by auto. cbn [lz78_parse].
      assert (Hwc : hd 1 (w ++ [c]) <> 0) by (destruct w; [congruence|cbn in *; auto]).
      destruct (index_of (w ++ [c]) D).
      * rewrite <- IH by auto. split; [intros E; injection E; auto|intros ->; reflexivity].
      * split.
        -- intros E. injection E as E. constructor; [auto|]. apply IH; [cbn; lia|auto].
        -- intros F. inversion F; subst. f_equal. apply IH; [cbn; lia|auto].
Qed.

(** one step of the hash trie at the root on NUL *)
Lemma hash_find_nul m E : hrel m (mk_atrie 1 E) -> hash_find m 0 0 = Some (0, false, m).
Proof.
  intros [-> _]. unfold hash_find, hm_insert, create_node. cbn [a_roots a_ent].
  change (N.to_nat 1) with 1%nat. cbn [seq map app hm_get]. reflexivity.
Qed.

Lemma lz78_loop_nul : forall text m E D node parent fc lastc lastc' w,
  hrel m (mk_atrie 1 E) -> bytes_ok text ->
  (forall k p c, nth_error E k = Some (p, c) -> p <= N.of_nat k) -> NoDup E -> phr E D -> spells E node w ->
  (node <> 0 -> lastc = lastc') ->
  N.of_nat (length E + length text) + 1 < 2 ^ 32 ->
  lz78_loop hash_trie 0 m node parent fc lastc text
  = lz78_loop spec_trie 0 (mk_atrie 1 E) node (if node =? 0 then 0 else parent) fc lastc' (lz78_drop D w text).
Proof.
  induction text as [|x text IH]; intros m E D node parent fc lastc lastc' w HR Hb Wf Nd HP Hsp Hlc Hl.
  - cbn [lz78_drop lz78_loop]. destruct (N.eqb_spec node 0) as [->|Hn]; [reflexivity|]. rewrite Hlc by auto. reflexivity.
  - inversion Hb as [|? ? Hx Hb']; subst. cbn [length] in Hl.
    pose proof (spells_bound _ _ _ Hsp) as Hnb.
    assert (Hcase : (w = [] /\ x = 0) \/ (w <> [] \/ x <> 0)).
    { destruct w; [destruct (N.eq_dec x 0)|]; auto. right; left; discriminate. }
    destruct Hcase as [[-> ->]|Hcase].
    + assert (node = 0) as ->.
      { inversion Hsp as [|k p c u H1 H2 H3 E1 E2]; [reflexivity|destruct u; discriminate]. }
      cbn [lz78_loop lz78_drop]. simpl t_find. rewrite (hash_find_nul m E HR).
      rewrite (IH m E D 0 0 fc 0 lastc' []); auto; try lia.
    + rewrite (drop_step D w x text Hcase). cbn [lz78_loop]. simpl t_find.
      assert (Hroot : 1 <= node * 256 + x).
      { destruct (N.eq_dec node 0) as [->|]; [|lia]. inversion Hsp; subst; [|lia]. destruct Hcase; [congruence|lia]. }
      destruct (hash_find_ok m (mk_atrie 1 E) node x HR) as (m' & F & HR'); auto; try (unfold at_size; cbn [a_roots a_ent]; lia).
      rewrite F. rewrite (phr_find E D node w x HP Nd Wf Hsp).
      unfold at_find in HR' |- *. cbn [a_ent a_roots] in *.
      destruct (ent_find E node x) as [k|] eqn:Fk; cbn [fst snd] in HR' |- *.
      * pose proof (ent_find_some _ _ _ _ Fk) as Hk. pose proof (Wf _ _ _ Hk).
        rewrite (IH m' E D (1 + N.of_nat k) node fc x x (w ++ [x])); auto; try lia.
        2: { econstructor; eauto. }
        replace (1 + N.of_nat k =? 0) with false by lia. reflexivity.
      * simpl t_size. simpl t_root. rewrite (hrel_len _ _ HR'). unfold at_size at 1 2. cbn [a_ent a_roots].
        replace (1 + N.of_nat (length (E ++ [(node, x)])) =? 0) with false by lia.
        rewrite (IH m' (E ++ [(node, x)]) (D ++ [w ++ [x]]) 0 0 (fc + 1) x x []); auto.
        -- intros k p c Hk. destruct (Nat.lt_ge_cases k (length E)).
           ++ rewrite nth_error_app1 in Hk by auto. eauto.
           ++ rewrite nth_error_app2 in Hk by auto. destruct (k - length E)%nat as [|n] eqn:Dk; cbn in Hk.
              ** apply Some_inj in Hk. inversion Hk; subst. lia.
              ** destruct n; discriminate.
        -- apply NoDup_rev in Nd. rewrite <- (rev_involutive (E ++ [(node, x)])). apply NoDup_rev.
           rewrite rev_unit. constructor; [|auto]. rewrite <- in_rev. intros Hin.
           apply In_nth_error in Hin. destruct Hin as (q & Hq). exact (ent_find_none _ _ _ Fk _ Hq).
        -- apply phr_snoc; auto.
        -- constructor.
        -- rewrite app_length; cbn [length]; lia.
Qed.

Lemma hash_calls_nul text : bytes_ok text -> N.of_nat (length text) + 1 < 2 ^ 32 ->
  lz78_calls hash_trie 0 text = lz78_calls spec_trie 0 (lz78_without_nul_starts text).
Proof.
  intros Hb Hl. unfold lz78_calls, lz78_without_nul_starts.
  assert (HR : hrel (hash_roots (map N.of_nat (seq 0 (N.to_nat 1))) []) (mk_atrie 1 [])) by (apply hash_roots_ok; auto).
  simpl t_init. cbn [obind]. simpl t_root.
  rewrite (lz78_loop_nul text _ [] [] 0 0 0 0 0 []); auto.
  - intros [|k] p c H; discriminate.
  - constructor.
  - apply phr_nil.
  - constructor.
Qed.

Lemma hash_nul_pf c text : coder_ok_char c -> bytes_ok text -> N.of_nat (length text) + 1 < 2 ^ 32 ->
  exists f, lz78_compress hash_trie 0 c text = Some f /\
    forall fuel, (length text <= fuel)%nat -> lz78_decompress c fuel f = Some (lz78_without_nul_starts text).
Proof.
  intros Hc Hb Hl. pose proof (drop_length text [] []) as HL.
  destruct (lz78_char_pf (2 ^ 32) spec_trie 0 c (lz78_without_nul_starts text)) as (f & E & D); auto using spec_trie_ok.
  - apply drop_bytes; auto.
  - unfold lz78_without_nul_starts; lia.
  - unfold lz78_without_nul_starts; lia.
  - exists f. unfold lz78_compress in *. rewrite (hash_calls_nul text Hb Hl). split; [exact E|].
    intros fuel Hf. apply D. unfold lz78_without_nul_starts; lia.
Qed.
