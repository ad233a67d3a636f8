(** SLE coder: what the decoder reads at each call. *)
From Coq Require Import Permutation Sorted.
From Verif Require Import Base BitIO BitIOProofs IntCodes IntCodesProofs Coders CodersProofs LooseCoders Huffman HuffmanProofs SLE SLESpec CounterProofs SLEProofs.
Local Open Scope N_scope.

Definition scall_loose (c : scall) : Prop := call_loose (plain c).
Definition scall_ex (c : scall) : Prop := simple_ex BitC (plain c).

Section Rel.
  Context (A : N -> Prop) (k : nat) (al : counter).
  Hypothesis HA : forall c, A c -> c < 256.
  Hypothesis Hk : (1 <= k <= 7)%nat.
  Hypothesis Hnd : NoDup (keys al).
  Hypothesis Hsym : forall x, In x (keys al) -> sym_ok A k x.
  Hypothesis Hlen : (length al < 2048)%nat.
  Let rk := createRanking al.
  Let sb := sle_sigma_bits al.
  Let inv := map fst (getSorted al).

  Lemma sb_ok : (1 <= sb <= 64)%nat.
  Proof.
    unfold sb, sle_sigma_bits, bits_forn.
    pose proof (bits_for_pos (w64 (getNumItems al + (2 ^ 64 - 1)))).
    pose proof (bits_for_le64 _ (w64_lt (getNumItems al + (2 ^ 64 - 1)))). lia.
  Qed.
  Lemma rank_lt x r : rank_of rk x = Some r -> r < 2 ^ N.of_nat sb /\ nth_error inv (N.to_nat r) = Some x.
  Proof.
    intros E. apply createRanking_ok in E; auto. split; auto.
    assert (Hr : (N.to_nat r < length al)%nat).
    { rewrite <- (getSorted_len al), <- (map_length fst). apply nth_error_Some. congruence. }
    unfold sb, sle_sigma_bits, bits_forn. rewrite N2Nat.id. unfold getNumItems.
    set (n := N.of_nat (length al)).
    assert (Hn : n < 2 ^ 64) by (unfold n; rewrite pow64; lia).
    replace (n + (2 ^ 64 - 1)) with (n + 2 ^ 64 - 1) by (rewrite pow64; lia).
    rewrite w64_sub by (auto; unfold n; lia).
    pose proof (bits_for_bound (n - 1)). lia.
  Qed.

  Definition dst (rest : list N) : sdec := mk_sdec sb inv rest.
  Definition lit (c : N) : scall := (c, SR RLit).
  Definition known (c : N) : Prop := c < 256 /\ In c (keys al).

  (** decoding one symbol *)
  Lemma dec_single c rest : known c ->
    encode_sym rk sb c <> [] /\
    sle_dec lrb k (SR RLit) (dst []) (encode_sym rk sb c ++ rest) = Some (c, dst [], rest).
  Proof.
    intros [Hc Hi]. unfold encode_sym. destruct (rank_of rk c) as [r|] eqn:E.
    2:{ exfalso. apply createRanking_none in E; auto. }
    destruct (rank_lt _ _ E) as [H1 H2]. pose proof sb_ok as Hb. split; [apply rank_bits_ne; lia|].
    cbn [sle_dec sle_dec_lit dst sd_rest sd_bits sd_inv]. unfold sle_dec_lit, dst. cbn [sd_rest sd_bits sd_inv].
    rewrite read_rank_ok by (auto; lia). rewrite H2. cbn [obind]. rewrite lit_not_kmer by auto.
    unfold w8. rewrite N.mod_small by auto. reflexivity.
  Qed.
  Lemma dec_kmer km x rest : length km = k -> Forall (fun c => c < 256) km -> compile_kmer km = Some x -> rank_of rk x <> None ->
    exists c t, km = c :: t /\ encode_sym rk sb x <> [] /\
    sle_dec lrb k (SR RLit) (dst []) (encode_sym rk sb x ++ rest) = Some (c, dst t, rest).
  Proof.
    intros Hl Hb Ec Er. destruct (compile_ok km) as (y & E1 & E2 & E3 & E4); auto; [lia|].
    rewrite E1 in Ec. apply Some_inj in Ec. subst y. rewrite Hl in E4.
    destruct km as [|c t]; [cbn in Hl; lia|]. exists c, t. split; auto.
    unfold encode_sym. destruct (rank_of rk x) as [r|] eqn:E; [|congruence].
    destruct (rank_lt _ _ E) as [H1 H2]. pose proof sb_ok as Hsb. split; [apply rank_bits_ne; lia|].
    cbn [sle_dec]. unfold sle_dec_lit, dst. cbn [sd_rest sd_bits sd_inv].
    rewrite read_rank_ok by (auto; lia). rewrite H2. cbn [obind]. rewrite E3, E4. reflexivity.
  Qed.
  (** the other calls *)
  Lemma other_call v r buf pend : scall_loose (v, r) -> r <> SR RLit -> exists b,
    sle_enc_call k rk sb buf (v, r) = Some (flush_kmer rk sb buf ++ b, []) /\ b <> [] /\
    exists dv, (scall_ex (v, r) -> dv = v) /\
      forall rest, sle_dec lrb k r (dst pend) (b ++ rest) = Some (dv, dst [], rest).
  Proof.
    intros Hl Hr. unfold scall_loose, scall_ex in *. destruct r as [[mn mx| |]|mn mx]; cbn [plain] in *.
    - destruct (enc_dec_loose BitC v (RInt mn mx) Hl) as (b & E & Hne & dv & Hd & Hdec).
      exists b. cbn [sle_enc_call]. rewrite E. cbn [obind]. split; auto. split; auto. exists dv. split; auto.
      intros rest. cbn [sle_dec]. rewrite Hdec. reflexivity.
    - congruence.
    - destruct (enc_dec_loose BitC v RBit Hl) as (b & E & Hne & dv & Hd & Hdec).
      exists b. cbn [sle_enc_call]. rewrite E. cbn [obind]. split; auto. split; auto. exists dv. split; auto.
      intros rest. cbn [sle_dec]. rewrite Hdec. reflexivity.
    - destruct Hl as (L1 & L2 & L3). destruct (mind_ok v mn mx) as (Hne & dv & Hd & Hdec); auto.
      exists (mind_bits v mn mx). cbn [sle_enc_call]. split; auto. split; auto. exists dv. split; auto.
      intros rest. cbn [sle_dec]. rewrite Hdec. reflexivity.
  Qed.

  (** a buffer the encoder can have: not full with a ranked k-mer *)
  Definition buf_ok (buf : list N) : Prop :=
    (length buf <= k)%nat /\ Forall known buf.
  Definition call_known (c : scall) : Prop := snd c = SR RLit -> known (fst c).
  Lemma known_bytes l : Forall known l -> Forall (fun c => c < 256) l.
  Proof. apply Forall_impl. intros c [H _]. auto. Qed.

  Lemma roll_known buf c o b : kmer_roll k buf c = Some (o, b) -> Forall known buf -> known c -> Forall known b.
  Proof.
    unfold kmer_roll. intros E Hb Hc. destruct (length buf =? k)%nat.
    - destruct buf as [|x t]; [discriminate|]. injection E as <- <-. inversion Hb; subst. apply Forall_app; auto.
    - injection E as <- <-. apply Forall_app; auto.
  Qed.

  Lemma enc_total cs : forall buf, (length buf <= k)%nat -> Forall (fun c => c < 256) buf -> Forall scall_loose cs ->
    exists bs, sle_enc_calls k rk sb buf cs = Some bs.
  Proof.
    induction cs as [|[v r] cs IH]; intros buf Hb1 Hb2 Hl; cbn [sle_enc_calls]; eauto.
    inversion Hl as [|? ? L1 L2]; subst.
    assert (Hd : r = SR RLit \/ r <> SR RLit) by (destruct r as [[]|]; [right|left|right|right]; congruence).
    destruct Hd as [->|Hr].
    - unfold scall_loose in L1. cbn [plain call_loose] in L1.
      assert (Ew : w8 v = v) by (apply N.mod_small; exact L1).
      cbn [sle_enc_call]. rewrite Ew.
      destruct (roll_ok k buf v) as (o & b & E & Hbl & _); auto; [lia|].
      pose proof (roll_bytes (fun c => c < 256) _ _ _ _ _ E Hb2 L1) as Hbk. rewrite E. cbn [obind].
      destruct (Nat.eqb_spec (length b) k) as [Ek|Ek].
      + destruct (compile_ok b) as (x & Ex & _); [lia|auto|]. rewrite Ex. cbn [obind].
        destruct (rank_of rk x); cbn [obind].
        * destruct (IH []) as (bs & ->); auto; [cbn; lia|]. cbn [obind]. eauto.
        * destruct (IH b) as (bs & ->); auto; [lia|]. cbn [obind]. eauto.
      + cbn [obind]. destruct (IH b) as (bs & ->); auto; [lia|]. cbn [obind]. eauto.
    - destruct (other_call v r buf [] L1 Hr) as (b & -> & _). cbn [obind].
      destruct (IH []) as (bs & ->); auto; [cbn; lia|]. cbn [obind]. eauto.
  Qed.

  (** the state of affairs: the encoder held [buf] when the decoder's next symbol was about to
      be written, and [cs] were the calls still to be made *)
  Definition lrel (pend : list N) (bits : list bool) (all : list scall) : Prop :=
    exists buf cs, all = map lit pend ++ map lit buf ++ cs /\ buf_ok buf /\ Forall scall_loose cs /\
      Forall call_known cs /\ sle_enc_calls k rk sb buf cs = Some bits.

  Lemma lit_app buf v cs : map lit buf ++ lit v :: cs = map lit (buf ++ [v]) ++ cs.
  Proof. rewrite map_app, <- app_assoc. reflexivity. Qed.
  Lemma step_symbol cs : forall buf bits, buf_ok buf -> Forall scall_loose cs -> Forall call_known cs ->
    sle_enc_calls k rk sb buf cs = Some bits -> map lit buf ++ cs <> [] ->
    exists v r all' dv pend' bits', map lit buf ++ cs = (v, r) :: all' /\ bits <> [] /\
      sle_dec lrb k r (dst []) bits = Some (dv, dst pend', bits') /\ (scall_ex (v, r) -> dv = v) /\
      lrel pend' bits' all'.
  Proof.
    induction cs as [|[v r] cs IH]; intros buf bits [Hb1 Hb2] Hl Hkn E Hne.
    - cbn [sle_enc_calls] in E. apply Some_inj in E. subst bits.
      destruct buf as [|c buf]; [exfalso; apply Hne; reflexivity|]. inversion Hb2 as [|? ? B1 B2]; subst.
      unfold flush_kmer. cbn [flat_map map app].
      destruct (dec_single c (flat_map (encode_sym rk sb) buf) B1) as [D1 D2].
      exists c, (SR RLit), (map lit buf ++ []), c, [], (flat_map (encode_sym rk sb) buf).
      split; [reflexivity|]. split; [destruct (encode_sym rk sb c); [congruence|discriminate]|].
      split; [exact D2|]. split; auto.
      exists buf, []. split; [reflexivity|]. split; [split; auto; cbn in Hb1; lia|]. auto.
    - inversion Hl as [|? ? L1 L2]; subst. inversion Hkn as [|? ? K1 K2]; subst.
      assert (Hd : r = SR RLit \/ r <> SR RLit) by (destruct r as [[]|]; [right|left|right|right]; congruence).
      destruct Hd as [->|Hr].
      + specialize (K1 eq_refl). cbn [fst] in K1.
        assert (Ew : w8 v = v) by (apply N.mod_small; apply K1).
        assert (E0 := E). cbn [sle_enc_calls sle_enc_call] in E. rewrite Ew in E.
        destruct (roll_ok k buf v) as (o & b & Er & Hbl & Hcase); auto; [lia|].
        pose proof (roll_known _ _ _ _ Er Hb2 K1) as Hbk. rewrite Er in E. cbn [obind] in E.
        destruct Hcase as [(-> & Hlt & ->)|(Hfull & x & t & -> & -> & ->)].
        * (* not full before *)
          destruct (Nat.eqb_spec (length (buf ++ [v])) k) as [Ek|Ek].
          -- destruct (compile_ok (buf ++ [v])) as (x & Ex & _); [lia|apply known_bytes; auto|].
             rewrite Ex in E. cbn [obind] in E. destruct (rank_of rk x) as [rr|] eqn:Erk; cbn [obind app] in E.
             ++ destruct (sle_enc_calls k rk sb [] cs) as [bs|] eqn:Ecs; [|discriminate]. cbn [obind] in E.
                apply Some_inj in E. subst bits.
                destruct (dec_kmer (buf ++ [v]) x bs Ek (known_bytes _ Hbk) Ex ltac:(congruence)) as (c & t & Et & D1 & D2).
                exists c, (SR RLit), (map lit t ++ cs), c, t, bs. split.
                { eapply eq_trans; [apply lit_app|]. rewrite Et. reflexivity. }
                split; [destruct (encode_sym rk sb x); [congruence|discriminate]|].
                split; [exact D2|]. split; auto. exists [], cs. split; [reflexivity|].
                split; [split; [cbn; lia|constructor]|]. auto.
             ++ destruct (sle_enc_calls k rk sb (buf ++ [v]) cs) as [bs|] eqn:Ecs; [|discriminate]. cbn [obind app] in E.
                apply Some_inj in E. subst bits.
                destruct (IH _ _ (conj (proj2 Hbl) Hbk) L2 K2 Ecs) as (v' & r' & all' & dv & pend' & bits' & Q1 & Q2);
                  [destruct buf; discriminate|].
                exists v', r', all', dv, pend', bits'. split; [eapply eq_trans; [apply lit_app|exact Q1]|exact Q2].
          -- cbn [obind app] in E. destruct (sle_enc_calls k rk sb (buf ++ [v]) cs) as [bs|] eqn:Ecs; [|discriminate].
             cbn [obind app] in E. apply Some_inj in E. subst bits.
             destruct (IH _ _ (conj (proj2 Hbl) Hbk) L2 K2 Ecs) as (v' & r' & all' & dv & pend' & bits' & Q1 & Q2);
               [destruct buf; discriminate|].
             exists v', r', all', dv, pend', bits'. split; [eapply eq_trans; [apply lit_app|exact Q1]|exact Q2].
        * (* full: the oldest character is written *)
          inversion Hb2 as [|? ? B1 B2]; subst.
          assert (Erest : exists bs, sle_enc_calls k rk sb t ((v, SR RLit) :: cs) = Some bs /\ bits = encode_sym rk sb x ++ bs).
          { destruct (enc_total ((v, SR RLit) :: cs) t) as (bs & Ebs); auto using known_bytes.
            { cbn in Hb1. lia. }
            exists bs. split; auto. cbn [sle_enc_calls sle_enc_call] in Ebs. rewrite Ew in Ebs.
            assert (Er2 : kmer_roll k t v = Some (None, t ++ [v])).
            { unfold kmer_roll. cbn [length] in Hfull. destruct (Nat.eqb_spec (length t) k); [lia|reflexivity]. }
            rewrite Er2 in Ebs. cbn [obind] in Ebs. revert E Ebs. 
            destruct (length (t ++ [v]) =? k)%nat.
            - destruct (compile_kmer (t ++ [v])) as [y|]; [|discriminate]. cbn [obind].
              destruct (rank_of rk y); cbn [obind].
              + destruct (sle_enc_calls k rk sb [] cs); [|discriminate]. cbn [obind]. intros E1 E2.
                apply Some_inj in E1. apply Some_inj in E2. subst. rewrite app_nil_l, <- app_assoc. reflexivity.
              + destruct (sle_enc_calls k rk sb (t ++ [v]) cs); [|discriminate]. cbn [obind]. intros E1 E2.
                apply Some_inj in E1. apply Some_inj in E2. subst. reflexivity.
            - cbn [obind]. destruct (sle_enc_calls k rk sb (t ++ [v]) cs); [|discriminate]. cbn [obind]. intros E1 E2.
              apply Some_inj in E1. apply Some_inj in E2. subst. reflexivity. }
          destruct Erest as (bs & Ebs & ->).
          destruct (dec_single x bs B1) as [D1 D2].
          exists x, (SR RLit), (map lit t ++ (v, SR RLit) :: cs), x, [], bs.
          split; [reflexivity|]. split; [destruct (encode_sym rk sb x); [congruence|discriminate]|].
          split; [exact D2|]. split; auto. exists t, ((v, SR RLit) :: cs).
          split; [reflexivity|]. split; [split; auto; cbn in Hb1; lia|]. auto.
      + destruct (other_call v r buf [] L1 Hr) as (b & Eb & Hbne & dv & Hdv & Hdec).
        cbn [sle_enc_calls] in E. rewrite Eb in E. cbn [obind] in E.
        destruct (sle_enc_calls k rk sb [] cs) as [bs|] eqn:Ecs; [|discriminate]. cbn [obind] in E.
        apply Some_inj in E. subst bits. destruct buf as [|c buf].
        * cbn [flush_kmer flat_map app map]. exists v, r, cs, dv, [], bs. split; [reflexivity|].
          split; [destruct b; [congruence|discriminate]|]. split; [apply Hdec|]. split; auto.
          exists [], cs. split; [reflexivity|]. split; [split; [cbn; lia|constructor]|]. auto.
        * inversion Hb2 as [|? ? B1 B2]; subst. unfold flush_kmer. cbn [flat_map map app].
          destruct (dec_single c ((flat_map (encode_sym rk sb) buf ++ b) ++ bs) B1) as [D1 D2].
          rewrite <- !app_assoc in D2. rewrite <- !app_assoc.
          exists c, (SR RLit), (map lit buf ++ (v, r) :: cs), c, [], (flat_map (encode_sym rk sb) buf ++ b ++ bs).
          split; [reflexivity|]. split; [destruct (encode_sym rk sb c); [congruence|discriminate]|].
          split; [exact D2|]. split; auto. exists buf, ((v, r) :: cs). split; [reflexivity|].
          split; [split; auto; cbn in Hb1; lia|]. split; [auto|]. split; [auto|].
          cbn [sle_enc_calls]. destruct (other_call v r buf [] L1 Hr) as (b' & Eb' & _).
          assert (b' = b).
          { destruct (other_call v r (c :: buf) [] L1 Hr) as (b2 & Eb2 & _).
            rewrite Eb in Eb2. injection Eb2 as Eb2. apply app_inv_head in Eb2. subst b2.
            clear - Eb Eb' Hr. destruct r as [[mn mx| |]|mn mx]; try congruence; cbn [sle_enc_call] in *.
            - destruct (enc_call BitC (v, RInt mn mx)); [|discriminate]. cbn [obind] in *.
              injection Eb as E1. injection Eb' as E2. apply app_inv_head in E1, E2. congruence.
            - destruct (enc_call BitC (v, RBit)); [|discriminate]. cbn [obind] in *.
              injection Eb as E1. injection Eb' as E2. apply app_inv_head in E1, E2. congruence.
            - injection Eb as E1. injection Eb' as E2. apply app_inv_head in E1, E2. congruence. }
          subst b'. rewrite Eb'. cbn [obind]. rewrite Ecs. cbn [obind]. unfold flush_kmer. rewrite <- app_assoc. reflexivity.
  Qed.

  Lemma lrel_step pend bits v r all : lrel pend bits ((v, r) :: all) ->
    (pend = [] -> bits <> []) /\
    exists dv pend' bits', sle_dec lrb k r (dst pend) bits = Some (dv, dst pend', bits') /\
      (scall_ex (v, r) -> dv = v) /\ lrel pend' bits' all.
  Proof.
    intros (buf & cs & Eall & Hb & Hl & Hkn & E). destruct pend as [|c pend].
    - cbn [map app] in Eall.
      destruct (step_symbol cs buf bits Hb Hl Hkn E) as (v' & r' & all' & dv & pend' & bits' & E1 & E2 & E3 & E4 & E5).
      { rewrite <- Eall. discriminate. }
      rewrite <- Eall in E1. injection E1 as <- <- <-. split; auto. exists dv, pend', bits'. auto.
    - split; [discriminate|]. cbn [map app] in Eall. injection Eall as -> -> ->.
      exists c, pend, bits. split; [reflexivity|]. split; auto. exists buf, cs. auto.
  Qed.
  Lemma lrel_end pend bits : lrel pend bits [] -> pend = [] /\ bits = [].
  Proof.
    intros (buf & cs & Eall & Hb & Hl & Hkn & E).
    destruct pend; [|discriminate]. destruct buf; [|discriminate]. cbn in Eall. subst cs.
    cbn in E. apply Some_inj in E. auto.
  Qed.

  (** the header *)
  Lemma write_syms_ok l : Forall (fun x => x < 2 ^ 64) l -> exists bs, write_syms l = Some bs /\
    forall rest, read_syms lrb (length l) (bs ++ rest) = Some (l, rest).
  Proof.
    induction 1 as [|x l Hx Hl (bs & E & G)]; cbn [write_syms length read_syms]; [eauto|].
    destruct (rd_cint7_ok x [] Hx) as (a & Ea & _). rewrite Ea, E. cbn [obind]. eexists. split; [reflexivity|].
    intros rest. rewrite <- app_assoc.
    destruct (rd_cint7_ok x (bs ++ rest) Hx) as (a' & Ea' & _ & Er). rewrite Ea in Ea'. apply Some_inj in Ea'. subst a'.
    unfold rd_cint7 in Er. rewrite Er. cbn [obind]. rewrite G. reflexivity.
  Qed.
  Lemma header_ok : exists h, sle_header al = Some h /\ forall rest, sle_open lrb (h ++ rest) = Some (dst [], rest).
  Proof.
    unfold sle_header, sle_open.
    assert (Hn : getNumItems al < 2 ^ 64) by (unfold getNumItems; rewrite pow64; lia).
    destruct (rd_cint7_ok (getNumItems al) [] Hn) as (a & Ea & _). rewrite Ea. cbn [obind].
    destruct (write_syms_ok inv) as (b & Eb & G).
    { apply Forall_forall. intros x Hx. apply (sym_lt A HA k); [lia|]. apply Hsym.
      eapply Permutation_in; [apply Permutation_map, getSorted_perm|exact Hx]. }
    unfold inv in Eb. rewrite Eb. cbn [obind]. eexists. split; [reflexivity|]. intros rest. rewrite <- app_assoc.
    destruct (rd_cint7_ok (getNumItems al) (b ++ rest) Hn) as (a' & Ea' & _ & Er). rewrite Ea in Ea'. apply Some_inj in Ea'. subst a'.
    unfold rd_cint7 in Er. rewrite Er. cbn [obind].
    assert (El : N.to_nat (getNumItems al) = length inv).
    { unfold getNumItems, inv. rewrite map_length, getSorted_len. lia. }
    rewrite El, G. cbn [obind]. reflexivity.
  Qed.

  (** whatever the decoder is given, the literals it returns were announced *)
  Lemma dec_announced {S : Type} (rb : S -> bool * S) r pend s v d s' : Forall A pend ->
    sle_dec rb k r (dst pend) s = Some (v, d, s') ->
    (r = SR RLit -> A v) /\ exists pend', d = dst pend' /\ Forall A pend'.
  Proof.
    intros Hp E. destruct r as [[mn mx| |]|mn mx]; cbn [sle_dec] in E.
    - destruct (dec_call rb dfuel BitC (RInt mn mx) s) as [[v' s1]|]; [|discriminate]. cbn [obind] in E.
      injection E as <- <- <-. split; [discriminate|]. exists []. auto.
    - unfold sle_dec_lit, dst in E. cbn [sd_rest sd_bits sd_inv] in E. destruct pend as [|c pend].
      + destruct (read_rank rb sb s) as [r s1]. destruct (nth_error inv (N.to_nat r)) as [x|] eqn:Ex; [|discriminate].
        cbn [obind] in E. apply nth_error_In in Ex.
        assert (Hx : sym_ok A k x).
        { apply Hsym. eapply Permutation_in; [apply Permutation_map, getSorted_perm|exact Ex]. }
        destruct Hx as [Hx|(km & K1 & K2 & K3)].
        * rewrite lit_not_kmer in E by auto. injection E as <- <- <-. split.
          { intros _. unfold w8. rewrite N.mod_small by auto. auto. }
          exists []. auto.
        * destruct (compile_ok km) as (y & E1 & _ & E3 & E4); [lia|apply (A_bytes A HA); auto|].
          rewrite K3 in E1. apply Some_inj in E1. subst y. rewrite K1 in E4. rewrite E3, E4 in E. cbn [obind] in E.
          destruct km as [|c km]; [discriminate|]. injection E as <- <- <-. inversion K2; subst.
          split; auto. exists km. auto.
      + injection E as <- <- <-. inversion Hp; subst. split; auto. exists pend. auto.
    - destruct (dec_call rb dfuel BitC RBit s) as [[v' s1]|]; [|discriminate]. cbn [obind] in E.
      injection E as <- <- <-. split; [discriminate|]. exists []. auto.
    - destruct (mind_read rb mn mx s) as [v' s1]. injection E as <- <- <-. split; [discriminate|]. exists []. auto.
  Qed.
End Rel.

(** ** Simulations *)
Section SSim.
  Context {S1 S2 : Type} (rb1 : S1 -> bool * S1) (rb2 : S2 -> bool * S2) (R : S1 -> S2 -> Prop).
  Hypothesis rb_sim : forall s l, R s l -> fst (rb1 s) = fst (rb2 l) /\ R (snd (rb1 s)) (snd (rb2 l)).
  Notation osim := (osim R).
  Lemma read_syms_sim n : forall s l, R s l -> osim (read_syms rb1 n s) (read_syms rb2 n l).
  Proof.
    induction n as [|n IH]; intros s l H; cbn [read_syms]; [split; auto|].
    apply obind_sim; [apply rd_cint_sim; auto|]. intros a s1 l1 H1.
    apply obind_sim; [apply IH; auto|]. intros. split; auto.
  Qed.
  Lemma sle_open_sim s l : R s l -> osim (sle_open rb1 s) (sle_open rb2 l).
  Proof.
    intros H. unfold sle_open. apply obind_sim; [apply rd_cint_sim; auto|]. intros a s1 l1 H1.
    apply obind_sim; [apply read_syms_sim; auto|]. intros. split; auto.
  Qed.
  Lemma add_int_sim b n s l : R s l -> psim R (add_int rb1 b n s) (add_int rb2 b n l).
  Proof.
    intros H. unfold add_int. destruct (rd_int_sim rb1 rb2 R rb_sim n s l H) as [E1 E2].
    destruct (rd_int rb1 n s), (rd_int rb2 n l). cbn in *. subst. split; auto.
  Qed.
  Lemma read_rank_sim sb s l : R s l -> psim R (read_rank rb1 sb s) (read_rank rb2 sb l).
  Proof.
    intros H. unfold read_rank.
    assert (HI : forall n s l, R s l -> psim R (rd_int rb1 n s) (rd_int rb2 n l)) by (intros; apply rd_int_sim; auto).
    destruct (sb <? 4)%nat; auto. destruct (sb <? 6)%nat.
    - destruct (rb_sim s l H) as [E1 E2]. destruct (rb1 s) as [b1 s1], (rb2 l) as [b2 l1]. cbn [fst snd] in *. subst b2.
      destruct b1; auto.
    - destruct (sb =? 6)%nat.
      + destruct (HI 2%nat s l H) as [E1 E2]. destruct (rd_int rb1 2 s) as [x s1], (rd_int rb2 2 l) as [x2 l1]. cbn [fst snd] in *. subst x2.
        destruct x as [|p]; auto. destruct p as [p|p|]; auto using add_int_sim. destruct p; auto using add_int_sim.
      + destruct (HI 3%nat s l H) as [E1 E2]. destruct (rd_int rb1 3 s) as [x s1], (rd_int rb2 3 l) as [x2 l1]. cbn [fst snd] in *. subst x2.
        destruct x as [|p]; auto. do 3 (try destruct p as [p|p|]); auto using add_int_sim.
  Qed.
  Lemma mind_read_sim mn mx s l : R s l -> psim R (mind_read rb1 mn mx s) (mind_read rb2 mn mx l).
  Proof.
    intros H. unfold mind_read. set (bits := bits_forn _).
    assert (HI : forall n s l, R s l -> psim R (rd_int rb1 n s) (rd_int rb2 n l)) by (intros; apply rd_int_sim; auto).
    assert (G : psim R (if (bits <=? 5)%nat then rd_int rb1 bits s
      else let (x, s0) := rd_int rb1 2 s in match x with 0 => rd_int rb1 3 s0 | 1 => add_int rb1 8 3 s0 | 2 => add_int rb1 16 4 s0 | _ => rd_int rb1 bits s0 end)
      (if (bits <=? 5)%nat then rd_int rb2 bits l
      else let (x, s0) := rd_int rb2 2 l in match x with 0 => rd_int rb2 3 s0 | 1 => add_int rb2 8 3 s0 | 2 => add_int rb2 16 4 s0 | _ => rd_int rb2 bits s0 end)).
    { destruct (bits <=? 5)%nat; auto.
      destruct (HI 2%nat s l H) as [E1 E2]. destruct (rd_int rb1 2 s) as [x s1], (rd_int rb2 2 l) as [x2 l1]. cbn [fst snd] in *. subst x2.
      destruct x as [|p]; auto. destruct p as [p|p|]; auto using add_int_sim. destruct p; auto using add_int_sim. }
    destruct (if (bits <=? 5)%nat then rd_int rb1 bits s else _) as [v1 s1].
    destruct (if (bits <=? 5)%nat then rd_int rb2 bits l else _) as [v2 l1].
    destruct G as [G1 G2]. cbn [fst snd] in *. subst v2. split; auto.
  Qed.
  Lemma sle_dec_sim k r d s l : R s l -> osim (sle_dec rb1 k r d s) (sle_dec rb2 k r d l).
  Proof.
    intros H. unfold sle_dec. destruct r as [[mn mx| |]|mn mx].
    - apply obind_sim; [apply dec_call_sim; auto|]. intros; split; auto.
    - unfold sle_dec_lit. destruct (sd_rest d); [|split; auto].
      destruct (read_rank_sim (sd_bits d) s l H) as [E1 E2].
      destruct (read_rank rb1 (sd_bits d) s) as [r1 s1], (read_rank rb2 (sd_bits d) l) as [r2 l1]. cbn [fst snd] in *. subst r2.
      destruct (nth_error (sd_inv d) (N.to_nat r1)) as [x|]; cbn [obind]; [|exact I].
      destruct (is_kmer x); [|split; auto]. destruct (decompile_kmer k x) as [km|]; cbn [obind]; [|exact I].
      destruct km; [exact I|]. split; auto.
    - apply obind_sim; [apply dec_call_sim; auto|]. intros; split; auto.
    - destruct (mind_read_sim mn mx s l H) as [E1 E2].
      destruct (mind_read rb1 mn mx s) as [r1 s1], (mind_read rb2 mn mx l) as [r2 l1]. cbn [fst snd] in *. subst r2. split; auto.
  Qed.
End SSim.

(** ** files *)
Definition frel (k : nat) (al : counter) (x : sdec * bis) (cs : list scall) : Prop :=
  exists pend bits, fst x = dst al pend /\ bisR (snd x) bits /\ lrel k al pend bits cs.

Definition al_ok (A : N -> Prop) (k : nat) (al : counter) : Prop :=
  NoDup (keys al) /\ (forall x, In x (keys al) -> sym_ok A k x) /\ (length al < 2048)%nat.

Lemma frel_end k al x : frel k al x [] -> sle_eof (fst x) (snd x) = true.
Proof.
  intros (pend & bits & E & HR & HL). apply lrel_end in HL. destruct HL as [-> ->].
  rewrite E. cbn [sle_eof dst sd_rest]. apply (bisR_eof _ []); auto.
Qed.
Lemma frel_step (A : N -> Prop) k al x v r cs : (forall c, A c -> c < 256) -> (1 <= k <= 7)%nat -> al_ok A k al -> frel k al x ((v, r) :: cs) ->
  sle_eof (fst x) (snd x) = false /\
  exists dv d s, sle_dec bis_read_bit k r (fst x) (snd x) = Some (dv, d, s) /\ (scall_ex (v, r) -> dv = v) /\ frel k al (d, s) cs.
Proof.
  intros HA Hk (A1 & A2 & A3) (pend & bits & E & HR & HL). destruct x as [d s]. cbn [fst snd] in *. subst d.
  destruct (lrel_step A k al) with (pend := pend) (bits := bits) (v := v) (r := r) (all := cs) as (Hne & dv & pend' & bits' & Ed & Hex & HL'); auto.
  split.
  - unfold sle_eof. cbn [dst sd_rest]. destruct pend; [|reflexivity]. rewrite (bisR_eofb _ _ HR).
    destruct bits; [exfalso; apply Hne; auto|reflexivity].
  - pose proof (sle_dec_sim _ _ _ bis_sim k r (dst al pend) _ _ HR) as G. rewrite Ed in G.
    destruct (sle_dec bis_read_bit k r (dst al pend) s) as [[[v' d'] s']|]; [|contradiction].
    destruct G as [G1 G2]; cbn in G1, G2. injection G1 as -> ->. exists dv, (dst al pend'), s'. split; auto. split; auto.
    exists pend', bits'. auto.
Qed.
Lemma known_calls al lits cs : (forall x, In x lits -> In x (keys al)) -> Forall scall_loose cs ->
  incl (slits cs) lits -> Forall (call_known al) cs.
Proof.
  intros H Hl Hi. rewrite Forall_forall in *. intros [v r] Hin Hr. cbn [snd] in Hr. subst r. cbn [fst]. split.
  - apply (Hl _ Hin).
  - apply H, Hi. unfold slits, lits_of. apply in_flat_map. exists (v, RLit). split; [|left; auto].
    apply in_map_iff. exists (v, SR RLit). auto.
Qed.
Lemma sle_file_ok k ub lits cs : (1 <= k <= 7)%nat -> Forall (fun l => fst l < 256) lits -> Forall scall_loose cs ->
  exists f s al, sle_file k ub lits cs = Some f /\ sle_open bis_read_bit (bis_open f) = Some (dst al [], s) /\
    al_ok (fun c => In c (map fst lits)) k al /\
    (incl (slits cs) (map fst lits) -> frel k al (dst al [], s) cs).
Proof.
  intros Hk Hl Hc. set (A := fun c => In c (map fst lits)).
  assert (HA : forall c, A c -> c < 256).
  { intros c H. apply in_map_iff in H. destruct H as ([c' p] & <- & H). rewrite Forall_forall in Hl. apply (Hl _ H). }
  destruct (sle_alphabet_ok A HA k ub lits Hk) as (al & Ea & A1 & A2 & A3 & A4).
  { apply Forall_forall. intros l H. apply in_map. auto. }
  unfold sle_file, sle_bits. rewrite Ea. cbn [obind].
  destruct (header_ok A k al) as (h & Eh & Gh); auto. rewrite Eh. cbn [obind].
  destruct (enc_total A k al) with (cs := cs) (buf := @nil N) as (bs & Eb); auto; [cbn; lia|].
  rewrite Eb. cbn [obind].
  pose proof (sle_open_sim _ _ _ bis_sim _ _ (bisR_file (h ++ bs))) as G. rewrite Gh in G.
  destruct (sle_open bis_read_bit (bis_open (bits_file (h ++ bs)))) as [[d s]|] eqn:E4; [|contradiction].
  destruct G as [G1 G2]; cbn in G1, G2. subst d.
  exists (bits_file (h ++ bs)), s, al. split; auto. split; auto. split; [split; auto|].
  intros Hi. pose proof (known_calls al _ cs A3 Hc Hi) as Hkn.
  exists [], bs. split; auto. split; auto. exists [], cs. split; [reflexivity|]. split; [split; [cbn; lia|constructor]|]. auto.
Qed.
Lemma frel_read (A : N -> Prop) k al : (forall c, A c -> c < 256) -> (1 <= k <= 7)%nat -> al_ok A k al -> forall cs d s,
  Forall scall_ex cs -> frel k al (d, s) cs -> sle_read k (map snd cs) d s = Some (map fst cs).
Proof.
  intros HA Hk Hal. induction cs as [|[v r] cs IH]; intros d s Hx HR; cbn [map sle_read fst snd].
  - apply frel_end in HR. cbn [fst snd] in HR. rewrite HR. reflexivity.
  - inversion Hx as [|? ? X1 X2]; subst.
    destruct (frel_step A k al (d, s) v r cs HA Hk Hal HR) as (E1 & dv & d' & s' & E2 & E3 & HR'). cbn [fst snd] in *.
    rewrite E1, E2. cbn [obind]. rewrite (IH _ _ X2 HR'). cbn [obind]. rewrite E3; auto.
Qed.
Lemma read_announced (A : N -> Prop) k al : (forall c, A c -> c < 256) -> (1 <= k <= 7)%nat -> al_ok A k al -> forall rs pend s vs,
  Forall A pend -> sle_read k rs (dst al pend) s = Some vs ->
  length vs = length rs /\ forall v, In (v, SR RLit) (combine vs rs) -> A v.
Proof.
  intros HA Hk (A1 & A2 & A3). induction rs as [|r rs IH]; intros pend s vs Hp E; cbn [sle_read] in E.
  - destruct (sle_eof _ _); [|discriminate]. apply Some_inj in E. subst vs. split; auto. intros v [].
  - destruct (sle_eof _ _); [discriminate|].
    destruct (sle_dec bis_read_bit k r (dst al pend) s) as [[[v d] s']|] eqn:Ed; [|discriminate]. cbn [obind] in E.
    destruct (dec_announced A k al) with (rb := bis_read_bit) (r := r) (pend := pend) (s := s) (v := v) (d := d) (s' := s') as (Hv & pend' & -> & Hp'); auto.
    destruct (sle_read k rs (dst al pend') s') as [vs'|] eqn:Er; [|discriminate]. cbn [obind] in E. apply Some_inj in E. subst vs.
    destruct (IH _ _ _ Hp' Er) as [L1 L2]. cbn [length combine In]. split; [lia|].
    intros w [Hw|Hw]; [|auto]. injection Hw as -> ->. auto.
Qed.
