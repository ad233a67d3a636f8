(** Coder correctness for call sequences that may contain out-of-range values
    (tudocomp makes such calls: e.g. LZSSCoding.hpp:50 encodes
    shortest_factor() = INDEX_MAX in Range(n) when there are no factors). *)
From Verif Require Import Base BitIO BitIOProofs IntCodes IntCodesProofs Coders CodersProofs.
Local Open Scope N_scope.

(** calls that do not crash: literals and bits in range, integers not below the minimum *)
Definition call_loose (c : call) : Prop :=
  match c with
  | (v, RInt mn mx) => mn <= v /\ v < 2 ^ 64 /\ mx < 2 ^ 64
  | (v, RLit) => v < 256
  | (v, RBit) => v < 2
  end.
(** [ex]: the calls whose value is decoded exactly; the others keep the decoder in
    step but may yield any value. *)
Definition decodes_ex (c : coder) (ex : call -> Prop) (R : c_st c -> list call -> Prop) : Prop :=
  (forall s, R s [] -> c_eof c s = true) /\
  (forall s v r rest, R s ((v, r) :: rest) ->
     c_eof c s = false /\ exists dv s', c_dec c r s = Some (dv, s') /\ (ex (v, r) -> dv = v) /\ R s' rest).
(** [P]: what is demanded of the literals, announced in order at construction *)
Definition coder_loose (P : list N -> Prop) (ex : call -> Prop) (c : coder) : Prop :=
  forall cs, Forall call_loose cs -> P (lits_of cs) ->
  exists f s R, c_enc c (lits_of cs) cs = Some f /\ c_open c f = Some s /\ decodes_ex c ex R /\ R s cs.

(** The exact calls of the simple coders: the Bit coder keeps the low
    bits_for(max - min) bits, all others ignore the range. *)
Definition simple_ex (k : coder_kind) (c : call) : Prop :=
  match k, c with
  | BitC, (v, RInt mn mx) => mn <= mx /\ v - mn < 2 ^ bits_for (mx - mn)
  | _, _ => True
  end.

Lemma call_ok_simple_ex k c : call_ok c -> simple_ex k c.
Proof.
  destruct c as [v r], k, r as [mn mx| |]; cbn; auto. intros [H1 H2]. split; [lia|].
  pose proof (bits_for_bound (mx - mn)). lia.
Qed.
Lemma call_ok_loose c : call_ok c -> call_loose c.
Proof. destruct c as [v []]; cbn; auto. intros [? ?]; rewrite pow64 in *; lia. Qed.

Lemma ck_eq (a b : coder_kind) : {a = b} + {a <> b}.
Proof. decide equality. Qed.
Lemma enc_dec_loose k v r : call_loose (v, r) ->
  exists b, enc_call k (v, r) = Some b /\ b <> [] /\
    exists dv, (simple_ex k (v, r) -> dv = v) /\
    forall rest, dec_call lrb dfuel k r (b ++ rest) = Some (dv, rest).
Proof.
  intros H. destruct r as [mn mx| |].
  - destruct H as (H1 & H2 & H3). destruct (ck_eq k BitC) as [->|Hk].
    + cbn [enc_call dec_call].
      set (w := bits_forn (w64 (mx + 2 ^ 64 - mn))).
      assert (Hw : (0 < w <= 64)%nat).
      { unfold w, bits_forn. pose proof (bits_for_pos (w64 (mx + 2 ^ 64 - mn))).
        assert (w64 (mx + 2 ^ 64 - mn) < 2 ^ 64) by (apply N.mod_lt; rewrite pow64; lia).
        pose proof (bits_for_le64 _ H0). lia. }
      eexists. split; [reflexivity|]. split.
      { destruct w; [lia|]. discriminate. }
      exists (w64 (mn + (w64 (v + 2 ^ 64 - mn)) mod 2 ^ N.of_nat w)). split.
      * cbn [simple_ex]. intros [E1 E2]. rewrite w64_sub by lia.
        unfold w, bits_forn. rewrite N2Nat.id. rewrite w64_sub by lia. rewrite N.mod_small by auto.
        rewrite w64_small; lia.
      * intros rest. rewrite rd_int_ok by lia. reflexivity.
    + destruct (enc_dec_call k v (RInt 0 v)) as (b & E1 & E2 & E3).
      { apply call_ok_kcall. cbn. rewrite pow64 in *. lia. }
      destruct k; try congruence; cbn [enc_call dec_call call_val] in *;
        (eexists; split; [exact E1|]; split; [exact E2|]; exists v; split; [auto|exact E3]).
  - destruct (enc_dec_call k v RLit) as (b & E1 & E2 & E3); [apply call_ok_kcall; auto|].
    exists b. split; auto. split; auto. exists v. split; auto. intros rest. rewrite E3.
    rewrite call_ok_val by auto. reflexivity.
  - destruct (enc_dec_call k v RBit) as (b & E1 & E2 & E3); [apply call_ok_kcall; auto|].
    exists b. split; auto. split; auto. exists v. split; auto.
Qed.

Lemma enc_calls_loose k cs : Forall call_loose cs -> exists bs, enc_calls k cs = Some bs.
Proof.
  induction 1 as [|[v r] cs H Hc [bs IH]]; cbn [enc_calls]; eauto.
  destruct (enc_dec_loose k v r H) as (b & -> & _). rewrite IH. eauto.
Qed.
Definition loose_rel (k : coder_kind) (s : bis) (cs : list call) : Prop :=
  Forall call_loose cs /\ exists bs, enc_calls k cs = Some bs /\ bisR s bs.
Lemma loose_decodes k : decodes_ex (simple_coder k) (simple_ex k) (loose_rel k).
Proof.
  split; cbn [c_eof c_dec simple_coder c_st].
  - intros s (Hc & bs & E & HR). cbn in E. apply Some_inj in E; subst bs. apply (bisR_eof s []); auto.
  - intros s v r rest (Hc & bs & E & HR). inversion Hc as [|? ? H1 H2]; subst.
    cbn [enc_calls] in E. destruct (enc_dec_loose k v r H1) as (b & Eb & Hne & dv & Hex & Hdec).
    rewrite Eb in E. destruct (enc_calls k rest) as [bs'|] eqn:Er; [|discriminate].
    apply Some_inj in E; subst bs. split.
    + rewrite (bisR_eofb _ _ HR). destruct b; [congruence|reflexivity].
    + pose proof (dec_call_sim _ _ _ bis_sim dfuel k r _ _ HR) as G. rewrite Hdec in G.
      destruct (dec_call bis_read_bit dfuel k r s) as [[v' s']|]; [|contradiction].
      destruct G as [G1 G2]; cbn in G1, G2; subst. exists dv, s'; split; auto.
      split; auto. split; auto. exists bs'; auto.
Qed.
Lemma simple_coder_loose k : coder_loose (fun _ => True) (simple_ex k) (simple_coder k).
Proof.
  intros cs Hc _. destruct (enc_calls_loose k cs Hc) as (bs & E).
  exists (bits_file bs), (bis_open (bits_file bs)), (loose_rel k).
  cbn [simple_coder c_enc c_open]. unfold enc_file. rewrite E.
  split; [reflexivity|]. split; [reflexivity|]. split; [apply loose_decodes|].
  split; auto. exists bs. split; auto. apply bisR_file.
Qed.
