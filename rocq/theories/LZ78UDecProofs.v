(** Proofs about LZ78U: decoding. *)
From Verif Require Import Base BitIO BitIOProofs IntCodes IntCodesProofs Coders CodersProofs BitCoders Lfs LfsSpec LfsProofs LZ78U LZ78UProofs.
Local Open Scope nat_scope.

Section Dec.
  Context (cr cs : bcoder) (body lits : list N).
  Context (sr : bc_st cr) (dr : bc_dst cr) (ss : bc_st cs) (ds : bc_dst cs).
  Context (HR : deco cr sr dr []) (HS : deco cs ss ds lits) (Hb : bytes_ok lits).

  Lemma read_bit_ok s b rest : bisR s (b :: rest) -> exists s', bis_read_bit s = (b, s') /\ bisR s' rest.
  Proof. intros H. destruct (bis_sim s _ H) as (H1 & H2). cbn in H1, H2. destruct (bis_read_bit s) as [b' s']. cbn in *. subst. eauto. Qed.

  (** one call of the coders *)
  Lemma ref_ok v mx : (v <= mx)%N -> (mx < 2 ^ 32)%N -> exists b, bc_enc cr sr (v, RInt 0 mx) = Some b /\ b <> [] /\
    forall s rest, bisR s (b ++ rest) -> exists s', bc_dec cr (RInt 0 mx) dr s = Some (v, s') /\ bisR s' rest.
  Proof. intros H1 H2. apply HR; [cbn; rewrite pow64; lia|discriminate]. Qed.
  Lemma chr_ok c : In c lits -> exists b, bc_enc cs ss (c, RLit) = Some b /\ b <> [] /\
    forall s rest, bisR s (b ++ rest) -> exists s', bc_dec cs RLit ds s = Some (c, s') /\ bisR s' rest.
  Proof.
    intros Hc. apply HS; auto. cbn. unfold bytes_ok in Hb. rewrite Forall_forall in Hb. apply Hb; auto.
  Qed.
  Lemma lit_w8 c : In c lits -> w8 c = c.
  Proof. intros Hc. unfold bytes_ok in Hb. rewrite Forall_forall in Hb. apply N.mod_small, Hb, Hc. Qed.

  (** ** references *)
  Definition ent_ok (es : entries) (fulls : list (list N)) : Prop :=
    length es = length fulls /\ (N.of_nat (length es) < 2 ^ 32)%N /\
    forall k r lab, nth_error es k = Some (r, lab) -> (r <= N.of_nat k)%N /\ nth_error fulls k = Some (full fulls r ++ lab).
  Lemma expand_ok es fulls : ent_ok es fulls -> forall fuel i acc, (i <= N.of_nat (length es))%N -> N.to_nat i <= fuel ->
    expand fuel es i acc = Some (full fulls i ++ acc).
  Proof.
    intros (L1 & L2 & He). induction fuel as [|fuel IH]; intros i acc Hi Hf; cbn [expand].
    - unfold full. destruct (N.eqb_spec i 0); [reflexivity|lia].
    - unfold full at 1. destruct (N.eqb_spec i 0) as [E|E]; [reflexivity|].
      unfold entry_at. rewrite w32_small by lia. destruct (N.eqb_spec i 0) as [|_]; [lia|].
      destruct (nth_error es (N.to_nat (i - 1))) as [[r lab]|] eqn:N1; [|apply nth_error_None in N1; lia]. cbn [obind].
      destruct (He _ _ _ N1) as (H1 & H2). rewrite IH by lia. f_equal. rewrite app_assoc. f_equal.
      symmetry. apply nth_error_nth. auto.
  Qed.
  Lemma ent_app es fulls r lab : ent_ok es fulls -> (r <= N.of_nat (length es))%N -> (N.of_nat (length es) + 1 < 2 ^ 32)%N ->
    ent_ok (es ++ [(r, lab)]) (fulls ++ [full fulls r ++ lab]).
  Proof.
    intros (L1 & L2 & He) Hr Hl. split; [rewrite !app_length; cbn; lia|]. split; [rewrite app_length; cbn; lia|].
    assert (F : forall i, (i <= N.of_nat (length es))%N -> full (fulls ++ [full fulls r ++ lab]) i = full fulls i).
    { intros i Hi. unfold full at 1 3. destruct (N.eqb_spec i 0); auto. apply app_nth1. lia. }
    intros k r' lab' N1. destruct (Nat.lt_ge_cases k (length es)) as [L|L].
    - rewrite nth_error_app1 in N1 by auto. destruct (He _ _ _ N1) as (H1 & H2). split; auto.
      rewrite F by lia. rewrite nth_error_app1 by lia. auto.
    - rewrite nth_error_app2 in N1 by auto. destruct (k - length es) as [|m] eqn:Ek; [|destruct m; discriminate].
      injection N1 as <- <-. assert (k = length es) by lia. subst k. split; [lia|]. rewrite F by lia.
      rewrite nth_error_app2 by lia. rewrite L1, Nat.sub_diag. reflexivity.
  Qed.

  (** ** the label of a factor *)
  Lemma last_zero l : Forall (fun c => c <> 0%N) l -> (0 <? length l) && (last l 1%N =? 0)%N = false.
  Proof.
    intros H. destruct l as [|x l]; [reflexivity|]. cbn [length]. change (0 <? S (length l)) with true. cbn [andb].
    apply N.eqb_neq. rewrite Forall_forall in H. apply H.
    rewrite (app_removelast_last 1%N (l := x :: l)) at 2 by discriminate. apply in_or_app. right. left. auto.
  Qed.
  Lemma chars_cons e es : ev_chars (e :: es) = (match e with EChr c => [c] | _ => [] end) ++ ev_chars es.
  Proof. reflexivity. Qed.
  Lemma dec_label_ok es fulls : ent_ok es fulls -> forall k buf lab evs, subs body fulls k buf lab evs ->
    Forall (fun c => c <> 0%N) buf -> incl (ev_chars evs) lits ->
    exists b, enc_evs cr cs sr ss evs = Some b /\ forall fuel s rest, k <= fuel -> bisR s (b ++ rest) ->
      exists s', dec_label cr cs fuel dr ds es (N.of_nat (length es)) buf s = Some (lab, s') /\ bisR s' rest.
  Proof.
    intros He k buf lab evs H. pose proof He as (L1 & L2 & _). rewrite L1.
    induction H as [k lab|k buf lab c es' Hc Hin Hs IH|k buf lab r w es' Hr Hn Hw Hs IH|k buf lab cut es' Hc Hm Hs IH]; intros Hz Hi.
    - destruct (chr_ok 0%N) as (b & B1 & _ & B3). { apply Hi. left. auto. }
      cbn [enc_evs enc_ev obind]. rewrite B1. cbn [obind]. rewrite app_nil_r. eexists. split; [reflexivity|].
      intros [|fuel] s rest Hf G; [lia|]. cbn [dec_label]. destruct (read_bit_ok _ _ _ G) as (s1 & -> & G1).
      destruct (B3 _ _ G1) as (s2 & -> & G2). cbn [obind]. change (w8 0) with 0%N.
      rewrite app_length. cbn [length]. replace (0 <? length lab + 1) with true by lia. rewrite last_last. cbn [andb].
      change (0 =? 0)%N with true. rewrite removelast_last. eauto.
    - rewrite !chars_cons in Hi. cbn [app] in Hi.
      destruct (chr_ok c) as (b & B1 & _ & B3). { apply Hi. left. auto. }
      destruct IH as (b' & E1 & E2). { apply Forall_app. split; auto. } { intros x Hx. apply Hi. right. auto. }
      cbn [enc_evs enc_ev obind]. rewrite B1. cbn [obind]. rewrite E1. cbn [obind]. eexists. split; [reflexivity|].
      intros [|fuel] s rest Hf G; [lia|]. cbn [dec_label]. rewrite <- !app_assoc in G. destruct (read_bit_ok _ _ _ G) as (s1 & -> & G1).
      destruct (B3 _ _ G1) as (s2 & -> & G2). cbn [obind]. rewrite lit_w8 by (apply Hi; left; auto).
      rewrite last_zero by (apply Forall_app; split; auto). apply E2; auto. lia.
    - rewrite !chars_cons in Hi. cbn [app] in Hi.
      assert (Lr : N.to_nat (r - 1) < length fulls) by (apply nth_error_Some; congruence).
      destruct (ref_ok r (N.of_nat (length fulls))) as (b & B1 & _ & B3); [lia|lia|].
      destruct IH as (b' & E1 & E2); auto. { apply Forall_app. split; auto. }
      cbn [enc_evs enc_ev obind]. rewrite B1. cbn [obind]. rewrite E1. cbn [obind]. eexists. split; [reflexivity|].
      intros [|fuel] s rest Hf G; [lia|]. cbn [dec_label]. rewrite <- !app_assoc in G. destruct (read_bit_ok _ _ _ G) as (s1 & -> & G1).
      destruct (B3 _ _ G1) as (s2 & -> & G2). cbn [obind]. destruct (N.eqb_spec r 0) as [|_]; [lia|].
      rewrite (expand_ok es fulls He) by lia. cbn [obind]. rewrite app_nil_r. unfold full. destruct (N.eqb_spec r 0) as [|_]; [lia|].
      rewrite (nth_error_nth _ _ [] Hn). rewrite last_zero by (apply Forall_app; split; auto). apply E2; auto. lia.
    - rewrite !chars_cons in Hi. cbn [app] in Hi.
      destruct (ref_ok 0 (N.of_nat (length fulls))) as (b & B1 & _ & B3); [lia|lia|].
      destruct (ref_ok (N.of_nat cut) index_max) as (b2 & C1 & _ & C3); [lia|reflexivity|].
      assert (Hz' : Forall (fun c => c <> 0%N) (firstn (length buf - cut) buf)).
      { rewrite <- (firstn_skipn (length buf - cut) buf) in Hz. apply Forall_app in Hz. tauto. }
      destruct IH as (b' & E1 & E2); auto.
      cbn [enc_evs enc_ev obind]. rewrite B1. cbn [obind]. rewrite C1. cbn [obind]. rewrite E1. cbn [obind]. eexists. split; [reflexivity|].
      intros [|fuel] s rest Hf G; [lia|]. cbn [dec_label]. rewrite <- !app_assoc in G. destruct (read_bit_ok _ _ _ G) as (s1 & -> & G1).
      destruct (B3 _ _ G1) as (s2 & -> & G2). cbn [obind]. change (0 =? 0)%N with true.
      destruct (C3 _ _ G2) as (s3 & -> & G3). cbn [obind].
      replace (N.of_nat (length buf) <? N.of_nat cut)%N with false by lia. cbn [obind]. rewrite Nat2N.id.
      rewrite last_zero by auto. apply E2; auto. lia.
  Qed.
  Lemma dec_str_ok lab : Forall (fun c => c <> 0%N /\ In c body) lab -> incl (ev_chars (ev_str lab)) lits ->
    exists b, enc_evs cr cs sr ss (ev_str lab) = Some b /\ forall fuel s rest, length lab < fuel -> bisR s (b ++ rest) ->
      exists s', dec_str cs fuel ds s = Some (lab, s') /\ bisR s' rest.
  Proof.
    induction lab as [|c lab IH]; intros Hz Hi; cbn [ev_str map app] in *.
    - destruct (chr_ok 0%N) as (b & B1 & _ & B3). { apply Hi. left. auto. }
      cbn [enc_evs enc_ev]. rewrite B1. cbn [obind]. rewrite app_nil_r. eexists. split; [reflexivity|].
      intros [|fuel] s rest Hf G; [cbn in Hf; lia|]. cbn [dec_str]. destruct (B3 _ _ G) as (s2 & -> & G2). cbn [obind].
      change (w8 0 =? 0)%N with true. eauto.
    - inversion Hz as [|? ? [Z1 Z2] Z3]; subst. rewrite chars_cons in Hi. cbn [app] in Hi.
      destruct (chr_ok c) as (b & B1 & _ & B3). { apply Hi. left. auto. }
      destruct IH as (b' & E1 & E2); auto. { intros x Hx. apply Hi. right. auto. }
      unfold ev_str in E1. cbn [enc_evs enc_ev]. rewrite B1. cbn [obind]. rewrite E1. cbn [obind]. eexists. split; [reflexivity|].
      intros [|fuel] s rest Hf G; [lia|]. cbn [dec_str]. rewrite <- app_assoc in G. destruct (B3 _ _ G) as (s2 & -> & G2). cbn [obind].
      rewrite lit_w8 by (apply Hi; left; auto). destruct (N.eqb_spec c 0); [congruence|].
      destruct (E2 fuel s2 rest) as (s3 & -> & G3); [cbn in Hf; lia|auto|]. cbn [obind]. eauto.
  Qed.

  Lemma enc_evs_app a b : enc_evs cr cs sr ss (a ++ b) = (do x <- enc_evs cr cs sr ss a; do y <- enc_evs cr cs sr ss b; Some (x ++ y)).
  Proof.
    induction a as [|e a IH]; cbn [app enc_evs obind]; [destruct (enc_evs cr cs sr ss b); reflexivity|].
    destruct (enc_ev cr cs sr ss e); cbn [obind]; [|reflexivity]. rewrite IH.
    destruct (enc_evs cr cs sr ss a); cbn [obind]; [|reflexivity]. destruct (enc_evs cr cs sr ss b); cbn [obind]; [|reflexivity].
    rewrite app_assoc. reflexivity.
  Qed.
  Lemma chars_app a b : ev_chars (a ++ b) = ev_chars a ++ ev_chars b.
  Proof. apply flat_map_app. Qed.

  Lemma fact_ok es fulls ref lab f : ent_ok es fulls -> fact body fulls ref lab f -> incl (ev_chars f) lits ->
    exists b, enc_evs cr cs sr ss f = Some b /\ b <> [] /\ forall fuel s rest, length lab + 2 <= fuel -> bisR s (b ++ rest) ->
      exists s1 s2 bt s3, bc_dec cr (RInt 0 (N.of_nat (length es))) dr s = Some (ref, s1) /\ bis_read_bit s1 = (bt, s2) /\
        (if bt then dec_str cs fuel ds s2 else dec_label cr cs fuel dr ds es (N.of_nat (length es)) [] s2) = Some (lab, s3) /\ bisR s3 rest.
  Proof.
    intros He (H1 & H2 & H3) Hi. pose proof He as (L1 & L2 & _).
    destruct (ref_ok ref (N.of_nat (length es))) as (b & B1 & B2 & B3); [lia|lia|]. rewrite <- L1 in H3.
    destruct H3 as [->|(s0 & -> & Hs)].
    - destruct (dec_str_ok lab H2) as (b' & E1 & E2); [exact Hi|].
      cbn [enc_evs enc_ev]. rewrite B1. cbn [obind]. rewrite E1. cbn [obind]. eexists. split; [reflexivity|].
      split. { destruct b; [congruence|discriminate]. }
      intros fuel s rest Hf G. rewrite <- !app_assoc in G. destruct (B3 _ _ G) as (s1 & -> & G1).
      cbn [app] in G1. destruct (read_bit_ok _ _ _ G1) as (s2 & R2 & G2).
      destruct (E2 fuel s2 rest) as (s3 & R3 & G3); [lia|auto|]. exists s1, s2, true, s3. auto.
    - destruct (dec_label_ok es fulls He _ _ _ _ Hs (Forall_nil _)) as (b' & E1 & E2); [exact Hi|].
      cbn [enc_evs enc_ev]. rewrite B1. cbn [obind]. rewrite E1. cbn [obind]. eexists. split; [reflexivity|].
      split. { destruct b; [congruence|discriminate]. }
      intros fuel s rest Hf G. rewrite <- !app_assoc in G. destruct (B3 _ _ G) as (s1 & -> & G1).
      cbn [app] in G1. destruct (read_bit_ok _ _ _ G1) as (s2 & R2 & G2).
      destruct (E2 fuel s2 rest) as (s3 & R3 & G3); [lia|auto|]. exists s1, s2, false, s3. auto.
  Qed.

  Lemma facts_ok fulls fs text : facts body fulls fs text -> forall es, ent_ok es fulls ->
    (N.of_nat (length es + length fs) < 2 ^ 32)%N -> incl (ev_chars (concat fs)) lits ->
    exists b, enc_evs cr cs sr ss (concat fs) = Some b /\ forall fuel s, length text + 2 <= fuel -> bisR s b ->
      dec_factors cr cs fuel dr ds es s = Some (text ++ [0%N]).
  Proof.
    induction 1 as [fulls|fulls f fs ref lab rest Hf Hne Hfs IH]; intros es He Hl Hi.
    - exists []. split; [reflexivity|]. intros fuel s Hfu G. destruct fuel; cbn [dec_factors]; rewrite (bisR_eofb _ _ G); reflexivity.
    - cbn [concat] in Hi |- *. rewrite chars_app in Hi. pose proof He as (L1 & L2 & _).
      destruct (fact_ok es fulls ref lab f He Hf) as (b & B1 & B2 & B3). { intros x Hx. apply Hi, in_or_app. auto. }
      pose proof Hf as (F1 & F2 & _). rewrite <- L1 in F1.
      assert (He' : ent_ok (es ++ [(ref, lab)]) (fulls ++ [full fulls ref ++ lab])) by (apply ent_app; auto; cbn [length] in Hl; lia).
      destruct (IH (es ++ [(ref, lab)]) He') as (b' & E1 & E2). { rewrite app_length. cbn [length] in *. lia. } { intros x Hx. apply Hi, in_or_app. auto. }
      rewrite enc_evs_app, B1. cbn [obind]. rewrite E1. cbn [obind]. eexists. split; [reflexivity|].
      intros fuel s Hfu G. rewrite !app_length in Hfu.
      assert (Lw : 1 <= length (full fulls ref ++ lab)) by (destruct (full fulls ref ++ lab); [congruence|cbn; lia]). rewrite app_length in Lw.
      destruct fuel as [|fuel]; [lia|]. cbn [dec_factors]. rewrite (bisR_eofb _ _ G).
      destruct b as [|b0 b]; [congruence|]. cbn [app].
      destruct (B3 (S fuel) s b') as (s1 & s2 & bt & s3 & R1 & R2 & R3 & G3); [lia|auto|].
      rewrite R1. cbn [obind]. rewrite R2. rewrite R3. cbn [obind]. rewrite w32_small by lia.
      assert (X : expand (S (length (es ++ [(ref, lab)]))) (es ++ [(ref, lab)]) ref lab = Some (full fulls ref ++ lab)).
      { rewrite (expand_ok _ _ He') by (rewrite app_length; cbn; lia). f_equal. f_equal.
        unfold full at 1 3. destruct (N.eqb_spec ref 0); auto. apply app_nth1. lia. }
      rewrite X. cbn [obind]. rewrite (E2 fuel s3) by (auto; lia). cbn [obind]. rewrite app_assoc. reflexivity.
  Qed.
End Dec.

Lemma facts_len body fulls fs text : facts body fulls fs text -> length fs <= length text.
Proof.
  induction 1; [cbn; lia|]. rewrite app_length. cbn [length]. destruct (full fulls ref ++ lab); [congruence|]. cbn [length]. lia.
Qed.
Lemma subs_chars body fulls k buf lab es : subs body fulls k buf lab es -> forall c, In c (ev_chars es) -> c = 0%N \/ In c body.
Proof. induction 1; intros x Hx; cbn in Hx; intuition (subst; auto). Qed.
Lemma facts_chars body fulls fs text : facts body fulls fs text -> forall c, In c (ev_chars (concat fs)) -> c = 0%N \/ In c body.
Proof.
  induction 1 as [|? ? ? ? ? ? (_ & H2 & H3) ? ? IH]; intros c Hc; [destruct Hc|]. cbn [concat] in Hc. rewrite chars_app in Hc.
  apply in_app_or in Hc. destruct Hc as [Hc|Hc]; auto.
  destruct H3 as [->|(s & -> & Hs)].
  - cbn in Hc. unfold ev_str in Hc. rewrite chars_app in Hc. apply in_app_or in Hc. destruct Hc as [Hc|Hc].
    + right. rewrite Forall_forall in H2. assert (X : In c lab); [|apply H2; auto].
      clear - Hc. induction lab as [|a lab IH]; cbn in Hc; [contradiction|]. destruct Hc; [left|right]; auto.
    + cbn in Hc. destruct Hc as [<-|[]]. auto.
  - cbn in Hc. eapply subs_chars; eauto.
Qed.
