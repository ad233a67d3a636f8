(** The 256 root nodes CedarTrie makes for LZW, and LZW with the Cedar trie on a whole
    text. *)
From Coq Require Import ZArith List Lia.
From Verif Require Import Base Coders LZ LZProofs Cedar CedarRing CedarAlloc CedarTree CedarMove CedarStep CedarLoop CedarUpdate CedarLzw.
Import ListNotations.
Local Open Scope Z_scope.

Lemma init_okay : okay (fun _ _ => None) c_init.
Proof.
  eexists _, _. split; [apply init_alloc|].
  assert (NU : forall t, used c_init t -> False).
  { intros t (H & I). revert H I. unfold c_init. cbn [ac c_size]. intros H I.
    destruct (t =? 0) eqn:E0; [lia|]. destruct ((1 <=? t) && (t <? 256)) eqn:E; [|lia].
    destruct (t =? 255); lia. }
  constructor.
  - cbn. lia.
  - reflexivity.
  - discriminate.
  - intros t U. destruct (NU t U).
  - discriminate.
  - discriminate.
  - intros p _ [->|(q & l & _ & H)] H0; [|discriminate]. exists []. split; [|reflexivity].
    split; [repeat constructor|]. intros l. split; [intros []|]. intros [_ H]. congruence.
  - intros p [->|(q & l & _ & H)] P; [congruence|discriminate].
Qed.

Lemma upd_lev ch d q l v : okay ch d -> (q = 0 \/ ch 0 q = Some q /\ 0 < q < 256 /\ ch q 0 <> None) -> ch q l = None -> 0 < l < 256 ->
  let '(n, d') := update1 q l v d in
  exists ch', okay ch' d' /\ ch' q l = Some n /\ (q = 0 -> n = l) /\
    (forall k, k <> 0 -> ch' n k = None) /\ (exists t, ch' n 0 = Some t /\ ab d' t = v) /\
    (forall c t, ch 0 c = Some t -> t = c /\ ch' 0 c = Some c) /\
    (forall c, ch 0 c = None -> ch' 0 c = None \/ q = 0 /\ c = l) /\
    (forall c l', 0 < c < 256 -> ch 0 c = Some c -> ch c l' = None -> ch' c l' = None \/ c = q /\ l' = l) /\
    (forall c t, 0 < c < 256 -> ch 0 c = Some c -> ch c 0 = Some t -> exists t', ch' c 0 = Some t' /\ ab d' t' = ab d t).
Proof.
  intros K Q N Hl.
  assert (Iq : inner ch q) by (destruct Q as [->|(Q & ? & ?)]; [left; auto|right; exists 0, q; split; [lia|auto]]).
  pose proof (update_ok ch d q l v K ltac:(destruct Q as [->|(_ & _ & ?)]; [congruence|auto]) Iq N Hl) as U.
  destruct (update1 q l v d) as [n d'].
  destruct U as (ch' & s & OK & FT & (X1 & _ & X3 & X4 & X5 & X6) & NK & t0 & V1 & V2).
  exists ch'.
  assert (S1 : forall c t, ch 0 c = Some t -> t = c /\ ch' 0 c = Some c /\ s c = c).
  { intros c t E. pose proof (slot0 _ _ _ _ K E). subst t. pose proof (X1 0 (or_introl eq_refl) c) as Y.
    rewrite E, X3 in Y. pose proof (slot0 _ _ _ _ OK Y). rewrite H in Y. auto. }
  assert (Sq : s q = q) by (destruct Q as [->|(Q & _)]; [auto|apply (S1 _ _ Q)]).
  rewrite Sq in X6.
  split; auto. split; auto. split; [intros ->; apply (slot0 _ _ _ _ OK X6)|]. split; auto. split; [exists t0; auto|].
  split; [intros c t E; destruct (S1 c t E); tauto|]. split; [|split].
  - intros c E. pose proof (X1 0 (or_introl eq_refl) c) as Y. rewrite E, X3 in Y.
    destruct Y as [Y|(_ & Y & ->)]; auto. right. rewrite Sq in Y. auto.
  - intros c l' Hc E E'. assert (I : inner ch c) by (right; exists 0, c; split; [lia|auto]).
    pose proof (X1 c I l') as Y. rewrite E' in Y. destruct (S1 _ _ E) as (_ & _ & Sc). rewrite Sc in Y.
    destruct Y as [Y|(_ & Y & ->)]; auto. right. rewrite Sq in Y. auto.
  - intros c t Hc E E'. assert (I : inner ch c) by (right; exists 0, c; split; [lia|auto]).
    pose proof (X1 c I 0) as Y. rewrite E' in Y. destruct (S1 _ _ E) as (_ & _ & Sc). rewrite Sc in Y.
    exists (s t). split; auto. apply (X5 _ _ E').
Qed.

(** After the roots 0 .. k-1, 1 <= k <= 255. *)
Record lev (ch : kids) (t : ctrie) (k : Z) : Prop := {
  lv_ok : okay ch (t_arr t);
  lv_ids : t_ids t = k;
  lv_esc : ch 0 255 = Some 255;
  lv_val : exists t0, ch 255 0 = Some t0 /\ ab (t_arr t) t0 = -3;
  lv_255 : k < 256 -> ch 255 255 = None;
  lv_old : forall c, 0 < c < 255 -> c < k -> ch 0 c = Some c /\ ch c 0 <> None /\ (forall l, l <> 0 -> ch c l = None) /\ t_roots t c = c;
  lv_new : forall c, 0 < c < 255 -> k <= c -> ch 0 c = None }.

Lemma lev_one : exists ch t, cedar_add_root 0 (mk_ctrie c_init 0 (fun _ => 0)) = Some t /\ lev ch t 1.
Proof.
  unfold cedar_add_root. cbn [Z.eqb negb andb t_arr]. unfold ESC, ESC0, HIDDEN.
  pose proof (find1_ok (fun _ _ => None) c_init 0 255 init_okay (or_introl eq_refl) ltac:(congruence) ltac:(lia)) as F.
  rewrite F. cbn [obind].
  pose proof (upd_lev (fun _ _ => None) c_init 0 255 (-3) init_okay (or_introl eq_refl) eq_refl ltac:(lia)) as U.
  destruct (update1 0 255 (-3) c_init) as [p d]. destruct U as (ch & K & E1 & E2 & E3 & (t0 & E4 & E5) & E6 & E7 & E8 & E9).
  specialize (E2 eq_refl). subst p.
  pose proof (upd_lev ch d 255 254 0 K ltac:(right; split; [auto|split; [lia|congruence]]) (E3 254 ltac:(lia)) ltac:(lia)) as U.
  destruct (update1 255 254 0 d) as [p d']. destruct U as (ch' & K' & G1 & G2 & G3 & G4 & G6 & G7 & G8 & G9).
  eexists ch', _. split; [reflexivity|]. constructor; cbn [t_arr t_ids t_roots].
  - exact K'.
  - reflexivity.
  - apply (G6 _ _ E1).
  - destruct (G9 255 t0 ltac:(lia) E1 E4) as (t' & ? & ?). exists t'. split; congruence.
  - intros _. destruct (G8 255 255 ltac:(lia) E1 (E3 255 ltac:(lia))) as [?|[_ ?]]; [auto|lia].
  - intros c Hc Hk. lia.
  - intros c Hc _. destruct (G7 c); [|auto|lia]. destruct (E7 c eq_refl) as [?|[_ ?]]; [auto|lia].
Qed.
Lemma lev_step ch t k : 0 < k < 255 -> lev ch t k -> exists ch' t', cedar_add_root k t = Some t' /\ lev ch' t' (k + 1).
Proof.
  intros Hk [OK ID E V N O W]. unfold cedar_add_root, ESC. replace (k =? 0) with false by lia. replace (k =? 255) with false by lia.
  cbn [negb andb]. pose proof (upd_lev ch (t_arr t) 0 k k OK (or_introl eq_refl) (W k ltac:(lia) ltac:(lia)) ltac:(lia)) as U.
  destruct (update1 0 k k (t_arr t)) as [p d]. destruct U as (ch' & K & E1 & E2 & E3 & (t0 & E4 & E5) & E6 & E7 & E8 & E9).
  specialize (E2 eq_refl). subst p. eexists ch', _. split; [reflexivity|]. constructor; cbn [t_arr t_ids t_roots].
  - exact K.
  - lia.
  - apply (E6 _ _ E).
  - destruct V as (t1 & V1 & V2). destruct (E9 255 t1 ltac:(lia) E V1) as (t' & ? & ?). exists t'. split; congruence.
  - intros _. destruct (E8 255 255 ltac:(lia) E (N ltac:(lia))) as [?|[? _]]; [auto|lia].
  - intros c Hc Hck. unfold fu. destruct (Z.eqb_spec c k) as [->|Nk].
    + split; [auto|]. split; [congruence|]. auto.
    + destruct (O c Hc ltac:(lia)) as (O1 & O2 & O3 & O4). split; [apply (E6 _ _ O1)|]. split; [|split; auto].
      * destruct (ch c 0) as [t1|] eqn:Ec; [|congruence]. destruct (E9 c t1 ltac:(lia) O1 Ec) as (t' & ? & _). congruence.
      * intros l Hl. destruct (E8 c l ltac:(lia) O1 (O3 l Hl)) as [?|[? _]]; [auto|lia].
  - intros c Hc Hck. destruct (E7 c (W c Hc ltac:(lia))) as [?|[_ ?]]; [auto|lia].
Qed.
Lemma lev_last ch t : lev ch t 255 -> exists ch' t', cedar_add_root 255 t = Some t' /\ lev ch' t' 256.
Proof.
  intros [OK ID E V N O W]. unfold cedar_add_root, ESC. cbn [Z.eqb Pos.eqb negb andb].
  destruct V as (t1 & V1 & V2).
  pose proof (find1_ok ch (t_arr t) 0 255 OK (or_introl eq_refl) ltac:(congruence) ltac:(lia)) as F. rewrite E in F.
  rewrite (F t1 V1), V2. cbn [obind Z.eqb Pos.eqb orb].
  pose proof (upd_lev ch (t_arr t) 255 255 255 OK ltac:(right; split; [auto|split; [lia|congruence]]) (N ltac:(lia)) ltac:(lia)) as U.
  destruct (update1 255 255 255 (t_arr t)) as [p d]. destruct U as (ch' & K & E1 & E2 & E3 & (t0 & E4 & E5) & E6 & E7 & E8 & E9).
  eexists ch', _. split; [reflexivity|]. constructor; cbn [t_arr t_ids t_roots].
  - exact K.
  - lia.
  - apply (E6 _ _ E).
  - destruct (E9 255 t1 ltac:(lia) E V1) as (t' & ? & ?). exists t'. split; congruence.
  - lia.
  - intros c Hc _. unfold fu. replace (c =? 255) with false by lia. destruct (O c Hc ltac:(lia)) as (O1 & O2 & O3 & O4).
    split; [apply (E6 _ _ O1)|]. split; [|split; auto].
    + destruct (ch c 0) as [t2|] eqn:Ec; [|congruence]. destruct (E9 c t2 ltac:(lia) O1 Ec) as (t' & ? & _). congruence.
    + intros l Hl. destruct (E8 c l ltac:(lia) O1 (O3 l Hl)) as [?|[? _]]; [auto|lia].
  - intros c Hc Hck. lia.
Qed.

Lemma cedar_init_S k : cedar_init (S k) = obind (cedar_init k) (cedar_add_root (Z.of_nat k)).
Proof. unfold cedar_init. rewrite seq_S, fold_left_app. reflexivity. Qed.
Lemma lev_upto k : (k < 255)%nat -> exists ch t, cedar_init (S k) = Some t /\ lev ch t (Z.of_nat (S k)).
Proof.
  induction k as [|k IH]; intros Hk.
  - destruct lev_one as (ch & t & E & L). exists ch, t. split; [exact E|exact L].
  - destruct IH as (ch & t & E & L); [lia|]. rewrite cedar_init_S, E.
    destruct (lev_step ch t (Z.of_nat (S k)) ltac:(lia) L) as (ch' & t' & E' & L'). exists ch', t'. split; [exact E'|].
    replace (Z.of_nat (S (S k))) with (Z.of_nat (S k) + 1) by lia. exact L'.
Qed.
Lemma cedar_init_ok : exists ch t, cedar_init 256 = Some t /\ crel ch Z.of_N t [].
Proof.
  destruct (lev_upto 254 ltac:(lia)) as (ch & t & E & L).
  change (Z.of_nat 255) with 255 in L. destruct (lev_last ch t L) as (ch' & t' & E' & L').
  exists ch', t'. split; [rewrite (cedar_init_S 255), E; exact E'|].
  destruct L' as [OK ID EE V N O W].
  assert (G : forall i, gid [] i -> (0 < i < 255)%N) by (intros i; unfold gid; cbn; lia).
  constructor.
  - auto.
  - cbn. lia.
  - intros c Hc. destruct (O (Z.of_N c) ltac:(lia) ltac:(lia)) as (O1 & _ & _ & O4). auto.
  - intros i Gi. specialize (G i Gi). destruct (O (Z.of_N i) ltac:(lia) ltac:(lia)) as (O1 & O2 & _ & _).
    split; [right; exists 0, (Z.of_N i); split; [lia|auto]|]. split; [lia|auto].
  - intros i j _ _. lia.
  - intros p c [].
  - intros p c Gp Hc. specialize (G p Gp). destruct (O (Z.of_N p) ltac:(lia) ltac:(lia)) as (_ & _ & O3 & _).
    rewrite O3 by lia. reflexivity.
  - intros k Hk. cbn in Hk. lia.
Qed.

Lemma clzw_calls_ok text : cletters text -> (N.of_nat (length text) + 258 < 2 ^ 32)%N ->
  clzw_calls text = lzw_calls spec_trie 0 text.
Proof.
  intros L Hl. unfold clzw_calls, lzw_calls. destruct cedar_init_ok as (ch & t & -> & R). cbn [obind].
  destruct text as [|c text]; [reflexivity|]. inversion L as [|? ? Lc L']; subst. cbn [length] in Hl.
  destruct (cr_root _ _ _ _ R c Lc) as (Y1 & _). unfold cedar_root. rewrite Y1.
  pose proof (clzw_loop_ok text ch Z.of_N t [] c 0%N R (or_introl Lc) L' ltac:(cbn; lia)) as K. rewrite K. reflexivity.
Qed.
Lemma clzw_pf c text : coder_ok c -> cletters text -> (N.of_nat (length text) + 258 < 2 ^ 32)%N ->
  exists f, clzw_compress c text = Some f /\
    forall fuel, (length text <= fuel)%nat -> lzw_decompress c 0 fuel f = Some text.
Proof.
  intros Hc L Hl.
  assert (Hb : bytes_ok text) by (revert L; apply Forall_impl; intros x Hx; unfold byte_ok; lia).
  destruct (lzw_pf (2 ^ 32) spec_trie c text) as (f & E & D); auto using spec_trie_ok; try lia.
  exists f. split; [|exact D]. clear D. unfold clzw_compress. rewrite clzw_calls_ok by auto. exact E.
Qed.
