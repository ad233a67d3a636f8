(** One insertion into the trie (update1 of Cedar.v) and one lookup (find1). *)
From Coq Require Import ZArith List Lia Sorted Permutation.
From Verif Require Import Base Coders LZ Cedar CedarRing CedarAlloc CedarTree CedarMove CedarStep CedarLoop.
Import ListNotations.
Local Open Scope Z_scope.

Definition okay (ch : kids) (d : cedar) : Prop := exists R B, alloc R B d /\ tree ch (-1) (-1) d.

Lemma inner_pos ch x h d q : tree ch x h d -> inner ch q -> 0 <= q.
Proof. intros T I. destruct (inner_node _ _ _ _ _ T I) as [->|[]]; lia. Qed.
Lemma base_big ch d q : tree ch (-1) (-1) d -> inner ch q -> q = 0 \/ ch q 0 <> None ->
  0 <= ab d q /\ (q <> 0 -> 256 <= ab d q /\ ch q 0 = Some (ab d q)) /\ (q = 0 -> ab d q = 0).
Proof.
  intros T I C. pose proof (tr_root _ _ _ _ T) as [_ R0]. pose proof (inner_pos _ _ _ _ _ T I) as P.
  destruct (Z.eq_dec q 0) as [->|Q]; [rewrite R0; split; [lia|split; intros; [congruence|auto]]|].
  destruct C as [C|C]; [congruence|]. destruct (ch q 0) as [t|] eqn:E; [|congruence].
  destruct (tr_slot _ _ _ _ T q 0 t ltac:(lia) E) as [G Et]. rewrite Z.lxor_0_r in Et. subst t.
  split; auto. split; [|congruence]. intros _. split; auto. apply (tr_big _ _ _ _ T q I Q G).
Qed.
Lemma cell_in R B ch d q l : alloc R B d -> tree ch (-1) (-1) d -> inner ch q -> q = 0 \/ ch q 0 <> None ->
  0 <= l < 256 -> (q = 0 -> l <> 0) -> 0 < Z.lxor (ab d q) l < c_size d.
Proof.
  intros A T I C Hl Hq. pose proof (alloc_pos _ _ _ A) as Zp.
  destruct (base_big ch d q T I C) as (G & B1 & B2). destruct (Z.eq_dec q 0) as [Q|Q].
  - rewrite B2 by auto. rewrite Z.lxor_0_l. specialize (Hq Q). lia.
  - destruct (B1 Q) as [B3 B4]. pose proof (tr_ch _ _ _ _ T _ _ _ B4) as ([U _] & _).
    destruct (lxor_blk (ab d q) l G Hl) as [K1 K2].
    assert (Bk : blk d (ab d q / 256)) by (apply (blk_of R B); auto; lia).
    split; [|apply (blk_cell R B d _ _ A Bk K1)].
    assert (256 <= Z.lxor (ab d q) l) by (apply (div256_lt _ (ab d q / 256)); auto; apply Z.div_le_lower_bound; lia). lia.
Qed.
Lemma cell_owner ch d q l : tree ch (-1) (-1) d -> inner ch q -> used d (Z.lxor (ab d q) l) ->
  ac d (Z.lxor (ab d q) l) = q -> ch q l = Some (Z.lxor (ab d q) l).
Proof.
  intros T I U E. pose proof (inner_pos _ _ _ _ _ T I) as P.
  destruct (tr_all _ _ _ _ T _ U) as [l' El]; [destruct U; lia|]. rewrite E in El.
  destruct (tr_slot _ _ _ _ T q l' _ ltac:(lia) El) as [_ K]. apply lxor_inj in K. subst l'. exact El.
Qed.

Lemma alloc_sb R B d f : alloc R B d -> alloc R B (set_sb f d).
Proof. intros A. apply (alloc_ext R B d); auto; try reflexivity. intros s [_ U]; exact U. Qed.
Lemma alloc_cd R B d f : alloc R B d -> alloc R B (set_cd f d).
Proof. intros A. apply (alloc_ext R B d); auto; try reflexivity. intros s [_ U]; exact U. Qed.
Lemma alloc_ab1 R B d x v : alloc R B d -> used d x -> alloc R B (set_ab (fu (ab d) x v) d).
Proof.
  intros A Ux. apply (alloc_ext R B d); auto; try reflexivity.
  - intros s [S1 S2]. split; [|reflexivity]. cbn [ab set_ab]. apply fu_ne. intros ->. destruct Ux; lia.
  - intros s [_ U]; exact U.
Qed.
Lemma tree_attach_sb ch x h d p l SB : tree ch x h d -> used d h -> inner ch p -> p <> h ->
  ch p l = None -> 0 < l < 256 -> (forall k, ch h k = None) -> ac d h = p -> ab d h = -1 ->
  p <> x -> h = Z.lxor (ab d p) l -> 0 <= ab d p -> (p <> 0 -> 256 <= ab d p /\ ch p 0 <> None) ->
  SB = (let q := sib_prev 256 (sb d) (ab d p) 0 l in
           fu (fu (sb d) h (sb d (Z.lxor (ab d p) q))) (Z.lxor (ab d p) q) l) ->
  tree (put ch p l h) x (-1) (set_sb SB d).
Proof.
  intros T U I H1 H2 H3 H4 H5 H6 H7 H8 H9 H10 H11.
  apply (tree_attach ch x h d p l (set_sb SB d)); auto. intros s. apply (tr_cd _ _ _ _ T).
Qed.

(** Following a missing edge with a letter. *)
Definition extended (ln : Z) (fn to fn' : Z) (s : Z -> Z) (ch : kids) (d : cedar) (ch' : kids) (d' : cedar) : Prop :=
  ren True ln fn' s ch ch' /\ fn' = s fn /\ s 0 = 0 /\
  (forall q q', inner ch q -> inner ch q' -> s q = s q' -> q = q') /\
  (forall p q, ch p 0 = Some q -> ab d' (s q) = ab d q) /\
  ch' fn' ln = Some to.

Lemma follow_ok ch d fn ln : okay ch d -> (fn <> 0 -> ch fn 0 <> None) -> inner ch fn -> ch fn ln = None -> 0 < ln < 256 ->
  let '(to, fn', d') := follow fn ln d in
  exists ch' s, okay ch' d' /\ extended ln fn to fn' s ch d ch' d' /\ (forall k, ch' to k = None) /\ ab d' to = -1.
Proof.
  intros (R & B & A & T) F Ifn Cn Hln.
  assert (C0 : fn = 0 \/ ch fn 0 <> None) by (destruct (Z.eq_dec fn 0); auto).
  destruct (base_big ch d fn T Ifn C0) as (G & B1 & B2).
  pose proof (cell_in R B ch d fn ln A T Ifn C0 ltac:(lia) ltac:(lia)) as CI.
  pose proof (inner_pos _ _ _ _ _ T Ifn) as P.
  unfold follow. replace (ab d fn <? 0) with false by lia. cbn [orb].
  destruct (Z.ltb_spec (ac d (Z.lxor (ab d fn) ln)) 0) as [Fr|Us].
  - rewrite pop_enode_eq. replace (ab d fn <? 0) with false by lia.
    remember (Z.lxor (ab d fn) ln) as e eqn:Ee.
    assert (Fe : free d e) by (split; auto).
    destruct (take_ok R B d e ln fn A Fe P) as (R1 & B1' & A0 & E1 & E2 & E3 & E4 & E5 & E6 & E7).
    pose proof (tree_take ch (-1) d R B e ln fn A T Fe P) as T0.
    remember (take e ln fn d) as d0 eqn:Ed0. clear Ed0.
    assert (Efn : ab d0 fn = ab d fn).
    { apply E6. destruct (inner_node _ _ _ _ _ T Ifn); auto. }
    assert (Ne : fn <> e) by (apply (inner_hole _ _ _ _ _ T0 Ifn); lia).
    assert (U0 : used d0 e) by (split; [rewrite E1; auto|lia]).
    unfold push_sibling. rewrite (tr_cd _ _ _ _ T0). replace (0 <? ln) with true by lia. replace (0 <=? ab d fn) with true by lia.
    cbn [andb]. assert (EB : Z.lxor e ln = ab d0 fn) by (rewrite Ee, lxor_cancel; auto). rewrite EB.
    assert (EC : Z.lxor (ab d0 fn) ln = e) by (rewrite Efn; auto). rewrite EC.
    remember (fu (fu (sb d0) e (sb d0 (Z.lxor (ab d0 fn) (sib_prev 256 (sb d0) (ab d0 fn) 0 ln))))
              (Z.lxor (ab d0 fn) (sib_prev 256 (sb d0) (ab d0 fn) 0 ln)) ln) as SB eqn:ESB.
    remember (set_sb SB d0) as d1 eqn:Ed1.
    assert (T1 : tree (put ch fn ln e) (-1) (-1) d1).
    { rewrite Ed1. apply (tree_attach_sb ch (-1) e d0 fn ln SB); auto; try lia.
      - apply (no_kids _ _ _ _ T0). lia.
      - rewrite E4. replace (ln =? 0) with false by lia. reflexivity.
      - rewrite Efn. intros Q. split; [apply B1; auto|]. destruct (B1 Q) as [_ ->]. discriminate. }
    exists (put ch fn ln e), (fun q => q). split; [|split; [|split]].
    + exists R1, B1'. split; [|exact T1].
      rewrite Ed1. apply alloc_sb. exact A0.
    + split; [|split; [reflexivity|split; [reflexivity|split; [auto|split]]]].
      * intros q Iq l. destruct (put_cases ch fn ln e q l) as [(-> & -> & ->)|[_ ->]].
        -- rewrite Cn. right. auto.
        -- destruct (ch q l); auto.
      * intros p q E. rewrite Ed1. cbn [ab set_sb]. apply E6. left. apply (tr_ch _ _ _ _ T) in E. tauto.
      * apply put_eq.
    + intros k. destruct (put_cases ch fn ln e e k) as [(K & _)|[_ ->]]; [congruence|]. apply (no_kids _ _ _ _ T0). lia.
    + rewrite Ed1. cbn [ab set_sb]. rewrite E4. replace (ln =? 0) with false by lia. reflexivity.
  - assert (U : used d (Z.lxor (ab d fn) ln)) by (split; auto).
    destruct (Z.eqb_spec (ac d (Z.lxor (ab d fn) ln)) fn) as [E|E]; cbn [negb].
    + apply (cell_owner ch d fn ln T Ifn U) in E. congruence.
    + destruct (Z.eq_dec fn 0) as [Q|Q].
      * exfalso. rewrite B2 in U, E by auto. rewrite Z.lxor_0_l in U, E. subst fn.
        destruct (tr_all _ _ _ _ T ln U) as [l' El]; [lia|].
        destruct (tr_ch _ _ _ _ T _ _ _ El) as (_ & _ & Hl' & _ & _ & I' & K').
        pose proof (inner_pos _ _ _ _ _ T I') as P'.
        destruct (tr_slot _ _ _ _ T (ac d ln) l' ln ltac:(lia) El) as [G' El2].
        destruct (tr_big _ _ _ _ T _ I' E G') as [G2 _].
        destruct (lxor_blk (ab d (ac d ln)) l' G' Hl') as [K1 K2]. rewrite <- El2 in K1.
        assert (256 <= ln) by (apply (div256_lt _ (ab d (ac d ln) / 256)); auto; apply Z.div_le_lower_bound; lia). lia.
      * pose proof (resolve_ok R B ch d fn ln A T Ifn Q (F Q) Cn Hln U) as K.
        destruct (resolve fn (ab d fn) ln d) as [[to fn'] d'].
        destruct K as (R' & B' & ch' & s & K1 & K2 & K3 & K4 & K5 & K6 & K7 & K8 & K9 & K10).
        exists ch', s. split; [exists R', B'; auto|]. split; [|auto]. unfold extended. auto 10.
Qed.

Lemma tree_open1 ch x h d b : tree ch x h d -> x <> 0 -> 256 <= b -> (inner ch x -> ch x 0 <> None) ->
  tree ch x h (set_ab (fu (ab d) x b) d).
Proof.
  intros T X Hb Hc. constructor; try apply T.
  - cbn [ab ac set_ab]. rewrite fu_ne by auto. apply T.
  - intros p l t Hp E. cbn [ab set_ab]. rewrite fu_ne by auto. apply (tr_slot _ _ _ _ T p l t); auto.
  - intros p Hp I Hq. cbn [ab sb set_ab]. rewrite fu_ne by auto. apply (tr_sib _ _ _ _ T p); auto.
  - intros p I P0. cbn [ab set_ab]. destruct (fu_cases (ab d) x b p) as [[-> ->]|[_ ->]]; auto. apply (tr_big _ _ _ _ T); auto.
Qed.
Lemma tree_weak ch x h d : tree ch (-1) h d -> tree ch x h d.
Proof.
  intros T. constructor; try apply T.
  - intros p l t _ E. apply (tr_slot _ _ _ _ T p l t); auto. apply (tr_ch _ _ _ _ T) in E.
    intros ->. destruct E as (_ & _ & _ & _ & _ & I & _). apply (inner_pos _ _ _ _ _ T) in I. lia.
  - intros p _ I. apply (tr_sib _ _ _ _ T p); auto. intros ->. apply (inner_pos _ _ _ _ _ T) in I. lia.
Qed.
Lemma tree_leaf ch x h d t v : tree ch x h d -> ~ inner ch t -> tree ch x h (set_ab (fu (ab d) t v) d).
Proof.
  intros T N. assert (N0 : t <> 0) by (intros ->; apply N; left; auto).
  assert (E : forall p, inner ch p -> ab (set_ab (fu (ab d) t v) d) p = ab d p).
  { intros p I. cbn [ab set_ab]. apply fu_ne. intros ->. auto. }
  constructor; try apply T.
  - rewrite E by (left; auto). apply T.
  - intros p l t' Hp Ec. rewrite E; [apply (tr_slot _ _ _ _ T p l t'); auto|]. apply (tr_ch _ _ _ _ T) in Ec. tauto.
  - intros p Hp I. rewrite E by auto. apply (tr_sib _ _ _ _ T p); auto.
  - intros p I. rewrite E by auto. apply (tr_big _ _ _ _ T); auto.
Qed.

(** The cell for the value of a new node. *)
Lemma follow_term_ok ch d q : okay ch d -> inner ch q -> q <> 0 -> ab d q = -1 -> (forall k, ch q k = None) ->
  let '(e, q', d') := follow q 0 d in
  q' = q /\ okay (put ch q 0 e) d' /\ ab d' e = 0 /\ ~ inner (put ch q 0 e) e /\ used d' e /\
  (forall p t, ch p 0 = Some t -> ab d' t = ab d t /\ t <> e).
Proof.
  intros (R & B & A & T) Iq Q Eq N.
  pose proof (inner_pos _ _ _ _ _ T Iq) as P. pose proof (alloc_pos _ _ _ A) as Zp.
  unfold follow. rewrite Eq. change (-1 <? 0) with true. cbn [orb]. rewrite pop_enode_eq. change (-1 <? 0) with true. cbv iota.
  destruct (find_place1_ok R B d A) as (R1 & B1 & A1 & G1 & F1 & F2).
  destruct (find_place1 d) as [e d1]. cbn [fst snd] in *.
  pose proof (tree_grow ch (-1) d d1 T ltac:(lia) G1) as T1.
  destruct (take_ok R1 B1 d1 e 0 q A1 F1 P) as (R2 & B2 & A0 & E1 & E2 & E3 & E4 & E5 & E6 & E7).
  pose proof (tree_take ch (-1) d1 R1 B1 e 0 q A1 T1 F1 P) as T0.
  remember (take e 0 q d1) as d0 eqn:Ed0. clear Ed0. rewrite Z.lxor_0_r.
  unfold push_sibling. change (0 <=? -1) with false. cbn [andb]. rewrite Z.lxor_0_r.
  change (cd (set_ab (fu (ab d0) q e) d0) q) with (cd d0 q). rewrite (tr_cd _ _ _ _ T0).
  assert (U0 : used d0 e) by (split; [rewrite E1; destruct F1; auto|lia]).
  assert (Nq : q <> e) by (apply (inner_hole _ _ _ _ _ T0 Iq); lia).
  assert (Uq : used d q) by (destruct (inner_node _ _ _ _ _ T Iq); [congruence|auto]).
  assert (Uq1 : used d1 q) by (destruct (inner_node _ _ _ _ _ T1 Iq); [congruence|auto]).
  remember (set_cd (fu (cd (set_ab (fu (ab d0) q e) d0)) q 0)
     (set_sb (fu (sb (set_ab (fu (ab d0) q e) d0)) e 0) (set_ab (fu (ab d0) q e) d0))) as d' eqn:Ed'.
  assert (H1 : ab d' = fu (ab d0) q e) by (rewrite Ed'; reflexivity).
  assert (H2 : ac d' = ac d0) by (rewrite Ed'; reflexivity).
  assert (H3 : sb d' = fu (sb d0) e 0) by (rewrite Ed'; reflexivity).
  assert (H4 : c_size d' = c_size d0) by (rewrite Ed'; reflexivity).
  assert (H5 : forall s, cd d' s = 0).
  { intros s. rewrite Ed'. cbn [cd set_cd set_ab set_sb]. destruct (fu_cases (cd d0) q 0 s) as [[_ ->]|[_ ->]]; auto. apply (tr_cd _ _ _ _ T0). }
  assert (NK : forall p k t, ch p k = Some t -> p <> q) by (intros p k t E ->; congruence).
  set (dm := set_sb (fu (sb d0) e 0) d0).
  assert (Tm : tree (put ch q 0 e) q (-1) dm).
  { apply (tree_put ch q e d0 dm); auto; try reflexivity; try lia.
    - apply tree_weak; auto.
    - apply (no_kids _ _ _ _ T0). lia.
    - intros s. apply (tr_cd _ _ _ _ T0).
    - intros _ _ G. exfalso. destruct (E6 q ltac:(auto)) as [K _]. destruct (gr_old _ _ G1 q) as [K2 _]; [destruct Uq; lia|]. lia.
    - intros r k t _ E. unfold dm. cbn [sb set_sb]. apply fu_ne. apply (tr_ch _ _ _ _ T0) in E. tauto.
    - intros _. unfold dm. cbn [sb set_sb]. apply fu_ne. lia. }
  assert (Tq : tree (put ch q 0 e) q (-1) (set_ab (fu (ab dm) q e) dm)).
  { apply tree_open1; auto. intros _. rewrite put_eq. discriminate. }
  assert (T' : tree (put ch q 0 e) q (-1) d').
  { apply (tree_ext (put ch q 0 e) q (-1) (-1) (set_ab (fu (ab dm) q e) dm)); auto.
    - rewrite H1, H2. apply (tr_root _ _ _ _ Tq).
    - intros t U _. unfold used. rewrite H1, H2, H3, H4. split; [exact U|]. split; [destruct U; lia|]. auto.
    - intros t U _. unfold used in U. rewrite H2, H4 in U. split; [exact U|]. destruct U; lia.
    - rewrite H3. reflexivity. }
  split; [reflexivity|]. split; [|split; [|split; [|split]]].
  - exists R2, B2. split.
    + rewrite Ed'. apply alloc_cd, alloc_sb, alloc_ab1; auto. destruct (E6 q ltac:(auto)) as [_ K]. split; [|rewrite K; apply Uq1]. rewrite E1. apply Uq1.
    + apply (tree_close _ q); auto.
      * intros l t E. rewrite H1, fu_eq. split; [lia|].
        destruct (put_cases ch q 0 e q l) as [(_ & -> & K)|[_ K]]; rewrite K in E; [|rewrite N in E; discriminate].
        apply Some_inj in E. rewrite Z.lxor_0_r. auto.
      * exists []. rewrite H1, fu_eq. split.
        -- split; [repeat constructor|]. intros l. split; [intros []|]. intros [L0 L1]. apply L1.
           destruct (put_cases ch q 0 e q l) as [(_ & -> & K)|[_ ->]]; [congruence|apply N].
        -- cbn [links]. rewrite Z.lxor_0_r, H3. apply fu_eq.
  - rewrite H1, fu_ne by auto. exact E4.
  - intros [->|(r & l & L0 & E)]; [lia|].
    destruct (put_cases ch q 0 e r l) as [(_ & -> & K)|[_ K]]; [congruence|]. rewrite K in E. apply (tr_ch _ _ _ _ T0) in E. tauto.
  - unfold used. rewrite H2, H4. exact U0.
  - intros p t E. pose proof (tr_ch _ _ _ _ T1 _ _ _ E) as K1. pose proof (tr_ch _ _ _ _ T0 _ _ _ E) as K0.
    pose proof (tr_ch _ _ _ _ T _ _ _ E) as (U & _). split; [|tauto]. rewrite H1.
    assert (t <> q).
    { intros ->. destruct Iq as [|(r & l & L0 & E')]; [congruence|]. pose proof (tr_ch _ _ _ _ T _ _ _ E') as (_ & K3 & _).
      pose proof (tr_ch _ _ _ _ T _ _ _ E) as (_ & K4 & _). assert (Hrp : r = p) by congruence. rewrite Hrp in E'. apply L0. apply (tr_inj _ _ _ _ T _ _ _ _ E' E). }
    rewrite fu_ne by auto. destruct (E6 t ltac:(tauto)) as [-> _]. apply (gr_old _ _ G1). destruct U; lia.
Qed.

(** Inserting a new word with its value. *)
Lemma update_ok ch d q l v : okay ch d -> (q <> 0 -> ch q 0 <> None) -> inner ch q -> ch q l = None -> 0 < l < 256 ->
  let '(n, d') := update1 q l v d in
  exists ch' s, okay ch' d' /\
    (forall p, inner ch p -> ch p 0 <> None -> ch' (s p) 0 <> None) /\
    extended l q n (s q) s ch d ch' d' /\
    (forall k, k <> 0 -> ch' n k = None) /\ exists t, ch' n 0 = Some t /\ ab d' t = v.
Proof.
  intros K F Iq Cn Hl. unfold update1. pose proof (follow_ok ch d q l K F Iq Cn Hl) as H1.
  pose proof K as (R & B & A & T).
  destruct (follow q l d) as [[to fn'] d1]. destruct H1 as (ch1 & s & K1 & (X1 & X2 & X3 & X4 & X5 & X6) & N1 & E1).
  pose proof K1 as (R1 & B1 & A1 & T1).
  assert (It : inner ch1 to) by (right; exists fn', l; split; [lia|auto]).
  assert (to0 : to <> 0) by (apply (tr_ch _ _ _ _ T1) in X6; destruct X6 as ([] & _); lia).
  pose proof (follow_term_ok ch1 d1 to K1 It to0 E1 N1) as H2.
  destruct (follow to 0 d1) as [[e q'] d2]. destruct H2 as (-> & (R2 & B2 & A2 & T2) & E2 & NI & U2 & V2).
  exists (put ch1 to 0 e), s.
  assert (PE : forall p k, k <> 0 -> put ch1 to 0 e p k = ch1 p k).
  { intros p k Hk. destruct (put_cases ch1 to 0 e p k) as [(_ & J & _)|[_ ->]]; [congruence|auto]. }
  pose proof (ren_inner _ _ _ _ _ _ _ _ _ T X3 X1) as RI.
  assert (Nto : forall r, inner ch r -> s r <> to).
  { intros r Ir E. destruct Ir as [->|(r' & k & K0 & Er)]; [congruence|].
    assert (Ir' : inner ch r') by (apply (tr_ch _ _ _ _ T) in Er; tauto).
    pose proof (X1 r' Ir' k) as Xr. rewrite Er, E in Xr.
    assert (s r' = fn').
    { pose proof (tr_ch _ _ _ _ T1 _ _ _ Xr) as (_ & J1 & _). pose proof (tr_ch _ _ _ _ T1 _ _ _ X6) as (_ & J2 & _). congruence. }
    rewrite H in Xr. pose proof (tr_inj _ _ _ _ T1 _ _ _ _ Xr X6). subst k.
    assert (r' = q) by (apply X4; auto; congruence). congruence. }
  split; [|split; [|split; [|split]]].
  - exists R2, B2. split; [|apply tree_leaf; auto].
    apply alloc_ab1; auto.
  - intros p Ip C E. destruct (put_cases ch1 to 0 e (s p) 0) as [(_ & _ & K3)|[_ K3]]; rewrite K3 in E; [discriminate|].
    pose proof (X1 p Ip 0) as Xp. destruct (ch p 0) as [t|]; [rewrite Xp in E; discriminate|congruence].
  - split; [|split; [reflexivity|split; [auto|split; [auto|split]]]].
    + intros r Ir k. pose proof (X1 r Ir k) as Xr.
      destruct (put_cases ch1 to 0 e (s r) k) as [(J & _)|[_ ->]]; [exfalso; apply (Nto r); auto|].
      rewrite X2 in Xr. exact Xr.
    + intros p t E. pose proof (X5 p t E) as E5. cbn [ab set_ab].
      assert (Ip : inner ch p) by (apply (tr_ch _ _ _ _ T) in E; tauto).
      pose proof (X1 p Ip 0) as Xp. rewrite E in Xp. destruct (V2 _ _ Xp) as [V3 V4]. rewrite fu_ne by auto. congruence.
    + rewrite PE by lia. congruence.
  - intros k Hk. rewrite PE by auto. apply N1.
  - exists e. split; [apply put_eq|]. cbn [ab set_ab]. rewrite fu_eq, E2. lia.
Qed.
