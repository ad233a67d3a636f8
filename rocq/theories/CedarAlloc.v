(** Cedar's free cells and block lists (Cedar.v): _pop_enode, _push_enode and
    _find_place keep every block's ring of free cells and the three lists of blocks. *)
From Coq Require Import ZArith List Lia Permutation.
From Verif Require Import Base Coders LZ Cedar CedarRing.
Import ListNotations.
Local Open Scope Z_scope.

Lemma fu_eq {A} (f : Z -> A) i v : fu f i v i = v.
Proof. unfold fu. rewrite Z.eqb_refl. auto. Qed.
Lemma fu_ne {A} (f : Z -> A) i v j : j <> i -> fu f i v j = f j.
Proof. unfold fu. destruct (Z.eqb_spec j i); congruence. Qed.
Lemma fu_cases {A} (f : Z -> A) i v j : j = i /\ fu f i v j = v \/ j <> i /\ fu f i v j = f j.
Proof. unfold fu. destruct (Z.eqb_spec j i); auto. Qed.

(** ** Lists of blocks *)
Record blists (B : lst -> list Z) (d : cedar) : Prop := {
  bl_ring : forall w, ring (kn d) (kp d) (B w);
  bl_hd : forall w, hd 0 (B w) = head w d;
  bl_disj : forall w w' k, In k (B w) -> In k (B w') -> w = w';
  bl_nn : forall w k, In k (B w) -> 0 <= k;
  bl_zero : In 0 (B LF) }.

Definition lst_eqb (w w' : lst) : bool :=
  match w, w' with LF, LF | LC, LC | LO, LO => true | _, _ => false end.
Lemma lst_eqb_spec w w' : reflect (w = w') (lst_eqb w w').
Proof. destruct w, w'; constructor; congruence. Qed.

(** everything but the block lists *)
Definition samecells (d d' : cedar) : Prop :=
  ab d' = ab d /\ ac d' = ac d /\ sb d' = sb d /\ cd d' = cd d /\
  kc d' = kc d /\ kr d' = kr d /\ kt d' = kt d /\ ke d' = ke d /\ rj d' = rj d /\ c_size d' = c_size d.

Lemma head_set_head w w' v d : head w (set_head w' v d) = if lst_eqb w w' then v else head w d.
Proof. destruct w, w'; reflexivity. Qed.
Lemma kn_set_head w v d : kn (set_head w v d) = kn d. Proof. destruct w; reflexivity. Qed.
Lemma kp_set_head w v d : kp (set_head w v d) = kp d. Proof. destruct w; reflexivity. Qed.
Lemma head_set_kn w f d : head w (set_kn f d) = head w d. Proof. destruct w; reflexivity. Qed.
Lemma head_set_kp w f d : head w (set_kp f d) = head w d. Proof. destruct w; reflexivity. Qed.

Lemma pop_block_same bi w last d : samecells d (pop_block bi w last d).
Proof. unfold samecells, pop_block, head. destruct last, w; cbn; repeat split; destruct (_ =? _); reflexivity. Qed.
Lemma push_block_same bi w e d : samecells d (push_block bi w e d).
Proof. unfold samecells, push_block. destruct e, w; cbn; repeat split; reflexivity. Qed.
Lemma transfer_same bi w w' d : samecells d (transfer_block bi w w' d).
Proof.
  unfold transfer_block. set (d1 := pop_block bi w (bi =? kn d bi) d).
  pose proof (pop_block_same bi w (bi =? kn d bi) d) as H1. fold d1 in H1.
  pose proof (push_block_same bi w' ((head w' d1 =? 0) && negb (kc d1 bi =? 0)) d1) as H2.
  unfold samecells in *. intuition congruence.
Qed.

Lemma hd0_nil B d w : blists B d -> w <> LF -> (head w d = 0 <-> B w = []).
Proof.
  intros H Hw. rewrite <- (bl_hd _ _ H w). split; [|intros ->; auto].
  destruct (B w) as [|x l] eqn:E; auto. cbn. intros ->.
  exfalso; apply Hw. apply (bl_disj _ _ H w LF 0); [rewrite E; left; auto|apply (bl_zero _ _ H)].
Qed.

Lemma pop_block_ok B d bi w l1 l2 : blists B d -> B w = l1 ++ bi :: l2 -> bi <> 0 ->
  blists (fun v => if lst_eqb v w then l1 ++ l2 else B v) (pop_block bi w (bi =? kn d bi) d).
Proof.
  intros H E Hb.
  pose proof (bl_ring _ _ H w) as HR. rewrite E in HR.
  assert (ND : ~ In bi (l1 ++ l2)).
  { destruct HR as [N _]. apply NoDup_remove_2 in N. auto. }
  assert (Hbi : In bi (B w)) by (rewrite E, in_app_iff; cbn; tauto).
  assert (Z0 : In 0 (if lst_eqb LF w then l1 ++ l2 else B LF)).
  { pose proof (bl_zero _ _ H) as Hz. destruct (lst_eqb_spec LF w) as [<-|]; auto.
    rewrite E, in_app_iff in Hz. rewrite in_app_iff. cbn in Hz. intuition congruence. }
  assert (SUB : forall v k, In k (if lst_eqb v w then l1 ++ l2 else B v) -> In k (B v)).
  { intros v k. destruct (lst_eqb_spec v w) as [->|]; auto. rewrite E, !in_app_iff. cbn. tauto. }
  destruct (Z.eqb_spec bi (kn d bi)) as [K|K].
  - (* alone *)
    assert (EL : l1 ++ l2 = []).
    { apply ring_rot in HR. destruct HR as [_ C]. cbn [app] in C. apply chain_first in C.
      rewrite <- K in C. assert (P : l2 ++ l1 = []).
      { destruct (l2 ++ l1) as [|y l] eqn:EE; auto. cbn in C. subst y. exfalso. apply ND.
        apply in_app_iff. assert (In bi (l2 ++ l1)) by (rewrite EE; left; auto).
        rewrite in_app_iff in *. tauto. }
      apply app_eq_nil in P as [-> ->]. auto. }
    unfold pop_block. constructor.
    + intros v. rewrite kn_set_head, kp_set_head. destruct (lst_eqb v w); [rewrite EL; split; auto; constructor|].
      apply (bl_ring _ _ H).
    + intros v. rewrite head_set_head. destruct (lst_eqb v w); [rewrite EL; auto|apply (bl_hd _ _ H)].
    + intros v v' k H1 H2. apply (bl_disj _ _ H v v' k); apply SUB; auto.
    + intros v k H1. apply (bl_nn _ _ H v k), SUB; auto.
    + exact Z0.
  - assert (NE : l1 ++ l2 <> []).
    { intros EL. apply app_eq_nil in EL as [-> ->]. destruct HR as [_ C]. cbn in C. destruct C; congruence. }
    destruct (ring_next _ _ bi _ HR ltac:(rewrite in_app_iff; cbn; tauto)) as [Hn Hp].
    assert (Kp : kp d bi <> bi).
    { intros Kp. apply ring_rot in HR. destruct HR as [N C]. cbn [app] in C, N. apply NoDup_cons_iff in N.
      destruct (l2 ++ l1) as [|y l] eqn:EE.
      - cbn in C. destruct C; congruence.
      - cbn [chain] in C. destruct C as (_ & _ & C). apply chain_last in C. rewrite Kp in C. tauto. }
    unfold pop_block.
    set (d1 := set_kn (fu (kn d) (kp d bi) (kn d bi)) d).
    set (d2 := set_kp (fu (kp d1) (kn d1 bi) (kp d1 bi)) d1).
    assert (Kn1 : kn d1 bi = kn d bi) by (unfold d1; cbn; apply fu_ne; auto).
    assert (Knx : kn d2 = fu (kn d) (kp d bi) (kn d bi)) by reflexivity.
    assert (Kpx : kp d2 = fu (kp d) (kn d bi) (kp d bi)).
    { unfold d2. cbn [kp set_kp]. rewrite Kn1. reflexivity. }
    assert (Hh : forall v, head v d2 = head v d) by (intros v; unfold d2, d1; rewrite head_set_kp, head_set_kn; auto).
    destruct (ring_remove _ _ (kn d2) (kp d2) l1 bi l2 HR) as [R1 R2].
    { intros _. rewrite Knx, Kpx, !fu_eq. auto. }
    { intros s Hs Hs1. rewrite Knx, fu_ne; auto. }
    { intros s Hs Hs1. rewrite Kpx, fu_ne; auto. }
    assert (OTH : forall v, v <> w -> ring (kn d2) (kp d2) (B v)).
    { intros v Hv. apply (ring_ext (kn d) (kp d)); [|apply (bl_ring _ _ H)].
      rewrite <- E in Hn, Hp.
      intros s Hs. rewrite Knx, Kpx, !fu_ne; auto; intros ->; apply Hv; [apply (bl_disj _ _ H v w (kn d bi))|apply (bl_disj _ _ H v w (kp d bi))]; auto. }
    assert (G : forall d3, kn d3 = kn d2 -> kp d3 = kp d2 ->
              (forall v, head v d3 = if lst_eqb v w then hd 0 (l1 ++ l2) else head v d) ->
              blists (fun v => if lst_eqb v w then l1 ++ l2 else B v) d3).
    { intros d3 E1 E2 E3. constructor.
      - intros v. rewrite E1, E2. destruct (lst_eqb_spec v w); auto.
      - intros v. rewrite E3. destruct (lst_eqb_spec v w); auto. apply (bl_hd _ _ H).
      - intros v v' k H1 H2. apply (bl_disj _ _ H v v' k); apply SUB; auto.
      - intros v k H1. apply (bl_nn _ _ H v k), SUB; auto.
      - exact Z0. }
    pose proof (bl_hd _ _ H w) as Hw. rewrite E in Hw.
    destruct (Z.eqb_spec bi (head w d2)) as [I|I]; rewrite Hh in I.
    + assert (l1 = []).
      { destruct l1 as [|x l1]; auto. cbn in Hw. exfalso. apply ND. left. congruence. }
      subst l1. cbn [app] in *. apply G; [apply kn_set_head|apply kp_set_head|].
      intros v. rewrite head_set_head, Hh. destruct (lst_eqb v w); auto. rewrite <- R2; auto.
    + apply G; auto. intros v. rewrite Hh. destruct (lst_eqb_spec v w) as [->|]; auto.
      rewrite <- Hw. destruct l1; auto. cbn in Hw. congruence.
Qed.

Lemma push_block_ok B d bi w empty : blists B d -> (forall v, ~ In bi (B v)) -> 0 < bi ->
  (empty = true <-> B w = []) ->
  blists (fun v => if lst_eqb v w then bi :: B w else B v) (push_block bi w empty d).
Proof.
  intros H Hb Hp He.
  assert (SUB : forall v k, In k (if lst_eqb v w then bi :: B w else B v) -> k = bi /\ v = w \/ In k (B v)).
  { intros v k. destruct (lst_eqb_spec v w) as [->|]; auto. cbn. intuition. }
  assert (G : forall d3,
     (forall v, ring (kn d3) (kp d3) (if lst_eqb v w then bi :: B w else B v)) ->
     (forall v, head v d3 = if lst_eqb v w then bi else head v d) ->
     blists (fun v => if lst_eqb v w then bi :: B w else B v) d3).
  { intros d3 E1 E2. constructor; auto.
    - intros v. rewrite E2. destruct (lst_eqb v w); auto. apply (bl_hd _ _ H).
    - intros v v' k H1 H2. apply SUB in H1, H2. destruct H1 as [[-> ->]|H1], H2 as [[E ->]|H2]; auto.
      + destruct (Hb _ H2).
      + subst. destruct (Hb _ H1).
      + apply (bl_disj _ _ H v v' k); auto.
    - intros v k H1. apply SUB in H1. destruct H1 as [[-> ->]|H1]; [lia|apply (bl_nn _ _ H v k); auto].
    - destruct (lst_eqb_spec LF w) as [<-|]; [right|]; apply (bl_zero _ _ H). }
  unfold push_block. destruct empty.
  - assert (E : B w = []) by (apply He; auto). apply G.
    + intros v. rewrite kn_set_head, kp_set_head. cbn [kn kp set_kp set_kn].
      destruct (lst_eqb_spec v w) as [->|Hv].
      * rewrite E. split; [repeat constructor; auto|]. cbn. rewrite !fu_eq; auto.
      * apply (ring_ext (kn d) (kp d)); [|apply (bl_ring _ _ H)].
        intros s Hs. rewrite !fu_ne; auto; intros ->; destruct (Hb _ Hs).
    + intros v. rewrite head_set_head, head_set_kp, head_set_kn. auto.
  - destruct (B w) as [|h l] eqn:E; [specialize (proj2 He eq_refl); discriminate|].
    assert (Hh : head w d = h) by (rewrite <- (bl_hd _ _ H w), E; auto).
    pose proof (bl_ring _ _ H w) as HR. rewrite E in HR.
    assert (Hbw : ~ In bi (h :: l)) by (rewrite <- E; auto).
    destruct (ring_next _ _ h _ HR ltac:(left; auto)) as [_ Hpin].
    assert (bi <> h) by (intros ->; apply Hbw; left; auto).
    assert (bi <> kp d h) by (intros K; rewrite K in Hbw; tauto).
    rewrite Hh. apply G.
    + intros v. rewrite kn_set_head, kp_set_head. cbn [kn kp set_kp set_kn].
      destruct (lst_eqb_spec v w) as [->|Hv].
      * apply (ring_front (kn d) (kp d)); auto.
        -- rewrite fu_ne, fu_eq; auto.
        -- rewrite fu_ne, fu_eq; auto.
        -- rewrite fu_eq; auto.
        -- rewrite fu_eq; auto.
        -- intros s Hs Hs1. rewrite fu_ne, fu_ne; auto. intros ->; auto.
        -- intros s Hs. destruct HR as [N _]. apply NoDup_cons_iff in N.
           rewrite fu_ne, fu_ne; auto; intros ->; [apply Hbw; right|]; tauto.
      * apply (ring_ext (kn d) (kp d)); [|apply (bl_ring _ _ H)].
        intros s Hs.
        assert (s <> bi) by (intros ->; destruct (Hb _ Hs)).
        assert (s <> h) by (intros ->; apply Hv, (bl_disj _ _ H v w h); auto; rewrite E; left; auto).
        assert (s <> kp d h) by (intros ->; apply Hv, (bl_disj _ _ H v w (kp d h)); auto; rewrite E; auto).
        rewrite !fu_ne; auto.
    + intros v. rewrite head_set_head, head_set_kp, head_set_kn, head_set_kn, head_set_kp. auto.
Qed.

Lemma transfer_ok B d bi w w' l1 l2 : blists B d -> B w = l1 ++ bi :: l2 -> bi <> 0 -> w <> w' ->
  (w' = LF <-> kc d bi = 0) ->
  exists B', blists B' (transfer_block bi w w' d) /\
    B' w = l1 ++ l2 /\ B' w' = bi :: B w' /\ (forall v, v <> w -> v <> w' -> B' v = B v).
Proof.
  intros H E Hb Hw Hc.
  assert (Hbi : In bi (B w)) by (rewrite E, in_app_iff; cbn; tauto).
  pose proof (bl_nn _ _ H _ _ Hbi) as Hn.
  pose proof (pop_block_ok B d bi w l1 l2 H E Hb) as H1.
  set (B1 := fun v => if lst_eqb v w then l1 ++ l2 else B v) in *.
  assert (W' : B1 w' = B w') by (unfold B1; destruct (lst_eqb_spec w' w); congruence).
  assert (NI : forall v, ~ In bi (B1 v)).
  { intros v. unfold B1. destruct (lst_eqb_spec v w) as [->|Hv].
    - pose proof (bl_ring _ _ H w) as [N _]. rewrite E in N. apply NoDup_remove_2 in N. auto.
    - intros K. apply Hv. apply (bl_disj _ _ H v w bi); auto. }
  unfold transfer_block. set (d1 := pop_block bi w (bi =? kn d bi) d) in *.
  assert (Hkc : kc d1 = kc d) by (apply pop_block_same).
  assert (HE : (head w' d1 =? 0) && negb (kc d1 bi =? 0) = true <-> B1 w' = []).
  { rewrite Hkc. destruct (lst_eqb_spec w' LF) as [E1|E1].
    - assert (Z : In 0 (B1 w')) by (rewrite E1; apply (bl_zero _ _ H1)).
      rewrite (proj1 Hc E1). cbn. rewrite andb_false_r. split; [discriminate|].
      intros K. rewrite K in Z. destruct Z.
    - rewrite <- (hd0_nil _ _ w' H1 E1). rewrite andb_true_iff, Z.eqb_eq, negb_true_iff, Z.eqb_neq. tauto. }
  exists (fun v => if lst_eqb v w' then bi :: B1 w' else B1 v). split.
  - apply push_block_ok; auto. lia.
  - unfold B1. destruct (lst_eqb_spec w w'); [congruence|]. destruct (lst_eqb_spec w w); [|congruence].
    destruct (lst_eqb_spec w' w'); [|congruence]. destruct (lst_eqb_spec w' w); [congruence|].
    repeat split; auto. intros v V1 V2. destruct (lst_eqb_spec v w'); [congruence|].
    destruct (lst_eqb_spec v w); congruence.
Qed.

(** ** The free cells *)
Definition nxc (d : cedar) (s : Z) : Z := - ac d s.
Definition pvc (d : cedar) (s : Z) : Z := - ab d s.
Definition free (d : cedar) (s : Z) : Prop := 0 < s < c_size d /\ ac d s < 0.
Definition used (d : cedar) (s : Z) : Prop := 0 < s < c_size d /\ 0 <= ac d s.
Definition blk (d : cedar) (k : Z) : Prop := 0 <= k /\ k < c_size d / 256.

(** Which list a block with [c] free cells and trial [t] is in. *)
Definition cls (c t k : Z) (w : lst) : Prop :=
  match w with
  | LF => k = 0 \/ c = 0
  | LC => k <> 0 /\ (c = 1 \/ 2 <= c /\ t = 1)
  | LO => k <> 0 /\ 2 <= c /\ t = 0
  end.

(** [R k]: the free cells of block [k] in ring order, from its ehead on. *)
Record alloc (R : Z -> list Z) (B : lst -> list Z) (d : cedar) : Prop := {
  al_size : exists nb, 1 <= nb /\ c_size d = 256 * nb;
  al_ring : forall k, ring (nxc d) (pvc d) (R k);
  al_mem : forall k s, In s (R k) <-> free d s /\ s / 256 = k;
  al_head : forall k, R k <> [] -> ke d k = hd 0 (R k);
  al_num : forall k, blk d k -> kc d k = Z.of_nat (length (R k)) + (if k =? 0 then 1 else 0);
  al_trial : forall k, blk d k -> kt d k = 0 \/ kt d k = 1;
  al_bl : blists B d;
  al_cls : forall w k, In k (B w) <-> blk d k /\ cls (kc d k) (kt d k) k w }.

Lemma blk_of R B d s : alloc R B d -> 0 <= s < c_size d -> blk d (s / 256).
Proof.
  intros H Hs. destruct (al_size _ _ _ H) as (nb & Hn & E). unfold blk. rewrite E in *.
  rewrite Z.mul_comm, Z.div_mul by lia. split; [apply Z.div_pos; lia|].
  apply Z.div_lt_upper_bound; lia.
Qed.

(** Only free cells and block data matter. *)
Lemma alloc_ext R B d d' : alloc R B d ->
  kp d' = kp d -> kn d' = kn d -> kc d' = kc d -> kt d' = kt d -> ke d' = ke d ->
  (forall w, head w d' = head w d) -> c_size d' = c_size d ->
  (forall s, free d s -> ab d' s = ab d s /\ ac d' s = ac d s) ->
  (forall s, used d s -> 0 <= ac d' s) -> alloc R B d'.
Proof.
  intros H E1 E2 E3 E4 E5 E6 E7 H1 H2.
  assert (FR : forall s, free d' s <-> free d s).
  { intros s. unfold free. rewrite E7. split; intros [A C]; split; auto.
    - destruct (Z_lt_le_dec (ac d s) 0); auto. specialize (H2 s). unfold used in H2. lia.
    - destruct (H1 s); [split; auto|]. lia. }
  constructor.
  - rewrite E7. apply (al_size _ _ _ H).
  - intros k. apply (ring_ext (nxc d) (pvc d)); [|apply (al_ring _ _ _ H)].
    intros s Hs. apply (al_mem _ _ _ H) in Hs as [Hs _]. unfold nxc, pvc. destruct (H1 s Hs) as [-> ->]. auto.
  - intros k s. rewrite FR. apply (al_mem _ _ _ H).
  - rewrite E5. apply (al_head _ _ _ H).
  - unfold blk. rewrite E3, E7. apply (al_num _ _ _ H).
  - unfold blk. rewrite E4, E7. apply (al_trial _ _ _ H).
  - destruct (al_bl _ _ _ H) as [b1 b2 b3 b4 b5]. constructor; auto; intros w; [rewrite E1, E2|rewrite E6]; auto.
  - unfold blk. rewrite E3, E4, E7. apply (al_cls _ _ _ H).
Qed.

(** Changing one block. *)
Lemma alloc_upd R B d B' d' k L : alloc R B d -> blk d k -> c_size d' = c_size d ->
  (forall j, j <> k -> kc d' j = kc d j /\ kt d' j = kt d j /\ ke d' j = ke d j) ->
  (forall s, free d s -> s / 256 <> k -> ab d' s = ab d s /\ ac d' s = ac d s) ->
  (forall s, used d s -> s / 256 <> k -> 0 <= ac d' s) ->
  ring (nxc d') (pvc d') L -> (forall s, In s L <-> free d' s /\ s / 256 = k) ->
  (L <> [] -> ke d' k = hd 0 L) -> kc d' k = Z.of_nat (length L) + (if k =? 0 then 1 else 0) ->
  (kt d' k = 0 \/ kt d' k = 1) -> blists B' d' ->
  (forall w j, j <> k -> (In j (B' w) <-> In j (B w))) ->
  (forall w, In k (B' w) <-> cls (kc d' k) (kt d' k) k w) ->
  alloc (fun j => if j =? k then L else R j) B' d'.
Proof.
  intros H Hk E1 E2 E3 E4 HL1 HL2 HL3 HL4 HL5 HB HB1 HB2.
  assert (BK : forall j, blk d' j <-> blk d j) by (intros j; unfold blk; rewrite E1; tauto).
  assert (FR : forall s, s / 256 <> k -> free d' s <-> free d s).
  { intros s Hs. unfold free. rewrite E1. split; intros [A C]; split; auto.
    - destruct (Z_lt_le_dec (ac d s) 0); auto. specialize (E4 s). unfold used in E4. lia.
    - destruct (E3 s); auto; [split; auto|]. lia. }
  constructor.
  - rewrite E1. apply (al_size _ _ _ H).
  - intros j. destruct (Z.eqb_spec j k) as [->|Hj]; auto.
    apply (ring_ext (nxc d) (pvc d)); [|apply (al_ring _ _ _ H)].
    intros s Hs. apply (al_mem _ _ _ H) in Hs as [Hs Hs2]. unfold nxc, pvc.
    destruct (E3 s Hs) as [-> ->]; [congruence|]. auto.
  - intros j s. destruct (Z.eqb_spec j k) as [->|Hj]; auto.
    rewrite (al_mem _ _ _ H). split; intros [A C]; split; auto; apply FR; auto; congruence.
  - intros j. destruct (Z.eqb_spec j k) as [->|Hj]; auto.
    destruct (E2 j Hj) as (_ & _ & ->). apply (al_head _ _ _ H).
  - intros j. rewrite BK. intros Bj. destruct (Z.eqb_spec j k) as [->|Hj]; auto.
    destruct (E2 j Hj) as (-> & _ & _). apply (al_num _ _ _ H); auto.
  - intros j. rewrite BK. intros Bj. destruct (Z.eq_dec j k) as [->|Hj]; auto.
    destruct (E2 j Hj) as (_ & -> & _). apply (al_trial _ _ _ H); auto.
  - auto.
  - intros w j. rewrite BK. destruct (Z.eq_dec j k) as [->|Hj].
    + rewrite HB2. tauto.
    + rewrite HB1 by auto. destruct (E2 j Hj) as (-> & -> & _). apply (al_cls _ _ _ H).
Qed.

Lemma blists_ext B d d' : blists B d -> kp d' = kp d -> kn d' = kn d ->
  (forall w, head w d' = head w d) -> blists B d'.
Proof.
  intros [b1 b2 b3 b4 b5] E1 E2 E6. constructor; auto; intros w; [rewrite E1, E2|rewrite E6]; auto.
Qed.

(** A transfer, seen through the memberships. *)
Lemma transfer_in B d bi w w' : blists B d -> In bi (B w) -> bi <> 0 -> w <> w' ->
  (w' = LF <-> kc d bi = 0) ->
  exists B', blists B' (transfer_block bi w w' d) /\
    (forall v, In bi (B' v) <-> v = w') /\
    (forall v j, j <> bi -> (In j (B' v) <-> In j (B v))).
Proof.
  intros H Hin Hb Hw Hc. pose proof Hin as Hin'. apply in_split in Hin as (l1 & l2 & E).
  destruct (transfer_ok B d bi w w' l1 l2 H E Hb Hw Hc) as (B' & HB & E1 & E2 & E3).
  assert (G : forall v j, j <> bi -> (In j (B' v) <-> In j (B v))).
  { intros v j Hj. destruct (lst_eqb_spec v w) as [->|Hv].
    - rewrite E1, E, !in_app_iff. cbn. intuition congruence.
    - destruct (lst_eqb_spec v w') as [->|Hv'].
      + rewrite E2. cbn. intuition congruence.
      + rewrite E3; tauto. }
  exists B'. split; auto. split; auto. intros v. split.
  - intros K. apply (bl_disj _ _ HB v w' bi); auto. rewrite E2; left; auto.
  - intros ->. rewrite E2; left; auto.
Qed.

(** _pop_enode once the cell [e] is chosen (cedar.hpp:544-567) *)
Definition take (e label from : Z) (d : cedar) : cedar :=
  let bi := e / 256 in
  let d1 := set_kc (fu (kc d) bi (kc d bi - 1)) d in
  let d2 :=
    if kc d1 bi =? 0 then (if negb (bi =? 0) then transfer_block bi LC LF d1 else d1)
    else
      let a1 := set_ac (fu (ac d1) (- ab d1 e) (ac d1 e)) d1 in
      let a2 := set_ab (fu (ab a1) (- ac a1 e) (ab a1 e)) a1 in
      let a3 := if e =? ke a2 bi then set_ke (fu (ke a2) bi (- ac a2 e)) a2 else a2 in
      if negb (bi =? 0) && (kc a3 bi =? 1) && negb (kt a3 bi =? 1)
      then transfer_block bi LO LC a3 else a3 in
  let d3 := set_ab (fu (ab d2) e (if negb (label =? 0) then -1 else 0)) d2 in
  set_ac (fu (ac d3) e from) d3.
Lemma pop_enode_eq base label from d : pop_enode base label from d =
  let '(e, d) := if base <? 0 then find_place1 d else (Z.lxor base label, d) in
  (e, if base <? 0 then set_ab (fu (ab (take e label from d)) from (Z.lxor e label)) (take e label from d)
      else take e label from d).
Proof. unfold pop_enode. destruct (if base <? 0 then _ else _). destruct (base <? 0); reflexivity. Qed.

Lemma cls_uniq c t k w w' : cls c t k w -> cls c t k w' -> w = w'.
Proof. destruct w, w'; cbn; intros; auto; exfalso; lia. Qed.

Lemma cls_stay c t k w : 0 < c -> c - 1 <> 0 -> negb (k =? 0) && (c - 1 =? 1) && negb (t =? 1) = false ->
  t = 0 \/ t = 1 -> (cls c t k w <-> cls (c - 1) t k w).
Proof.
  intros H0 H1 T Ht. destruct (Z.eqb_spec k 0), (Z.eqb_spec (c - 1) 1), (Z.eqb_spec t 1); cbn in T; try discriminate;
    destruct w; unfold cls; lia.
Qed.
Lemma take_ok R B d e label from : alloc R B d -> free d e -> 0 <= from ->
  let d' := take e label from d in
  exists R' B', alloc R' B' d' /\ c_size d' = c_size d /\ sb d' = sb d /\ cd d' = cd d /\
    ab d' e = (if negb (label =? 0) then -1 else 0) /\ ac d' e = from /\
    (forall s, used d s \/ s = 0 -> ab d' s = ab d s /\ ac d' s = ac d s) /\
    (forall s, free d s -> s <> e -> free d' s).
Proof.
  intros H He Hf. cbn zeta.
  set (k := e / 256).
  assert (Hk : blk d k) by (apply (blk_of R B); auto; destruct He; lia).
  assert (HeR : In e (R k)) by (apply (al_mem _ _ _ H); auto).
  pose proof (al_num _ _ _ H k Hk) as Hn.
  pose proof (al_ring _ _ _ H k) as HR.
  pose proof (al_head _ _ _ H k) as HK.
  pose proof HeR as HS. apply in_split in HS as (l1 & l2 & EL).
  assert (HK' : ke d k = hd 0 (R k)) by (apply HK; rewrite EL; destruct l1; discriminate).
  assert (HU : forall s, used d s \/ s = 0 -> ~ free d s /\ s <> e).
  { intros s. destruct He as [He1 He2]. unfold used, free. intros [[A1 A2]| ->]; split; try lia; intros ->; lia. }
  assert (NB : forall s, In s (R k) -> 0 < s < c_size d /\ ac d s < 0) by (intros s Hs; apply (al_mem _ _ _ H) in Hs; apply Hs).
  destruct (ring_next _ _ e _ HR HeR) as [Hnx Hpv].
  unfold nxc, pvc in Hnx, Hpv.
  set (d1 := set_kc (fu (kc d) k (kc d k - 1)) d).
  assert (Ek1 : kc d1 k = kc d k - 1) by (unfold d1; cbn; apply fu_eq).
  assert (NDp : ~ In e (l1 ++ l2)) by (destruct HR as [N _]; rewrite EL in N; apply NoDup_remove_2 in N; auto).
  assert (LEN : length (R k) = S (length (l1 ++ l2))) by (rewrite EL, !app_length; cbn; lia).
  assert (Bd1 : blists B d1) by (apply (blists_ext B d); try reflexivity; apply (al_bl _ _ _ H)).
  pose proof (al_trial _ _ _ H k Hk) as Ht.
  set (d2 := if kc d1 k =? 0 then (if negb (k =? 0) then transfer_block k LC LF d1 else d1)
    else
      let a1 := set_ac (fu (ac d1) (- ab d1 e) (ac d1 e)) d1 in
      let a2 := set_ab (fu (ab a1) (- ac a1 e) (ab a1 e)) a1 in
      let a3 := if e =? ke a2 k then set_ke (fu (ke a2) k (- ac a2 e)) a2 else a2 in
      if negb (k =? 0) && (kc a3 k =? 1) && negb (kt a3 k =? 1)
      then transfer_block k LO LC a3 else a3).
  (* what is known of d2 *)
  assert (D2 : exists B', blists B' d2 /\
     (forall w, In k (B' w) <-> cls (kc d k - 1) (kt d k) k w) /\
     (forall w j, j <> k -> (In j (B' w) <-> In j (B w))) /\
     c_size d2 = c_size d /\ sb d2 = sb d /\ cd d2 = cd d /\ kc d2 = kc d1 /\ kt d2 = kt d /\
     (forall j, j <> k -> ke d2 j = ke d j) /\
     (l1 ++ l2 <> [] -> ke d2 k = hd 0 (l1 ++ l2)) /\
     (forall s, ~ In s (R k) -> ab d2 s = ab d s /\ ac d2 s = ac d s) /\
     (forall s, In s (R k) -> ac d2 s < 0) /\
     ring (fun s => - ac d2 s) (fun s => - ab d2 s) (l1 ++ l2)).
  { destruct (Z.eqb_spec (kc d1 k) 0) as [Z0|Z0].
    - assert (Hk0 : k <> 0) by (intros K; rewrite K in *; cbn [Z.eqb] in Hn; rewrite Ek1 in Z0; lia).
      assert (EN : l1 ++ l2 = []).
      { destruct (l1 ++ l2); auto. cbn [length] in LEN. destruct (Z.eqb_spec k 0); lia. }
      assert (Hin : In k (B LC)).
      { apply (al_cls _ _ _ H). split; auto. cbn. lia. }
      destruct (transfer_in B d1 k LC LF Bd1 Hin Hk0 ltac:(discriminate) ltac:(tauto)) as (B' & B1 & B2 & B3).
      pose proof (transfer_same k LC LF d1) as (S1 & S2 & S3 & S4 & S5 & S6 & S7 & S8 & S9 & S10).
      assert (ED : d2 = transfer_block k LC LF d1) by (unfold d2; destruct (Z.eqb_spec k 0); [lia|reflexivity]).
      rewrite ED. exists B'. rewrite EN, S1, S2, S3, S4, S5, S7, S8, S10. split; auto. split.
      { intros w. rewrite B2. rewrite Ek1 in Z0. rewrite Z0. destruct w; cbn; split; try tauto; try discriminate; lia. }
      split; auto. repeat split; auto; try reflexivity; try congruence.
      + intros s Hs. unfold d1. cbn. apply NB in Hs. tauto.
      + constructor.
    - set (a1 := set_ac (fu (ac d1) (- ab d1 e) (ac d1 e)) d1) in *.
      set (a2 := set_ab (fu (ab a1) (- ac a1 e) (ab a1 e)) a1) in *.
      set (a3 := if e =? ke a2 k then set_ke (fu (ke a2) k (- ac a2 e)) a2 else a2) in *.
      assert (A1 : ac a1 e = ac d e).
      { unfold a1. cbn. destruct (fu_cases (ac d) (- ab d e) (ac d e) e) as [[_ ->]|[_ ->]]; auto. }
      assert (A3c : ac a3 = fu (ac d) (- ab d e) (ac d e)) by (unfold a3, a2, a1; destruct (e =? _); reflexivity).
      assert (A3b : ab a3 = fu (ab d) (- ac d e) (ab d e)).
      { transitivity (ab a2). { unfold a3. destruct (e =? _); reflexivity. }
        unfold a2. cbn [ab set_ab]. rewrite A1. reflexivity. }
      assert (A3e : forall j, j <> k -> ke a3 j = ke d j).
      { intros j Hj. unfold a3, a2, a1. destruct (e =? _); cbn; [rewrite fu_ne|]; auto. }
      assert (RG : ring (fun s => - ac a3 s) (fun s => - ab a3 s) (l1 ++ l2) /\ (l1 = [] -> l2 <> [] -> nxc d e = hd 0 l2)).
      { apply (ring_remove (nxc d) (pvc d)); [rewrite <- EL; auto| | |].
        - intros _. unfold nxc, pvc. rewrite A3c, A3b, !fu_eq. auto.
        - intros s Hs Hs1. unfold nxc, pvc in *. rewrite A3c, fu_ne; auto.
        - intros s Hs Hs1. unfold nxc, pvc in *. rewrite A3b, fu_ne; auto. }
      destruct RG as [RG RH].
      assert (A3k : l1 ++ l2 <> [] -> ke a3 k = hd 0 (l1 ++ l2)).
      { intros HN. unfold a3. change (ke a2 k) with (ke d k). rewrite HK', EL.
        destruct l1 as [|x l1]; cbn [app hd].
        - rewrite Z.eqb_refl. change (ac a2 e) with (ac a1 e). rewrite A1.
          cbn [ke set_ke]. rewrite fu_eq. apply RH; auto.
        - destruct (Z.eqb_spec e x) as [->|].
          + exfalso. apply NDp. left; auto.
          + change (ke a2 k) with (ke d k). rewrite HK', EL. reflexivity. }
      assert (A3s : c_size a3 = c_size d /\ sb a3 = sb d /\ cd a3 = cd d /\ kc a3 = kc d1 /\ kt a3 = kt d /\ kp a3 = kp d /\ kn a3 = kn d /\ forall w, head w a3 = head w d).
      { unfold a3, a2, a1, d1. destruct (e =? _); repeat split; try reflexivity; intros w; destruct w; reflexivity. }
      destruct A3s as (S1 & S2 & S3 & S4 & S5 & S6 & S7 & S8).
      assert (Ba3 : blists B a3) by (apply (blists_ext B d); auto; apply (al_bl _ _ _ H)).
      assert (CELL : (forall s, ~ In s (R k) -> ab a3 s = ab d s /\ ac a3 s = ac d s) /\ (forall s, In s (R k) -> ac a3 s < 0)).
      { split.
        - intros s Hs. rewrite A3b, A3c, !fu_ne; auto; intros ->; tauto.
        - intros s Hs. rewrite A3c. destruct (fu_cases (ac d) (- ab d e) (ac d e) s) as [[_ ->]|[_ ->]]; apply NB; auto. }
      destruct CELL as [CE1 CE2].
      destruct (negb (k =? 0) && (kc a3 k =? 1) && negb (kt a3 k =? 1)) eqn:T.
      + assert (Hk0 : k <> 0 /\ kc a3 k = 1 /\ kt d k <> 1).
        { rewrite S5 in T. destruct (Z.eqb_spec k 0), (Z.eqb_spec (kc a3 k) 1), (Z.eqb_spec (kt d k) 1); cbn in T; try discriminate; auto. }
        destruct Hk0 as (Hk0 & K1 & T1). rewrite S4, Ek1 in K1.
        assert (Hin : In k (B LO)).
        { apply (al_cls _ _ _ H). split; auto. cbn. lia. }
        destruct (transfer_in B a3 k LO LC Ba3 Hin Hk0 ltac:(discriminate)) as (B' & B1 & B2 & B3).
        { rewrite S4, Ek1, K1. split; [discriminate|lia]. }
        pose proof (transfer_same k LO LC a3) as (U1 & U2 & U3 & U4 & U5 & U6 & U7 & U8 & U9 & U10).
        assert (ED : d2 = transfer_block k LO LC a3) by (unfold d2; cbn zeta; fold a1 a2 a3; rewrite T; reflexivity).
        rewrite ED. exists B'. rewrite U1, U2, U3, U4, U5, U7, U8, U10. split; auto. split.
        { intros w. rewrite B2, K1. destruct w; cbn; split; try tauto; try discriminate; try lia. }
        split; auto. repeat split; auto; try apply CE1; auto. apply RG. apply RG.
      + assert (ED : d2 = a3) by (unfold d2; cbn zeta; fold a1 a2 a3; rewrite T; reflexivity).
        rewrite ED. exists B. split; auto. split.
        { intros w. rewrite (al_cls _ _ _ H w k). rewrite S4, Ek1 in T. rewrite Ek1 in Z0.
          rewrite S5 in T.
          assert (0 < kc d k) by (rewrite Hn, LEN; destruct (k =? 0); lia).
          rewrite <- (cls_stay (kc d k) (kt d k) k w); auto. tauto. }
        split; [tauto|]. repeat split; auto; try apply CE1; auto. apply RG. apply RG. }
  destruct D2 as (B' & C1 & C2 & C3 & C4 & C5 & C6 & C7 & C8 & C9 & C10 & C11 & C12 & C13).
  assert (ET : take e label from d = set_ac (fu (ac d2) e from) (set_ab (fu (ab d2) e (if negb (label =? 0) then -1 else 0)) d2)) by reflexivity.
  rewrite ET. set (d' := set_ac _ _).
  assert (Eac : ac d' = fu (ac d2) e from) by reflexivity.
  assert (Eab : ab d' = fu (ab d2) e (if negb (label =? 0) then -1 else 0)) by reflexivity.
  assert (Esz : c_size d' = c_size d) by exact C4.
  assert (NR : forall s, s / 256 <> k -> ~ In s (R k)) by (intros s Hs K; apply (al_mem _ _ _ H) in K; tauto).
  exists (fun j => if j =? k then l1 ++ l2 else R j), B'. split.
  - apply (alloc_upd R B d B' d' k (l1 ++ l2)); auto.
    + intros j Hj. change (kc d') with (kc d2). change (kt d') with (kt d2). change (ke d') with (ke d2).
      rewrite C7, C8, C9 by auto. unfold d1. cbn. rewrite fu_ne by auto. auto.
    + intros s Hs Hs1. rewrite Eac, Eab, !fu_ne by (intros ->; auto). apply C11; auto.
    + intros s Hs Hs1. rewrite Eac, fu_ne by (intros ->; auto). destruct (C11 s) as [_ ->]; auto. apply Hs.
    + apply (ring_ext (fun s => - ac d2 s) (fun s => - ab d2 s)); auto.
      intros s Hs. unfold nxc, pvc. rewrite Eac, Eab, !fu_ne by congruence. auto.
    + intros s. rewrite in_app_iff. unfold free. rewrite Esz, Eac. split.
      * intros Hs. assert (s <> e) by (intros ->; apply NDp, in_app_iff; auto).
        rewrite fu_ne by auto.
        assert (In s (R k)) by (rewrite EL, in_app_iff; cbn; tauto).
        split; [split; [apply NB; auto|apply C12; auto]|]. apply (al_mem _ _ _ H) in H1. tauto.
      * intros [[Hs1 Hs2] Hs3]. assert (s <> e) by (intros ->; rewrite fu_eq in Hs2; lia).
        rewrite fu_ne in Hs2 by auto.
        assert (Hin : In s (R k)).
        { destruct (in_dec Z.eq_dec s (R k)) as [|NI]; auto.
          destruct (C11 s NI) as [_ K]. rewrite K in Hs2. apply (al_mem _ _ _ H). split; auto. split; auto. }
        rewrite EL, in_app_iff in Hin. cbn in Hin. intuition congruence.
    + change (kc d') with (kc d2). rewrite C7, Ek1, Hn, LEN. lia.
    + change (kt d') with (kt d2). rewrite C8. auto.
    + apply (blists_ext B' d2); auto.
    + intros w. change (kc d') with (kc d2). change (kt d') with (kt d2). rewrite C7, C8, Ek1. auto.
  - rewrite Esz. repeat split; auto.
    + rewrite Eab, fu_eq. auto.
    + rewrite Eac, fu_eq. auto.
    + destruct (HU s) as [U1 U2]; auto. rewrite Eab, fu_ne by auto. apply C11.
      intros K. apply (al_mem _ _ _ H) in K. tauto.
    + destruct (HU s) as [U1 U2]; auto. rewrite Eac, fu_ne by auto. apply C11.
      intros K. apply (al_mem _ _ _ H) in K. tauto.
    + apply H0. 
    + rewrite Esz. apply H0.
    + rewrite Eac, fu_ne by auto. destruct (in_dec Z.eq_dec s (R k)) as [I|NI]; auto.
      destruct (C11 s NI) as [_ ->]. apply H0.
Qed.

Lemma push_enode_ok R B d e : alloc R B d -> used d e -> 256 <= e ->
  let d' := push_enode e d in
  exists R' B', alloc R' B' d' /\ c_size d' = c_size d /\
    sb d' = fu (sb d) e 0 /\ cd d' = fu (cd d) e 0 /\ free d' e /\
    (forall s, (used d s \/ s = 0) -> s <> e -> ab d' s = ab d s /\ ac d' s = ac d s) /\
    (forall s, free d s -> free d' s).
Proof.
  intros H He He256. cbn zeta. set (k := e / 256).
  assert (Hk : blk d k) by (apply (blk_of R B); auto; destruct He; lia).
  assert (Hk0 : k <> 0) by (unfold k; pose proof (Z.div_le_mono 256 e 256); change (256 / 256) with 1 in *; lia).
  pose proof (al_num _ _ _ H k Hk) as Hn. destruct (Z.eqb_spec k 0) as [|_]; [congruence|].
  pose proof (al_ring _ _ _ H k) as HR.
  pose proof (al_head _ _ _ H k) as HK.
  pose proof (al_trial _ _ _ H k Hk) as Ht.
  assert (NB : forall s, In s (R k) -> 0 < s < c_size d /\ ac d s < 0) by (intros s Hs; apply (al_mem _ _ _ H) in Hs; apply Hs).
  assert (NE : ~ In e (R k)) by (intros Hs; apply NB in Hs; destruct He; lia).
  set (d1 := set_kc (fu (kc d) k (kc d k + 1)) d).
  assert (Ek1 : kc d1 k = kc d k + 1) by (unfold d1; cbn; apply fu_eq).
  set (d2 := if kc d1 k =? 1 then
      let a1 := set_ke (fu (ke d1) k e) d1 in
      let a2 := set_ac (fu (ac a1) e (- e)) (set_ab (fu (ab a1) e (- e)) a1) in
      if negb (k =? 0) then transfer_block k LF LC a2 else a2
    else
      let prev := ke d1 k in
      let next := - ac d1 prev in
      let a1 := set_ac (fu (ac d1) e (- next)) (set_ab (fu (ab d1) e (- prev)) d1) in
      let a2 := set_ab (fu (ab a1) next (- e)) a1 in
      let a3 := set_ac (fu (ac a2) prev (- e)) a2 in
      let a4 := if ((kc a3 k =? 2) || (kt a3 k =? 1)) && negb (k =? 0)
                then transfer_block k LC LO a3 else a3 in
      set_kt (fu (kt a4) k 0) a4).
  assert (D2 : exists B' L, blists B' d2 /\
     (kt d2 k = 0 \/ kt d2 k = 1) /\
     (forall w, In k (B' w) <-> cls (kc d2 k) (kt d2 k) k w) /\
     (forall w j, j <> k -> (In j (B' w) <-> In j (B w))) /\
     c_size d2 = c_size d /\ sb d2 = sb d /\ cd d2 = cd d /\ kc d2 = kc d1 /\
     (forall j, j <> k -> ke d2 j = ke d j /\ kt d2 j = kt d j) /\
     ke d2 k = hd 0 L /\ length L = S (length (R k)) /\ (forall s, In s L <-> s = e \/ In s (R k)) /\
     (forall s, s <> e -> ~ In s (R k) -> ab d2 s = ab d s /\ ac d2 s = ac d s) /\
     (forall s, In s L -> ac d2 s < 0) /\
     ring (fun s => - ac d2 s) (fun s => - ab d2 s) L).
  { destruct (Z.eqb_spec (kc d1 k) 1) as [Z0|Z0].
    - assert (EN : R k = []) by (destruct (R k); auto; cbn [length] in *; lia).
      set (a2 := set_ac (fu (ac d) e (- e)) (set_ab (fu (ab d) e (- e)) (set_ke (fu (ke d1) k e) d1))) in *.
      assert (Hin : In k (B LF)).
      { apply (al_cls _ _ _ H). split; auto. cbn. rewrite EN in Hn. cbn in Hn. lia. }
      assert (Ba : blists B a2) by (apply (blists_ext B d); try reflexivity; apply (al_bl _ _ _ H)).
      destruct (transfer_in B a2 k LF LC Ba Hin Hk0 ltac:(discriminate)) as (B' & B1 & B2 & B3).
      { change (kc a2) with (kc d1). split; [discriminate|lia]. }
      pose proof (transfer_same k LF LC a2) as (S1 & S2 & S3 & S4 & S5 & S6 & S7 & S8 & S9 & S10).
      assert (ED : d2 = transfer_block k LF LC a2) by (unfold d2; cbn zeta; destruct (Z.eqb_spec k 0); [lia|reflexivity]).
      rewrite ED. exists B', [e]. rewrite S1, S2, S3, S4, S5, S7, S8, S10. split; auto.
      change (kt a2) with (kt d). change (kc a2) with (kc d1). split; auto. split.
      { intros w. rewrite B2, Z0. destruct w; cbn; split; try tauto; try discriminate; lia. }
      rewrite EN. split; auto. repeat split; auto; try reflexivity.
      + unfold a2, d1. cbn. rewrite fu_ne; auto.
      + unfold a2, d1. cbn. rewrite fu_eq; auto.
      + cbn. intuition.
      + cbn. intuition.
      + unfold a2. cbn. rewrite fu_ne; auto.
      + unfold a2. cbn. rewrite fu_ne; auto.
      + intros s [<-|[]]. unfold a2. cbn. rewrite fu_eq. destruct He; lia.
      + repeat constructor. auto.
      + unfold a2. cbn. rewrite fu_eq. lia.
      + unfold a2. cbn. rewrite fu_eq. lia.
    - assert (EN : R k <> []) by (intros E; rewrite E in Hn; cbn in Hn; lia).
      specialize (HK EN). destruct (R k) as [|h l] eqn:ER; [congruence|]. cbn [hd] in HK.
      set (next := - ac d h).
      destruct (ring_next _ _ h _ HR ltac:(left; auto)) as [Hnx _]. unfold nxc in Hnx. fold next in Hnx.
      assert (He' : e <> h) by (intros ->; apply NE; left; auto).
      assert (Hne : e <> next) by (intros K; rewrite <- K in Hnx; tauto).
      set (a3 := set_ac (fu (fu (ac d) e (- next)) h (- e)) (set_ab (fu (fu (ab d) e (- h)) next (- e)) d1)).
      set (a4 := if ((kc a3 k =? 2) || (kt a3 k =? 1)) && negb (k =? 0) then transfer_block k LC LO a3 else a3).
      assert (ED : d2 = set_kt (fu (kt a4) k 0) a4).
      { unfold d2, a4, a3, next. cbn zeta. change (ke d1 k) with (ke d k). rewrite HK. reflexivity. }
      assert (RG : ring (fun s => - ac a3 s) (fun s => - ab a3 s) (h :: e :: l)).
      { apply (ring_ins (nxc d) (pvc d)); auto.
        - unfold a3. cbn. rewrite fu_eq. lia.
        - unfold a3. cbn. rewrite fu_ne, fu_eq by auto. unfold nxc. fold next. lia.
        - unfold a3. cbn. rewrite fu_ne, fu_eq by auto. lia.
        - unfold nxc. fold next. unfold a3. cbn. rewrite fu_eq. lia.
        - intros s Hs. unfold nxc, a3. cbn. rewrite !fu_ne; auto.
          + intros ->. apply NE. right; auto.
          + intros ->. destruct HR as [N _]. apply NoDup_cons_iff in N. tauto.
        - intros s Hs Hs1. unfold nxc in Hs1. fold next in Hs1. unfold pvc, a3. cbn. rewrite !fu_ne; auto.
          intros ->. auto. }
      assert (CE : forall s, s <> e -> ~ In s (h :: l) -> ab a3 s = ab d s /\ ac a3 s = ac d s).
      { intros s Hs Hs1. unfold a3. cbn. rewrite !fu_ne; auto; intros ->; [apply Hs1; left; auto|auto]. }
      assert (CN : forall s, In s (h :: e :: l) -> ac a3 s < 0).
      { intros s Hs. unfold a3. cbn. destruct (fu_cases (fu (ac d) e (- next)) h (- e) s) as [[_ ->]|[Hx ->]]; [destruct He; lia|].
        destruct (fu_cases (ac d) e (- next) s) as [[_ ->]|[Hy ->]]; [apply NB in Hnx; lia|].
        apply NB. destruct Hs as [?|[?|?]]; [left|congruence|right]; auto. }
      assert (Bd3 : blists B a3) by (apply (blists_ext B d); try reflexivity; apply (al_bl _ _ _ H)).
      assert (X : exists B', blists B' a4 /\ (forall w, In k (B' w) <-> w = LO) /\
                 (forall w j, j <> k -> (In j (B' w) <-> In j (B w))) /\ samecells a3 a4).
      { unfold a4. change (kc a3) with (kc d1). change (kt a3) with (kt d). rewrite Ek1.
        assert (Hc1 : 1 <= kc d k) by (rewrite Hn; cbn [length]; lia).
        destruct (((kc d k + 1 =? 2) || (kt d k =? 1)) && negb (k =? 0)) eqn:T.
        - assert (T' : kc d k = 1 \/ kt d k = 1) by lia.
          assert (Hin : In k (B LC)) by (apply (al_cls _ _ _ H); split; auto; cbn; lia).
          destruct (transfer_in B a3 k LC LO Bd3 Hin Hk0 ltac:(discriminate)) as (B' & B1 & B2 & B3).
          { change (kc a3) with (kc d1). rewrite Ek1. split; [discriminate|lia]. }
          exists B'. split; auto. split; auto. split; auto. apply transfer_same.
        - exists B. split; auto. split; [|split; [tauto|unfold samecells; repeat split]].
          intros w. rewrite (al_cls _ _ _ H w k).
          assert (T' : kc d k <> 1 /\ kt d k <> 1) by lia.
          split; [|intros ->; split; auto; cbn; lia]. intros [_ K]. destruct w; cbn in K; auto; exfalso; lia. }
      destruct X as (B' & X1 & X2 & X3 & X4).
      destruct X4 as (S1 & S2 & S3 & S4 & S5 & S6 & S7 & S8 & S9 & S10).
      rewrite ED. exists B', (h :: e :: l). split; [apply (blists_ext B' a4); auto|].
      cbn [kt kc ab ac sb cd ke c_size set_kt]. rewrite S1, S2, S3, S4, S5, S7, S8, S10.
      rewrite !fu_eq. split; auto. split.
      { intros w. rewrite X2. change (kc a3) with (kc d1). rewrite Ek1.
        assert (1 <= kc d k) by (rewrite Hn; cbn [length]; lia).
        destruct w; cbn; split; try discriminate; try tauto; lia. }
      split; auto. repeat split; auto; try reflexivity; try apply RG.
      + rewrite fu_ne; auto.
      + cbn. intuition.
      + cbn. intuition.
      + apply CE; auto.
      + apply CE; auto. }
  destruct D2 as (B' & L & C1 & C2 & C3 & C4 & C5 & C6 & C7 & C8 & C9 & C10 & C11 & C12 & C13 & C14 & C15).
  set (d3 := if kr d2 k <? rj d2 (kc d2 k) then set_kr (fu (kr d2) k (rj d2 (kc d2 k))) d2 else d2).
  assert (ET : push_enode e d = set_cd (fu (cd d3) e 0) (set_sb (fu (sb d3) e 0) d3)) by reflexivity.
  assert (D3 : samecells (set_rj (rj d2) (set_kr (kr d3) d2)) d3 /\ kp d3 = kp d2 /\ kn d3 = kn d2 /\ forall w, head w d3 = head w d2).
  { unfold d3, samecells. destruct (_ <? _); cbn; repeat split; intros w; destruct w; reflexivity. }
  destruct D3 as ((S1 & S2 & S3 & S4 & S5 & S6 & S7 & S8 & S9 & S10) & Q1 & Q2 & Q3).
  cbn [ab ac sb cd kc kt ke c_size set_kr set_rj] in *.
  rewrite ET. set (d' := set_cd _ _).
  assert (Eac : ac d' = ac d2) by exact S2.
  assert (Eab : ab d' = ab d2) by exact S1.
  assert (Ekc : kc d' = kc d2) by exact S5.
  assert (Ekt : kt d' = kt d2) by exact S7.
  assert (Eke : ke d' = ke d2) by exact S8.
  assert (Esz : c_size d' = c_size d) by (rewrite <- C5; exact S10).
  assert (NR : forall s, s / 256 <> k -> ~ In s (R k) /\ s <> e) by (intros s Hs; split; [intros K; apply (al_mem _ _ _ H) in K; tauto|intros ->; auto]).
  exists (fun j => if j =? k then L else R j), B'. split.
  - apply (alloc_upd R B d B' d' k L); auto.
    + intros j Hj. rewrite Ekc, Ekt, Eke, C8. destruct (C9 j Hj) as [-> ->]. unfold d1. cbn. rewrite fu_ne by auto. auto.
    + intros s Hs Hs1. rewrite Eac, Eab. apply C13; apply NR; auto.
    + intros s Hs Hs1. rewrite Eac. destruct (C13 s) as [_ ->]; [apply NR|apply NR|apply Hs]; auto.
    + apply (ring_ext (fun s => - ac d2 s) (fun s => - ab d2 s)); auto.
      intros s Hs. unfold nxc, pvc. rewrite Eac, Eab. auto.
    + intros s. unfold free. rewrite Esz, Eac. split.
      * intros Hs. split; [split; [|apply C14; auto]|].
        -- apply C12 in Hs as [->|Hs]; [apply He|apply NB; auto].
        -- apply C12 in Hs as [->|Hs]; auto. apply (al_mem _ _ _ H) in Hs; tauto.
      * intros [[Hs1 Hs2] Hs3]. apply C12. destruct (Z.eq_dec s e) as [|Ne]; auto. right.
        destruct (in_dec Z.eq_dec s (R k)) as [|NI]; auto.
        destruct (C13 s Ne NI) as [_ K]. rewrite K in Hs2. apply (al_mem _ _ _ H). split; auto. split; auto.
    + intros _. rewrite Eke. auto.
    + rewrite Ekc, C8, Ek1, Hn, C11. destruct (Z.eqb_spec k 0); lia.
    + rewrite Ekt. auto.
    + apply (blists_ext B' d2); auto.
    + intros w. rewrite Ekc, Ekt. auto.
  - rewrite Esz. split; auto.
    assert (HU : forall s, used d s \/ s = 0 -> ~ In s (R k)).
    { intros s Hs K. apply NB in K. unfold used in Hs. lia. }
    repeat split.
    + change (sb d') with (fu (sb d3) e 0). rewrite S3, C6. auto.
    + change (cd d') with (fu (cd d3) e 0). rewrite S4, C7. auto.
    + apply He.
    + rewrite Esz. apply He.
    + rewrite Eac. apply C14, C12. auto.
    + rewrite Eab. apply C13; auto.
    + rewrite Eac. apply C13; auto.
    + apply H0.
    + rewrite Esz. apply H0.
    + rewrite Eac. destruct (in_dec Z.eq_dec s (R k)) as [I|NI].
      * apply C14, C12. auto.
      * destruct (Z.eq_dec s e) as [->|Ne]; [apply C14, C12; auto|].
        destruct (C13 s Ne NI) as [_ ->]. apply H0.
Qed.

(** ** New blocks *)
Fixpoint zs (a : Z) (n : nat) : list Z := match n with O => [] | S n => a :: zs (a + 1) n end.
Lemma in_zs n : forall a s, In s (zs a n) <-> a <= s < a + Z.of_nat n.
Proof.
  induction n as [|n IH]; intros a s; cbn [zs In].
  - lia.
  - rewrite IH. lia.
Qed.
Lemma nodup_zs n : forall a, NoDup (zs a n).
Proof.
  induction n as [|n IH]; intros a; cbn [zs]; constructor; auto. rewrite in_zs. lia.
Qed.
Lemma length_zs n : forall a, length (zs a n) = n.
Proof. induction n; intros; cbn; auto. Qed.
Lemma chain_zs (nx pv : Z -> Z) z n : forall a,
  (forall s, a <= s < a + Z.of_nat n -> nx s = s + 1 /\ pv (s + 1) = s) ->
  nx (a + Z.of_nat n) = z -> pv z = a + Z.of_nat n -> chain nx pv a (zs (a + 1) n) z.
Proof.
  induction n as [|n IH]; intros a H1 H2 H3; cbn [zs chain].
  - rewrite Z.add_0_r in *. auto.
  - destruct (H1 a) as [A B]; [lia|]. repeat split; auto. apply IH.
    + intros s Hs. apply H1. lia.
    + rewrite <- H2. f_equal. lia.
    + rewrite H3. lia.
Qed.
Lemma ring_zs (nx pv : Z -> Z) n a :
  (forall s, a <= s < a + Z.of_nat n -> nx s = s + 1 /\ pv (s + 1) = s) ->
  nx (a + Z.of_nat n) = a -> pv a = a + Z.of_nat n -> ring nx pv (zs a (S n)).
Proof. intros. split; [apply nodup_zs|]. cbn [zs]. apply chain_zs; auto. Qed.

Record grow (d d' : cedar) : Prop := {
  gr_size : c_size d <= c_size d';
  gr_old : forall s, 0 <= s < c_size d -> ab d' s = ab d s /\ ac d' s = ac d s /\ sb d' s = sb d s;
  gr_new : forall s, c_size d <= s < c_size d' -> free d' s;
  gr_cd : (forall s, cd d s = 0) -> forall s, cd d' s = 0 }.
Lemma grow_refl d d' : samecells d d' \/ (ab d' = ab d /\ ac d' = ac d /\ sb d' = sb d /\ cd d' = cd d /\ c_size d' = c_size d) -> grow d d'.
Proof.
  intros H. assert (E : ab d' = ab d /\ ac d' = ac d /\ sb d' = sb d /\ cd d' = cd d /\ c_size d' = c_size d) by (unfold samecells in H; tauto).
  destruct E as (E1 & E2 & E3 & E4 & E5). constructor.
  - lia.
  - intros s _. rewrite E1, E2, E3. auto.
  - intros s Hs. lia.
  - rewrite E4. auto.
Qed.
Lemma grow_trans a b c : grow a b -> grow b c -> grow a c.
Proof.
  intros [A1 A2 A3 A4] [B1 B2 B3 B4]. constructor.
  - lia.
  - intros s Hs. destruct (A2 s Hs) as (<- & <- & <-). apply B2. lia.
  - intros s Hs. destruct (Z_lt_le_dec s (c_size b)) as [L|L]; [|apply B3; lia].
    destruct (A3 s) as [U V]; [lia|]. destruct (B2 s) as (_ & E & _); [lia|]. split; [lia|].
    rewrite E. auto.
  - intros Hc. apply B4, A4, Hc.
Qed.

Lemma add_block_ok R B d : alloc R B d ->
  let z := fst (add_block d) in let d' := snd (add_block d) in
  exists R' B', alloc R' B' d' /\ grow d d' /\ z = c_size d /\ c_size d' = z + 256 /\ ke d' (z / 256) = z.
Proof.
  intros H. cbn zeta. unfold add_block. set (z := c_size d). set (b := z / 256). cbn [fst snd].
  destruct (al_size _ _ _ H) as (nb & Hnb & Ez). fold z in Ez.
  assert (Eb : b = nb) by (unfold b; rewrite Ez, Z.mul_comm, Z.div_mul; lia).
  match goal with |- context [push_block b LO _ ?x] => set (d1 := x) end.
  assert (Fr : forall s, 0 <= s < z -> (z <=? s) && (s <? z + 256) = false) by (intros s Hs; lia).
  assert (Fr2 : forall s, z <= s < z + 256 -> (z <=? s) && (s <? z + 256) = true) by (intros s Hs; lia).
  assert (Bnot : forall v, ~ In b (B v)).
  { intros v K. apply (al_cls _ _ _ H) in K as [[_ K] _]. fold z b in K. lia. }
  assert (Hb : 0 < b) by lia.
  assert (Bd1 : blists B d1).
  { pose proof (al_bl _ _ _ H) as [b1 b2 b3 b4 b5]. constructor; auto; intros w.
    apply (ring_ext (kn d) (kp d)); auto. intros s Hs. unfold d1. cbn.
    rewrite !fu_ne; auto; intros ->; apply (Bnot w); auto. }
  assert (He : (hO d1 =? 0) = true <-> B LO = []).
  { rewrite <- (hd0_nil _ _ LO Bd1) by discriminate. cbn [head]. lia. }
  pose proof (push_block_ok B d1 b LO (hO d1 =? 0) Bd1 Bnot Hb He) as BN.
  pose proof (push_block_same b LO (hO d1 =? 0) d1) as (S1 & S2 & S3 & S4 & S5 & S6 & S7 & S8 & S9 & S10).
  set (d' := push_block b LO (hO d1 =? 0) d1) in *.
  set (L := zs z 256).
  assert (A1 : forall s, 0 <= s < z -> ab d' s = ab d s /\ ac d' s = ac d s /\ sb d' s = sb d s).
  { intros s Hs. rewrite S1, S2, S3. unfold d1. cbn [ab ac sb]. rewrite !(Fr s Hs). auto. }
  assert (A2 : forall s, z <= s < z + 256 -> ac d' s = (if s =? z + 255 then - z else - (s + 1)) /\
                                          ab d' s = (if s =? z then - (z + 255) else - (s - 1))).
  { intros s Hs. rewrite S1, S2. unfold d1. cbn [ab ac]. rewrite !(Fr2 s Hs). auto. }
  assert (Esz : c_size d' = z + 256) by exact S10.
  assert (FR : forall s, s < z -> free d' s <-> free d s).
  { intros s Hs. unfold free. rewrite Esz. fold z. split; intros [U V]; (split; [lia|]); destruct (A1 s) as (_ & E & _); try lia. }
  assert (FN : forall s, z <= s < z + 256 -> free d' s).
  { intros s Hs. split; [lia|]. destruct (A2 s Hs) as [-> _]. destruct (s =? z + 255); lia. }
  assert (BKz : blk d' b).
  { unfold blk. rewrite Esz. replace (z + 256) with ((nb + 1) * 256) by lia. rewrite Z.div_mul; lia. }
  assert (BK : forall k, k <> b -> (blk d' k <-> blk d k)).
  { intros k Hk. unfold blk. rewrite Esz. fold z. replace (z + 256) with ((nb + 1) * 256) by lia.
    rewrite Z.div_mul by lia. fold b. lia. }
  exists (fun j => if j =? b then L else R j), (fun v => if lst_eqb v LO then b :: B LO else B v).
  split; [|split; [|split; [|split]]]; auto.
  2:{ constructor.
      - fold z. lia.
      - intros s Hs. apply A1; auto.
      - intros s Hs. apply FN. fold z in Hs. lia.
      - intros Hc s. rewrite S4. unfold d1. cbn [cd]. destruct (_ && _); auto. }
  2:{ rewrite S8. unfold d1. cbn [ke]. fold b. apply fu_eq. }
  constructor.
  - exists (nb + 1). lia.
  - intros k. destruct (Z.eqb_spec k b) as [->|Hk].
    + apply ring_zs.
      * intros s Hs. unfold nxc, pvc. destruct (A2 s) as [-> _]; [lia|]. destruct (A2 (s + 1)) as [_ ->]; [lia|].
        destruct (Z.eqb_spec s (z + 255)); [lia|]. destruct (Z.eqb_spec (s + 1) z); lia.
      * unfold nxc. destruct (A2 (z + Z.of_nat 255)) as [-> _]; [lia|]. destruct (Z.eqb_spec (z + Z.of_nat 255) (z + 255)); lia.
      * unfold pvc. destruct (A2 z) as [_ ->]; [lia|]. rewrite Z.eqb_refl. lia.
    + apply (ring_ext (nxc d) (pvc d)); [|apply (al_ring _ _ _ H)].
      intros s Hs. apply (al_mem _ _ _ H) in Hs as [Hs _]. unfold nxc, pvc.
      destruct (A1 s) as (-> & -> & _); auto. destruct Hs as [Hs _]. fold z in Hs. lia.
  - intros k s. destruct (Z.eqb_spec k b) as [->|Hk].
    + unfold L. rewrite in_zs. split.
      * intros Hs. split; [apply FN; lia|]. rewrite Eb. symmetry. apply (Z.div_unique_pos _ _ _ (s - z)); lia.
      * intros [[Hs _] Hd]. rewrite Esz in Hs. rewrite Eb in Hd. pose proof (Z.div_mod s 256 ltac:(lia)). pose proof (Z.mod_pos_bound s 256 ltac:(lia)). lia.
    + rewrite (al_mem _ _ _ H). split.
      * intros [Hs Hd]. split; auto. apply FR; auto. destruct Hs as [Hs _]. fold z in Hs. lia.
      * intros [Hs Hd]. split; auto. apply FR; auto.
        destruct (Z_lt_le_dec s z); auto. exfalso. apply Hk. rewrite <- Hd. destruct Hs as [Hs _]. rewrite Esz in Hs. rewrite Eb.
        symmetry. apply (Z.div_unique_pos _ _ _ (s - z)); lia.
  - intros k. rewrite S8. unfold d1. cbn [ke]. destruct (Z.eqb_spec k b) as [->|Hk].
    + intros _. rewrite fu_eq. reflexivity.
    + rewrite fu_ne by auto. apply (al_head _ _ _ H).
  - intros k Hk. rewrite S5. unfold d1. cbn [kc]. destruct (Z.eqb_spec k b) as [->|Hk'].
    + rewrite fu_eq. unfold L. rewrite length_zs. destruct (Z.eqb_spec b 0); lia.
    + rewrite fu_ne by auto. apply (al_num _ _ _ H), BK; auto.
  - intros k Hk. rewrite S7. unfold d1. cbn [kt]. destruct (Z.eq_dec k b) as [->|Hk'].
    + rewrite fu_eq. auto.
    + rewrite fu_ne by auto. apply (al_trial _ _ _ H), BK; auto.
  - exact BN.
  - intros w k. rewrite S5, S7. unfold d1. cbn [kc kt]. destruct (Z.eq_dec k b) as [->|Hk'].
    + rewrite !fu_eq. split.
      * intros K. split; auto. destruct w; cbn [lst_eqb] in K; [destruct (Bnot _ K)|destruct (Bnot _ K)|cbn; lia].
      * intros [_ K]. destruct w; cbn in K; try lia. left; auto.
    + rewrite !fu_ne by auto. rewrite BK by auto. rewrite <- (al_cls _ _ _ H).
      destruct w; cbn [lst_eqb]; try tauto. cbn [In]. intuition congruence.
Qed.

(** ** Choosing cells *)
Lemma lxor_blk x l : 0 <= x -> 0 <= l < 256 -> Z.lxor x l / 256 = x / 256 /\ 0 <= Z.lxor x l.
Proof.
  intros Hx Hl. split; [|apply Z.lxor_nonneg; lia].
  change 256 with (2 ^ 8). rewrite <- !Z.shiftr_div_pow2 by lia. rewrite Z.shiftr_lxor.
  replace (Z.shiftr l 8) with 0; [apply Z.lxor_0_r|].
  rewrite Z.shiftr_div_pow2 by lia. symmetry. apply Z.div_small. lia.
Qed.
Lemma div256_lt s k : s / 256 = k -> 1 <= k -> 256 <= s.
Proof. intros H Hk. pose proof (Z.mul_div_le s 256). lia. Qed.
Lemma blk_cell R B d s k : alloc R B d -> blk d k -> s / 256 = k -> 0 <= s < c_size d.
Proof.
  intros H [K1 K2] Hs. destruct (al_size _ _ _ H) as (nb & Hn & E). rewrite E in *.
  rewrite Z.mul_comm, Z.div_mul in K2 by lia.
  pose proof (Z.div_mod s 256 ltac:(lia)). pose proof (Z.mod_pos_bound s 256 ltac:(lia)). lia.
Qed.

Lemma head_free R B d w : alloc R B d -> w <> LF -> head w d <> 0 ->
  let k := head w d in free d (ke d k) /\ 256 <= ke d k /\ In (ke d k) (R k) /\ blk d k /\ k <> 0.
Proof.
  intros H Hw Hh. cbn zeta. set (k := head w d) in *.
  assert (Hin : In k (B w)).
  { destruct (B w) as [|x l] eqn:E; [exfalso; apply Hh, (hd0_nil _ _ w (al_bl _ _ _ H) Hw); auto|].
    left. unfold k. rewrite <- (bl_hd _ _ (al_bl _ _ _ H) w), E. auto. }
  pose proof (proj1 (al_cls _ _ _ H w k) Hin) as [Hk Hc].
  assert (Hk0 : k <> 0 /\ 1 <= kc d k) by (clearbody k; destruct w; unfold cls in Hc; [congruence| |]; intuition lia).
  pose proof (al_num _ _ _ H k Hk) as Hn. destruct (Z.eqb_spec k 0) as [|_]; [lia|].
  assert (HR : R k <> []) by (intros E; rewrite E in Hn; cbn in Hn; lia).
  pose proof (al_head _ _ _ H k HR) as E. destruct (R k) as [|x l] eqn:ER; [congruence|]. cbn in E.
  assert (Hi : In (ke d k) (R k)) by (rewrite ER, E; left; auto).
  pose proof (proj1 (al_mem _ _ _ H k _) Hi) as [Hf Hd].
  destruct Hk as [Hk1 Hk2].
  repeat split; try apply Hf; auto; try tauto. apply (div256_lt _ k); auto; lia.
  left; auto.
Qed.

Lemma find_place1_ok R B d : alloc R B d ->
  let e := fst (find_place1 d) in let d' := snd (find_place1 d) in
  exists R' B', alloc R' B' d' /\ grow d d' /\ free d' e /\ 256 <= e.
Proof.
  intros H. cbn zeta. unfold find_place1.
  destruct (Z.eqb_spec (hC d) 0) as [E1|E1]; cbn [negb fst snd].
  - destruct (Z.eqb_spec (hO d) 0) as [E2|E2]; cbn [negb fst snd].
    + destruct (add_block_ok R B d H) as (R' & B' & A & G & Ez & Es & _). exists R', B'.
      destruct (al_size _ _ _ H) as (nb & Hnb & En). rewrite Ez in *.
      split; [|split; [|split]]; auto; try lia. apply (gr_new _ _ G). lia.
    + destruct (head_free R B d LO H ltac:(discriminate) E2) as (F & F2 & _). exists R, B.
      cbn [head] in *. split; auto. split; auto. apply grow_refl. right; auto.
  - destruct (head_free R B d LC H ltac:(discriminate) E1) as (F & F2 & _). exists R, B.
    cbn [head] in *. split; auto. split; auto. apply grow_refl. right; auto.
Qed.

(** What a choice for the labels [ls] must satisfy. *)
Definition fits (d : cedar) (ls : list Z) (e : Z) : Prop :=
  256 <= e /\ free d e /\ forall p, In p ls -> free d (Z.lxor (Z.lxor e (hd 0 ls)) p).

Lemma explore_ok R B d k first others : alloc R B d -> blk d k -> 1 <= k ->
  0 <= first < 256 -> (forall p, In p others -> 0 <= p < 256) ->
  forall fuel e r, In e (R k) -> explore fuel (ac d) first others (ke d k) e = Some r ->
    In r (R k) /\ fits d (first :: others) r.
Proof.
  intros H Hk Hk1 Hf Ho. induction fuel as [|fuel IH]; intros e r He E; cbn [explore] in E; [discriminate|].
  destruct (forallb _ others) eqn:F.
  - apply Some_inj in E. subst r. split; auto.
    pose proof (proj1 (al_mem _ _ _ H k e) He) as [Hfe Hd].
    split; [apply (div256_lt _ k); auto|]. split; auto. cbn [hd].
    intros p [<-|Hp].
    + rewrite Z.lxor_assoc, Z.lxor_nilpotent, Z.lxor_0_r. auto.
    + rewrite forallb_forall in F. specialize (F p Hp).
      destruct (lxor_blk e first) as [D1 D2]; [destruct Hfe; lia|auto|].
      destruct (lxor_blk (Z.lxor e first) p) as [D3 D4]; [auto|auto|].
      assert (DD : Z.lxor (Z.lxor e first) p / 256 = k) by congruence.
      pose proof (div256_lt _ _ DD Hk1). pose proof (blk_cell _ _ _ _ _ H Hk DD).
      split; lia.
  - destruct (_ =? ke d k); [discriminate|]. apply (IH (- ac d e)); auto.
    destruct (ring_next _ _ e _ (al_ring _ _ _ H k) He) as [K _]. exact K.
Qed.

Lemma alloc_kr R B d f : alloc R B d -> alloc R B (set_kr f d).
Proof. intros H. apply (alloc_ext R B d); auto. intros s Hs. apply Hs. Qed.
Lemma alloc_rj R B d f : alloc R B d -> alloc R B (set_rj f d).
Proof. intros H. apply (alloc_ext R B d); auto. intros s Hs. apply Hs. Qed.

Lemma find_blocks_ok ls first others nc bz : ls = first :: others ->
  (forall p, In p ls -> 0 <= p < 256) ->
  forall fuel bi d R B l, alloc R B d -> B LO = bi :: l -> bz = last (bi :: l) 0 ->
  let r := fst (find_blocks fuel nc first others bi bz d) in
  let d' := snd (find_blocks fuel nc first others bi bz d) in
  exists R' B', alloc R' B' d' /\ grow d d' /\ forall e, r = Some e -> fits d' ls e.
Proof.
  intros Els Hls. induction fuel as [|fuel IH]; intros bi d R B l H EB Ebz; cbn zeta; cbn [find_blocks].
  { exists R, B. cbn [fst snd]. split; auto. split; [apply grow_refl; right; auto|discriminate]. }
  assert (Hin : In bi (B LO)) by (rewrite EB; left; auto).
  pose proof (proj1 (al_cls _ _ _ H LO bi) Hin) as [Hk Hc]. cbn [cls] in Hc.
  destruct Hc as (Hk0 & Hc & Ht).
  assert (Hk1 : 1 <= bi) by (destruct Hk; lia).
  pose proof (al_num _ _ _ H bi Hk) as Hn. destruct (Z.eqb_spec bi 0) as [|_]; [lia|].
  assert (HRn : R bi <> []) by (intros E; rewrite E in Hn; cbn in Hn; lia).
  pose proof (al_head _ _ _ H bi HRn) as Hh.
  assert (HkeR : In (ke d bi) (R bi)) by (rewrite Hh; destruct (R bi); [congruence|left; auto]).
  set (r := if (nc <=? kc d bi) && (nc <? kr d bi) then explore 256 (ac d) first others (ke d bi) (ke d bi) else None).
  assert (Er : forall e, r = Some e -> In e (R bi) /\ fits d ls e).
  { intros e. unfold r. destruct (_ && _); [|discriminate]. rewrite Els. apply explore_ok with (B := B); auto.
    - apply Hls. rewrite Els. left; auto.
    - intros p Hp. apply Hls. rewrite Els. right; auto. }
  destruct r as [e|].
  - cbn [fst snd]. destruct (Er e eq_refl) as [He Hfit].
    apply in_split in He as (l1 & l2 & EL).
    set (d' := set_ke (fu (ke d) bi e) d).
    exists (fun j => if j =? bi then (e :: l2) ++ l1 else R j), B.
    split; [|split; [apply grow_refl; right; auto|]].
    + apply (alloc_upd R B d B d' bi); auto.
      * intros j Hj. cbn. rewrite fu_ne by auto. auto.
      * intros s Hs _. apply Hs.
      * apply ring_rot. rewrite <- EL. apply (al_ring _ _ _ H).
      * intros s. transitivity (In s (R bi)); [rewrite EL, !in_app_iff; tauto|apply (al_mem _ _ _ H)].
      * intros _. cbn. apply fu_eq.
      * change (kc d' bi) with (kc d bi). rewrite Hn, EL, !app_length. destruct (Z.eqb_spec bi 0); cbn [length]; lia.
      * apply (blists_ext B d); auto. apply (al_bl _ _ _ H).
      * intros w j _. reflexivity.
      * intros w. transitivity (blk d bi /\ cls (kc d bi) (kt d bi) bi w); [apply (al_cls _ _ _ H)|]. split; [tauto|auto].
    + intros e' Ee. apply Some_inj in Ee. subst e'. exact Hfit.
  - set (d1 := set_kr (fu (kr d) bi nc) d).
    set (d2 := if kr d1 bi <? rj d1 (kc d1 bi) then set_rj (fu (rj d1) (kc d1 bi) (kr d1 bi)) d1 else d1).
    assert (A2 : alloc R B d2) by (unfold d2; destruct (_ <? _); [apply alloc_rj|]; apply alloc_kr; auto).
    assert (S2 : ab d2 = ab d /\ ac d2 = ac d /\ sb d2 = sb d /\ cd d2 = cd d /\ kc d2 = kc d /\ kt d2 = kt d /\ ke d2 = ke d /\ c_size d2 = c_size d /\ kn d2 = kn d)
      by (unfold d2; destruct (_ <? _); repeat split).
    clearbody d2. destruct S2 as (U1 & U2 & U3 & U4 & U5 & U6 & U7 & U8 & U9).
    set (d3 := set_kt (fu (kt d2) bi (kt d2 bi + 1)) d2).
    assert (Kt : kt d3 bi = 1) by (unfold d3; cbn; rewrite fu_eq, U6; lia).
    rewrite Kt, Z.eqb_refl.
    assert (Bd3 : blists B d3) by (apply (blists_ext B d2); auto; apply (al_bl _ _ _ A2)).
    destruct (transfer_ok B d3 bi LO LC [] l Bd3 EB Hk0 ltac:(discriminate)) as (B' & B1 & B2 & B3 & B4).
    { change (kc d3) with (kc d2). rewrite U5. split; [discriminate|lia]. }
    cbn [app] in B2.
    pose proof (transfer_same bi LO LC d3) as (S1 & S2 & S3 & S4 & S5 & S6 & S7 & S8 & S9 & S10).
    set (d4 := transfer_block bi LO LC d3) in *.
    assert (A4 : alloc (fun j => if j =? bi then R bi else R j) B' d4).
    { apply (alloc_upd R B d2 B' d4 bi); auto.
      - unfold blk. rewrite U8. exact Hk.
      - intros j Hj. rewrite S5, S7, S8. unfold d3. cbn. rewrite fu_ne by auto. auto.
      - intros s Hs _. rewrite S1, S2. auto.
      - intros s Hs _. rewrite S2. apply Hs.
      - apply (ring_ext (nxc d2) (pvc d2)); [|apply (al_ring _ _ _ A2)]. intros s _. unfold nxc, pvc. rewrite S1, S2. auto.
      - intros s. transitivity (free d2 s /\ s / 256 = bi); [apply (al_mem _ _ _ A2)|]. unfold free. rewrite S2, S10. reflexivity.
      - intros K. rewrite S8. apply (al_head _ _ _ A2); auto.
      - rewrite S5. change (kc d3) with (kc d2). rewrite U5, Hn. destruct (Z.eqb_spec bi 0); lia.
      - rewrite S7. auto.
      - intros w j Hj. destruct w.
        + rewrite B4 by discriminate. tauto.
        + rewrite B3. cbn. intuition congruence.
        + rewrite B2, EB. cbn. intuition congruence.
      - intros w. rewrite S5, S7, Kt. change (kc d3) with (kc d2). rewrite U5. split.
        + intros K. assert (w = LC) by (apply (bl_disj _ _ B1 w LC bi); auto; rewrite B3; left; auto).
          subst w. cbn. lia.
        + intros K. destruct w; cbn in K; try lia. rewrite B3. left; auto. }
    assert (G4 : grow d d4) by (apply grow_refl; right; rewrite S1, S2, S3, S4, S10; auto).
    destruct (Z.eqb_spec bi bz) as [E|E].
    + cbn [fst snd]. exists (fun j => if j =? bi then R bi else R j), B'. split; auto. split; auto. discriminate.
    + destruct l as [|x l]; [cbn in Ebz; congruence|].
      assert (En : kn d2 bi = x).
      { pose proof (bl_ring _ _ (al_bl _ _ _ A2) LO) as [_ K]. rewrite EB in K. cbn in K. tauto. }
      rewrite En. destruct (IH x d4 _ B' l A4 B2) as (R'' & B'' & A'' & G'' & F'').
      { rewrite Ebz. reflexivity. }
      exists R'', B''. split; auto. split; auto. apply (grow_trans d d4); auto.
Qed.

Lemma find_place_ok R B d ls : alloc R B d -> ls <> [] -> (forall p, In p ls -> 0 <= p < 256) ->
  let e := fst (find_place ls d) in let d' := snd (find_place ls d) in
  exists R' B', alloc R' B' d' /\ grow d d' /\ fits d' ls e.
Proof.
  intros H Hne Hls. cbn zeta. destruct ls as [|first others]; [congruence|]. cbn [find_place].
  assert (AB : forall R1 B1 d1, alloc R1 B1 d1 -> grow d d1 ->
     exists R' B', alloc R' B' (snd (add_block d1)) /\ grow d (snd (add_block d1)) /\
       fits (snd (add_block d1)) (first :: others) (fst (add_block d1))).
  { intros R1 B1 d1 A1 G1. destruct (add_block_ok R1 B1 d1 A1) as (R' & B' & A & G & Ez & Es & _).
    destruct (al_size _ _ _ A1) as (nb & Hnb & En).
    exists R', B'. split; auto. split; [apply (grow_trans d d1); auto|]. rewrite Ez in *.
    assert (Hfree : forall p q, 0 <= p < 256 -> 0 <= q < 256 -> free (snd (add_block d1)) (Z.lxor (Z.lxor (c_size d1) p) q)).
    { intros p q Hp Hq. destruct (lxor_blk (c_size d1) p) as [D1 D2]; [lia|auto|].
      destruct (lxor_blk (Z.lxor (c_size d1) p) q) as [D3 D4]; [auto|auto|].
      apply (gr_new _ _ G). rewrite Es. rewrite D1 in D3. rewrite En in D3 at 2. rewrite Z.mul_comm, Z.div_mul in D3 by lia.
      pose proof (Z.div_mod (Z.lxor (Z.lxor (c_size d1) p) q) 256 ltac:(lia)).
      pose proof (Z.mod_pos_bound (Z.lxor (Z.lxor (c_size d1) p) q) 256 ltac:(lia)). lia. }
    split; [lia|]. split; [apply (gr_new _ _ G); lia|].
    intros p Hp. apply Hfree; apply Hls; auto. left; auto. }
  destruct (Z.eqb_spec (hO d) 0) as [E|E]; cbn [negb].
  - apply (AB R B d); auto. apply grow_refl. right; auto.
  - destruct (B LO) as [|bi l] eqn:EB.
    { exfalso. apply E. apply (hd0_nil _ _ LO (al_bl _ _ _ H)); auto. discriminate. }
    assert (Eh : hO d = bi) by (pose proof (bl_hd _ _ (al_bl _ _ _ H) LO) as K; rewrite EB in K; auto).
    assert (Elast : kp d bi = last (bi :: l) 0).
    { pose proof (bl_ring _ _ (al_bl _ _ _ H) LO) as K. rewrite EB in K.
      destruct K as [_ K]. clear -K. assert (G : forall l x z, chain (kn d) (kp d) x l z -> kp d z = last (x :: l) 0).
      { intros l0. induction l0 as [|y l0 IH]; intros x z; cbn [chain]; [tauto|]. intros (_ & _ & K1). rewrite (IH y z K1). reflexivity. }
      apply G; auto. }
    rewrite Eh.
    destruct (find_blocks_ok (first :: others) first others (Z.of_nat (length (first :: others))) (kp d bi) eq_refl Hls
                (Z.to_nat (c_size d / 256)) bi d R B l H EB Elast) as (R' & B' & A & G & F).
    destruct (find_blocks _ _ first others bi (kp d bi) d) as [r d'] eqn:EF. cbn [fst snd] in *.
    destruct r as [e|].
    + cbn [fst snd]. exists R', B'. split; auto.
    + apply (AB R' B' d'); auto.
Qed.

(** The initial arrays. *)
Lemma init_alloc : alloc (fun k => if k =? 0 then zs 1 255 else []) (fun w => match w with LF => [0] | _ => [] end) c_init.
Proof.
  assert (BK : forall k, blk c_init k <-> k = 0) by (intros k; unfold blk; cbn; change (256 / 256) with 1; lia).
  constructor.
  - exists 1. cbn. lia.
  - intros k. destruct (Z.eqb_spec k 0) as [->|]; [|split; auto; constructor].
    apply ring_zs.
    + intros s Hs. unfold nxc, pvc. cbn [ac ab c_init].
      replace (s =? 0) with false by lia. replace ((1 <=? s) && (s <? 256)) with true by lia.
      replace (s =? 255) with false by lia. replace ((1 <=? s + 1) && (s + 1 <? 256)) with true by lia.
      replace (s + 1 =? 1) with false by lia. lia.
    + reflexivity.
    + reflexivity.
  - intros k s. assert (FR : free c_init s <-> 1 <= s < 256).
    { unfold free. cbn [c_size ac c_init]. split.
      - intros [A _]. lia.
      - intros A. split; [lia|]. replace (s =? 0) with false by lia. replace ((1 <=? s) && (s <? 256)) with true by lia.
        destruct (s =? 255); lia. }
    rewrite FR. destruct (Z.eqb_spec k 0) as [->|Hk].
    + rewrite in_zs. split; [intros A; split; [lia|apply Z.div_small; lia]|lia].
    + split; [intros []|]. intros [A E]. rewrite Z.div_small in E by lia. congruence.
  - intros k. destruct (Z.eqb_spec k 0) as [->|]; [reflexivity|congruence].
  - intros k. rewrite BK. intros ->. reflexivity.
  - intros k _. left. reflexivity.
  - constructor.
    + intros w. destruct w; (split; [repeat constructor; auto|]); cbn; auto.
    + intros w. destruct w; reflexivity.
    + intros w w' k. destruct w, w'; cbn; intuition.
    + intros w k. destruct w; cbn; intuition lia.
    + left; auto.
  - intros w k. rewrite BK. destruct w; cbn; intuition lia.
Qed.
