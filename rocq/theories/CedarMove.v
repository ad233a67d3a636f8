(** Moving a node of the trie to another cell. *)
From Coq Require Import ZArith List Lia Sorted Permutation.
From Verif Require Import Base Coders LZ Cedar CedarRing CedarAlloc CedarTree.
Import ListNotations.
Local Open Scope Z_scope.

Definition mv (ch : kids) (x p o n : Z) : kids :=
  fun q l => if q =? n then ch o l else if q =? o then None
             else if (q =? x) && (l =? p) then Some n else ch q l.
Lemma mv_n ch x p o n l : mv ch x p o n n l = ch o l.
Proof. unfold mv. rewrite Z.eqb_refl. auto. Qed.
Lemma mv_o ch x p o n l : n <> o -> mv ch x p o n o l = None.
Proof. intros H. unfold mv. replace (o =? n) with false by lia. rewrite Z.eqb_refl. auto. Qed.
Lemma mv_xp ch x p o n : x <> n -> x <> o -> mv ch x p o n x p = Some n.
Proof. intros H K. unfold mv. replace (x =? n) with false by lia. replace (x =? o) with false by lia. rewrite !Z.eqb_refl. auto. Qed.
Lemma mv_other ch x p o n q l : q <> n -> q <> o -> (q <> x \/ l <> p) -> mv ch x p o n q l = ch q l.
Proof.
  intros H K J. unfold mv. replace (q =? n) with false by lia. replace (q =? o) with false by lia.
  replace ((q =? x) && (l =? p)) with false by lia. auto.
Qed.

Section Move.
Variables (ch : kids) (x n o p : Z) (d d' : cedar).
Hypothesis T : tree ch x n d.
Hypothesis Hx : inner ch x.
Hypothesis Un : used d n.
Hypothesis An : ac d n = x.
Hypothesis Ho : ch x p = Some o.

Let n0 : n <> 0. Proof. destruct Un; lia. Qed.
Let xn : x <> n. Proof. apply (inner_hole _ _ _ _ _ T Hx n0). Qed.
Let To := tr_ch _ _ _ _ T _ _ _ Ho.
Let no : n <> o. Proof. pose proof To. intros K; symmetry in K; tauto. Qed.
Let xo : x <> o. Proof. pose proof To. intros K; symmetry in K; tauto. Qed.
Let o0 : o <> 0. Proof. pose proof To as (K & _). destruct K; lia. Qed.

Lemma mv_spec q l t : mv ch x p o n q l = Some t ->
  (q = n /\ ch o l = Some t /\ t <> o /\ t <> n) \/
  (q = x /\ l = p /\ t = n) \/
  (q <> n /\ q <> o /\ (q <> x \/ l <> p) /\ ch q l = Some t /\ t <> o /\ t <> n).
Proof.
  intros E. destruct (Z.eq_dec q n) as [->|Qn].
  - left. rewrite mv_n in E. pose proof (tr_ch _ _ _ _ T _ _ _ E). tauto.
  - right. destruct (Z.eq_dec q o) as [->|Qo]; [rewrite mv_o in E; auto; discriminate|].
    destruct (Z.eq_dec q x) as [->|Qx]; [destruct (Z.eq_dec l p) as [->|Lp]|].
    + left. rewrite mv_xp in E; auto. apply Some_inj in E. auto.
    + right. rewrite mv_other in E; auto. pose proof (tr_ch _ _ _ _ T _ _ _ E) as K.
      repeat split; auto; try tauto. intros ->. apply Lp. apply (tr_inj _ _ _ _ T x l p o); auto.
    + right. rewrite mv_other in E; auto. pose proof (tr_ch _ _ _ _ T _ _ _ E) as K.
      repeat split; auto; try tauto. intros ->. pose proof To. apply Qx. destruct K as (_ & K & _). destruct To as (_ & K2 & _). congruence.
Qed.
Lemma inner_mv q : inner ch q -> q <> o -> inner (mv ch x p o n) q.
Proof.
  intros [->|(r & l & Hl & E)] Hq; [left; auto|right].
  destruct (Z.eq_dec r o) as [->|Ro].
  - exists n, l. rewrite mv_n. auto.
  - exists r, l. split; auto. assert (r <> n) by (apply (inner_hole _ _ _ _ _ T); auto; apply (tr_ch _ _ _ _ T) in E; tauto).
    destruct (Z.eq_dec r x) as [->|Rx]; [destruct (Z.eq_dec l p) as [->|Lp]|]; [congruence| |]; rewrite mv_other; auto.
Qed.
Lemma mv_inner q : inner (mv ch x p o n) q -> q <> o /\ (q = n /\ p <> 0 /\ inner ch o \/ q <> n /\ inner ch q).
Proof.
  intros [->|(r & l & Hl & E)].
  - split; [auto|]. right. split; [auto|left; auto].
  - destruct (mv_spec r l q E) as [(-> & E' & A & C)|[(-> & -> & ->)|(_ & _ & _ & E' & A & C)]].
    + split; auto. right. split; auto. right. eauto.
    + split; auto. left. split; auto. split; auto. right. eauto.
    + split; auto. right. split; auto. right. eauto.
Qed.
Lemma inner_o : inner ch o -> p <> 0.
Proof.
  intros [K|(r & l & Hl & E)]; [congruence|]. assert (r = x).
  { apply (tr_ch _ _ _ _ T) in E. destruct E as (_ & E & _). destruct To as (_ & E2 & _). congruence. }
  subst r. rewrite (tr_inj _ _ _ _ T _ _ _ _ E Ho) in Hl. auto.
Qed.

Hypothesis Esz : c_size d' = c_size d.
Hypothesis Ecd : forall s, cd d' s = 0.
Hypothesis Eab : forall q, ab d' q = if q =? n then ab d o else ab d q.
Hypothesis Esb : forall q, q <> n -> sb d' q = sb d q.
Hypothesis Eac1 : forall k t, ch o k = Some t -> ac d' t = n.
Hypothesis Eac2 : forall t, (forall k, ch o k <> Some t) -> ac d' t = ac d t.

Lemma tree_mv : tree (mv ch x p o n) x o d'.
Proof.
  assert (ABn : ab d' n = ab d o) by (rewrite Eab, Z.eqb_refl; auto).
  assert (ABq : forall q, q <> n -> ab d' q = ab d q) by (intros q Hq; rewrite Eab; replace (q =? n) with false by lia; auto).
  assert (Acn : ac d' n = x).
  { rewrite Eac2; auto. intros k E. apply (tr_ch _ _ _ _ T) in E. tauto. }
  assert (AC : forall q l t, ch q l = Some t -> q <> o -> ac d' t = q).
  { intros q l t E Hq. pose proof (tr_ch _ _ _ _ T _ _ _ E) as K. rewrite Eac2; [tauto|].
    intros k E'. apply (tr_ch _ _ _ _ T) in E'. apply Hq. destruct K as (_ & K & _), E' as (_ & E' & _). congruence. }
  assert (x0 : 0 <= x).
  { destruct (inner_node _ _ _ _ _ T Hx) as [->|[]]; lia. }
  assert (US : forall q l t, ch q l = Some t -> used d' t).
  { intros q l t E. pose proof (tr_ch _ _ _ _ T _ _ _ E) as K. split; [rewrite Esz; apply K|].
    destruct (Z.eq_dec q o) as [->|Hq]; [rewrite (Eac1 _ _ E); destruct Un; lia|]. rewrite (AC _ _ _ E Hq).
    destruct K as (_ & _ & _ & _ & _ & K & _). destruct (inner_node _ _ _ _ _ T K) as [->|[]]; lia. }
  constructor; auto.
  - rewrite ABq by auto. rewrite Eac2; [apply (tr_root _ _ _ _ T)|].
    intros k E. apply (tr_ch _ _ _ _ T) in E. destruct E as ([E _] & _). lia.
  - intros q l t E. destruct (mv_spec q l t E) as [(-> & E' & A & C)|[(-> & -> & ->)|(Q1 & Q2 & Q3 & E' & A & C)]].
    + pose proof (tr_ch _ _ _ _ T _ _ _ E') as K. split; [eapply US; eauto|]. split; [eapply Eac1; eauto|].
      split; [tauto|]. split; auto. split; auto. split; [|tauto].
      right. exists x, p. split; [apply inner_o; tauto|]. apply mv_xp; auto.
    + split; [split; [rewrite Esz; apply Un|lia]|]. split; auto. split; [tauto|]. split; auto. split; auto.
      split; [apply inner_mv; auto|]. pose proof To; tauto.
    + pose proof (tr_ch _ _ _ _ T _ _ _ E') as K. split; [eapply US; eauto|]. split; [eapply AC; eauto|].
      split; [tauto|]. split; [tauto|]. split; auto. split; [|tauto]. apply inner_mv; tauto.
  - intros t U Hto. destruct (Z.eq_dec t n) as [->|Tn].
    + exists p. rewrite Acn. apply mv_xp; auto.
    + assert (Ut : used d t).
      { destruct U as [U1 U2]. rewrite Esz in U1. split; auto. destruct (Z_lt_le_dec (ac d t) 0) as [K|]; auto.
        rewrite Eac2 in U2; [lia|]. intros k E. apply (tr_ch _ _ _ _ T) in E. destruct E as ([_ E] & _). lia. }
      destruct (tr_all _ _ _ _ T t Ut Tn) as [l E]. exists l.
      destruct (Z.eq_dec (ac d t) o) as [Q|Q].
      * rewrite Q in E. rewrite (Eac1 _ _ E). rewrite mv_n. auto.
      * rewrite (AC _ _ _ E Q). rewrite mv_other; auto.
        -- apply (inner_hole _ _ _ _ _ T); auto. apply (tr_ch _ _ _ _ T) in E. tauto.
        -- destruct (Z.eq_dec (ac d t) x) as [Q1|]; auto. right. intros ->. rewrite Q1 in E. congruence.
  - intros q l l' t E E'.
    destruct (mv_spec q l t E) as [(-> & F & A & C)|[(-> & -> & ->)|(Q1 & Q2 & Q3 & F & A & C)]];
    destruct (mv_spec _ l' _ E') as [(R1 & F' & A' & C')|[(R1 & R2 & R3)|(R1 & R2 & R3 & F' & A' & C')]]; try congruence; try tauto.
    + apply (tr_inj _ _ _ _ T o l l' t); auto.
    + apply (tr_inj _ _ _ _ T q l l' t); auto.
  - intros q l t Hq E. destruct (mv_spec q l t E) as [(-> & E' & A & C)|[(-> & -> & ->)|(Q1 & Q2 & Q3 & E' & A & C)]].
    + rewrite ABn. apply (tr_slot _ _ _ _ T); auto.
    + congruence.
    + rewrite ABq by auto. apply (tr_slot _ _ _ _ T); auto.
  - intros q Hq Hi Hc. destruct (mv_inner q Hi) as [Qo [(-> & P0 & Io)|(Qn & Iq)]].
    + assert (Co : o = 0 \/ ch o 0 <> None) by (right; destruct Hc as [Hc|Hc]; [congruence|rewrite mv_n in Hc; auto]).
      destruct (tr_sib _ _ _ _ T o ltac:(auto) Io Co) as (L & [S1 S2] & K). exists L. split; [split; auto; intros l; rewrite mv_n; auto|].
      rewrite ABn. apply (links_ext (sb d)); auto. intros l Hl. apply Esb.
      assert (Kid : ch o l <> None).
      { destruct Hl as [<-|Hl]; [destruct Co; congruence|]. apply S2 in Hl. tauto. }
      destruct (ch o l) as [t|] eqn:E; [|congruence]. destruct (tr_slot _ _ _ _ T o l t ltac:(auto) E) as [_ <-].
      apply (tr_ch _ _ _ _ T) in E. tauto.
    + assert (EQ : forall l, mv ch x p o n q l = ch q l) by (intros l; apply mv_other; auto).
      assert (Co : q = 0 \/ ch q 0 <> None) by (rewrite EQ in Hc; auto).
      destruct (tr_sib _ _ _ _ T q Hq Iq Co) as (L & [S1 S2] & K). exists L.
      split; [split; auto; intros l; rewrite EQ; auto|].
      rewrite ABq by auto. apply (links_ext (sb d)); auto. intros l Hl. apply Esb.
      assert (Kid : q = 0 /\ l = 0 \/ ch q l <> None).
      { destruct Hl as [<-|Hl]; [destruct Co; auto|]. apply S2 in Hl. tauto. }
      destruct Kid as [[-> ->]|Kid].
      * pose proof (tr_root _ _ _ _ T) as [_ ->]. cbn. auto.
      * destruct (ch q l) as [t|] eqn:E; [|congruence]. destruct (tr_slot _ _ _ _ T q l t Hq E) as [_ <-].
        apply (tr_ch _ _ _ _ T) in E. tauto.
  - intros q Hi Hq0. destruct (mv_inner q Hi) as [Qo [(-> & P0 & Io)|(Qn & Iq)]].
    + rewrite ABn, mv_n. apply (tr_big _ _ _ _ T); auto.
    + rewrite ABq by auto. intros Hge. destruct (tr_big _ _ _ _ T q Iq Hq0 Hge) as [A C]. split; auto.
      destruct (Z.eq_dec q x) as [->|Qx]; [destruct (Z.eq_dec p 0) as [E|]|].
      * rewrite <- E. rewrite mv_xp; auto. congruence.
      * rewrite mv_other; auto.
      * rewrite mv_other; auto.
Qed.
End Move.
