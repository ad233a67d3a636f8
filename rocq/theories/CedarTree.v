(** The trie inside Cedar's arrays (Cedar.v): every cell in use is the child of a node
    under a label; inserting and moving keep this. *)
From Coq Require Import ZArith List Lia Sorted Permutation.
From Verif Require Import Base Coders LZ Cedar CedarRing CedarAlloc.
Import ListNotations.
Local Open Scope Z_scope.

Lemma lxor_cancel a b : Z.lxor (Z.lxor a b) b = a.
Proof. rewrite Z.lxor_assoc, Z.lxor_nilpotent, Z.lxor_0_r. auto. Qed.
Lemma lxor_inj a b c : Z.lxor a b = Z.lxor a c -> b = c.
Proof.
  intros H. rewrite <- (Z.lxor_0_l b), <- (Z.lxor_0_l c), <- (Z.lxor_nilpotent a), !Z.lxor_assoc, H. auto.
Qed.

(** ** Sibling lists *)
Fixpoint links (s : Z -> Z) (base q : Z) (L : list Z) : Prop :=
  match L with
  | [] => s (Z.lxor base q) = 0
  | l :: L' => s (Z.lxor base q) = l /\ links s base l L'
  end.
Lemma links_ext (s s' : Z -> Z) base q L : (forall l, In l (q :: L) -> s' (Z.lxor base l) = s (Z.lxor base l)) ->
  links s base q L -> links s' base q L.
Proof.
  revert q. induction L as [|l L IH]; intros q H; cbn [links].
  - rewrite H by (left; auto). auto.
  - rewrite H by (left; auto). intros [A C]. split; auto. apply IH; auto. intros k Hk. apply H. right; auto.
Qed.
Lemma sibs_links s base L : forall q fuel, links s base q L -> Forall (fun l => l <> 0) L -> (length L <= fuel)%nat ->
  sibs fuel s base (s (Z.lxor base q)) = L.
Proof.
  induction L as [|l L IH]; intros q fuel H N Hf; cbn [links] in H.
  - rewrite H. destruct fuel; reflexivity.
  - destruct H as [-> H]. destruct fuel as [|fuel]; [cbn in Hf; lia|]. cbn [sibs].
    inversion N; subst. replace (l =? 0) with false by lia. f_equal. apply IH; auto. cbn in Hf; lia.
Qed.
Lemma sib_prev_links s base label L : forall q fuel, links s base q L -> StronglySorted Z.lt (q :: L) ->
  Forall (fun l => l <> 0) L -> (length L <= fuel)%nat -> q < label -> ~ In label L ->
  exists L1 L2, L = L1 ++ L2 /\ StronglySorted Z.lt (q :: L1 ++ label :: L2) /\
    sib_prev fuel s base q label = last (q :: L1) 0.
Proof.
  induction L as [|l L IH]; intros q fuel H S N Hf Hq Hn; cbn [links] in H.
  - exists [], []. split; auto. split; [repeat constructor; auto|]. destruct fuel as [|fuel]; cbn [sib_prev]; auto.
    rewrite H. reflexivity.
  - destruct H as [H1 H2]. destruct fuel as [|fuel]; [cbn in Hf; lia|]. cbn [sib_prev].
    inversion N as [|? ? N1 N2]; subst. inversion S as [|? ? S1 S2]; subst. inversion S2; subst.
    destruct (Z.ltb_spec (s (Z.lxor base q)) label) as [L1|L1].
    + replace (s (Z.lxor base q) =? 0) with false by lia. cbn [negb andb].
      destruct (IH (s (Z.lxor base q)) fuel H2 S1 N2 ltac:(cbn in Hf; lia) L1) as (A & C & E1 & E2 & E3).
      { intros K; apply Hn; right; auto. }
      exists (s (Z.lxor base q) :: A), C. rewrite E1. split; auto. split.
      * constructor; auto. cbn [app] in *. constructor; auto.
        apply StronglySorted_inv in E2 as [_ E2]. eapply Forall_impl; [|exact E2]. intros; cbn in *; lia.
      * rewrite E3. reflexivity.
    + rewrite andb_false_r. exists [], (s (Z.lxor base q) :: L). split; auto. split; auto.
      assert (label < s (Z.lxor base q)).
      { destruct (Z.eq_dec label (s (Z.lxor base q))) as [E|]; [|lia]. exfalso. apply Hn. left; auto. }
      cbn [app]. constructor.
      * constructor; auto. constructor; auto.
        apply StronglySorted_inv in S1 as [_ S1]. eapply Forall_impl; [|exact S1]. intros; cbn in *; lia.
      * constructor; auto.
Qed.
Lemma links_insert s base label : forall L1 q L2, links s base q (L1 ++ L2) -> NoDup (q :: L1 ++ label :: L2) ->
  links (fu (fu s (Z.lxor base label) (s (Z.lxor base (last (q :: L1) 0)))) (Z.lxor base (last (q :: L1) 0)) label)
        base q (L1 ++ label :: L2).
Proof.
  induction L1 as [|l L1 IH]; intros q L2 H N.
  - cbn [app last] in *. cbn [links]. rewrite fu_eq. split; auto.
    assert (Nq : label <> q) by (apply NoDup_cons_iff in N; cbn in N; intuition).
    assert (E : forall v, v <> q -> v <> label -> fu (fu s (Z.lxor base label) (s (Z.lxor base q))) (Z.lxor base q) label (Z.lxor base v) = s (Z.lxor base v)).
    { intros v V1 V2. rewrite !fu_ne; auto; intros K; apply lxor_inj in K; auto. }
    destruct L2 as [|y L2]; cbn [links] in *.
    + rewrite fu_ne, fu_eq; auto. intros K; apply lxor_inj in K; auto.
    + rewrite fu_ne, fu_eq; [|intros K; apply lxor_inj in K; auto]. destruct H as [H1 H2]. split; auto.
      apply (links_ext s); auto. intros v Hv. apply E.
      * intros ->. apply NoDup_cons_iff in N. cbn in N, Hv. intuition.
      * intros ->. apply NoDup_cons_iff in N as [_ N]. apply NoDup_cons_iff in N. cbn in N, Hv. intuition.
  - cbn [app links] in *. destruct H as [H1 H2]. apply NoDup_cons_iff in N as [N1 N2].
    assert (EL : last (q :: l :: L1) 0 = last (l :: L1) 0) by reflexivity.
    rewrite EL. split; [|apply IH; auto].
    assert (HL : In (last (l :: L1) 0) (l :: L1)) by (clear; revert l; induction L1 as [|y L1 IH]; intros l; [left; auto|right; apply IH]).
    assert (A1 : q <> label) by (intros ->; apply N1; cbn [In]; right; apply in_app_iff; right; left; auto).
    assert (A2 : q <> last (l :: L1) 0).
    { intros K. apply N1. rewrite K. destruct HL as [HL|HL]; [left; auto|right; apply in_app_iff; left; auto]. }
    rewrite fu_ne by (intros K; apply lxor_inj in K; auto). rewrite fu_ne by (intros K; apply lxor_inj in K; auto). auto.
Qed.
Lemma sorted_nodup l : StronglySorted Z.lt l -> NoDup l.
Proof.
  induction 1 as [|a l S IH F]; constructor; auto. rewrite Forall_forall in F. intros K. specialize (F _ K). lia.
Qed.
Lemma put_label_sorted x : forall L q, StronglySorted Z.lt (q :: L) -> q < x -> ~ In x L ->
  StronglySorted Z.lt (q :: put_label x L) /\ forall y, In y (put_label x L) <-> y = x \/ In y L.
Proof.
  induction L as [|a L IH]; intros q S Hq Hn; cbn [put_label].
  - split; [repeat constructor; auto|]. cbn. intuition.
  - apply StronglySorted_inv in S as [S1 S2]. inversion S2; subst.
    destruct (Z.ltb_spec a x).
    + destruct (IH a S1) as [A C]; auto. { intros K; apply Hn; right; auto. }
      split; [|intros y; cbn [In]; rewrite C; intuition].
      constructor; auto. constructor; auto. apply StronglySorted_inv in A as [_ A].
      eapply Forall_impl; [|exact A]. intros; cbn in *; lia.
    + assert (x < a) by (destruct (Z.eq_dec a x) as [->|]; [exfalso; apply Hn; left; auto|lia]).
      split; [|intros y; cbn [In]; intuition].
      constructor; [constructor; auto|constructor; auto]. constructor; auto.
      apply StronglySorted_inv in S1 as [_ S1]. eapply Forall_impl; [|exact S1]. intros; cbn in *; lia.
Qed.

(** ** The trie *)
Definition kids := (Z -> Z -> option Z)%type.
Definition inner (ch : kids) (p : Z) : Prop := p = 0 \/ exists q l, l <> 0 /\ ch q l = Some p.
Definition slist (ch : kids) (p : Z) (L : list Z) : Prop :=
  StronglySorted Z.lt (0 :: L) /\ forall l, In l L <-> l <> 0 /\ ch p l <> None.

(** [ch p l]: the child of [p] under [l] ([l] = 0: the cell with the value).  [x]: a
    node whose children are being moved; [h]: a cell in use that is not in the trie
    (-1: none). *)
Record tree (ch : kids) (x h : Z) (d : cedar) : Prop := {
  tr_root : ac d 0 < 0 /\ ab d 0 = 0;
  tr_cd : forall s, cd d s = 0;
  tr_ch : forall p l t, ch p l = Some t ->
    used d t /\ ac d t = p /\ 0 <= l < 256 /\ t <> p /\ t <> h /\ inner ch p /\ (p = 0 -> l <> 0);
  tr_all : forall t, used d t -> t <> h -> exists l, ch (ac d t) l = Some t;
  tr_inj : forall p l l' t, ch p l = Some t -> ch p l' = Some t -> l = l';
  tr_slot : forall p l t, p <> x -> ch p l = Some t -> 0 <= ab d p /\ t = Z.lxor (ab d p) l;
  tr_sib : forall p, p <> x -> inner ch p -> p = 0 \/ ch p 0 <> None ->
    exists L, slist ch p L /\ links (sb d) (ab d p) 0 L;
  tr_big : forall p, inner ch p -> p <> 0 -> 0 <= ab d p -> 256 <= ab d p /\ ch p 0 <> None }.

Definition node (d : cedar) (q : Z) : Prop := q = 0 \/ used d q.
Lemma inner_node ch x h d p : tree ch x h d -> inner ch p -> node d p.
Proof. intros T [->|(q & l & _ & H)]; [left; auto|right]. apply (tr_ch _ _ _ _ T) in H. tauto. Qed.
Lemma inner_hole ch x h d p : tree ch x h d -> inner ch p -> h <> 0 -> p <> h.
Proof. intros T [->|(q & l & _ & H)] Hh; [auto|]. apply (tr_ch _ _ _ _ T) in H. tauto. Qed.

Lemma slist_len ch x h d p L : tree ch x h d -> slist ch p L -> (length L <= 256)%nat /\ Forall (fun l => l <> 0) L.
Proof.
  intros T [S H]. assert (N : NoDup L) by (apply sorted_nodup; apply StronglySorted_inv in S; tauto).
  split.
  - rewrite <- (length_zs 256 0). apply NoDup_incl_length; auto. intros l Hl. apply in_zs.
    apply H in Hl as [_ Hl]. destruct (ch p l) as [t|] eqn:E; [|congruence]. apply (tr_ch _ _ _ _ T) in E. lia.
  - apply Forall_forall. intros l Hl. apply H in Hl. tauto.
Qed.

(** Cells outside the trie do not matter. *)
Lemma tree_ext ch x h h' d d' : tree ch x h d ->
  (forall s, cd d' s = 0) -> ac d' 0 < 0 /\ ab d' 0 = 0 ->
  (forall t, used d t -> t <> h -> used d' t /\ t <> h' /\ ac d' t = ac d t /\ ab d' t = ab d t /\ sb d' t = sb d t) ->
  (forall t, used d' t -> t <> h' -> used d t /\ t <> h) -> sb d' 0 = sb d 0 ->
  tree ch x h' d'.
Proof.
  intros T Hcd Hr H1 H2 Hs0.
  assert (C : forall p l t, ch p l = Some t -> used d t /\ t <> h) by (intros p l t E; apply (tr_ch _ _ _ _ T) in E; tauto).
  assert (AB : forall p, inner ch p -> ab d' p = ab d p).
  { intros p [->|(q & l & _ & E)]; [pose proof (tr_root _ _ _ _ T); lia|]. destruct (C _ _ _ E) as [U V]. apply H1; auto. }
  constructor; auto.
  - intros p l t E. pose proof (tr_ch _ _ _ _ T _ _ _ E) as (A1 & A2 & A3 & A4 & A5 & A6 & A7).
    destruct (H1 t A1 A5) as (B1 & B2 & B3 & B4 & B5). rewrite B3. tauto.
  - intros t U V. destruct (H2 t U V) as [U' V']. destruct (H1 t U' V') as (B1 & B2 & B3 & B4 & B5).
    rewrite B3. apply (tr_all _ _ _ _ T); auto.
  - apply (tr_inj _ _ _ _ T).
  - intros p l t Hp E. rewrite AB by (apply (tr_ch _ _ _ _ T) in E; tauto). apply (tr_slot _ _ _ _ T); auto.
  - intros p Hp Hi Hc. destruct (tr_sib _ _ _ _ T p Hp Hi Hc) as (L & S & K). exists L. split; auto.
    rewrite AB by auto. apply (links_ext (sb d)); auto.
    intros l Hl. assert (Cell : Z.lxor (ab d p) l = 0 \/ exists t, ch p l = Some t /\ t = Z.lxor (ab d p) l).
    { destruct Hl as [<-|Hl].
      - destruct Hc as [->|Hc]; [left; pose proof (tr_root _ _ _ _ T) as [_ ->]; auto|right].
        destruct (ch p 0) as [t|] eqn:E; [|congruence]. exists t. split; auto. apply (tr_slot _ _ _ _ T p 0 t Hp E).
      - right. apply S in Hl as [_ Hl]. destruct (ch p l) as [t|] eqn:E; [|congruence]. exists t. split; auto.
        apply (tr_slot _ _ _ _ T p l t Hp E). }
    destruct Cell as [->|(t & E & <-)]; auto. destruct (C _ _ _ E). apply H1; auto.
  - intros p Hi. rewrite AB by auto. apply (tr_big _ _ _ _ T); auto.
Qed.

Lemma tree_grow ch x d d' : tree ch x (-1) d -> 0 < c_size d -> grow d d' -> tree ch x (-1) d'.
Proof.
  intros T Hz G. apply (tree_ext ch x (-1) (-1) d); auto.
  - apply (gr_cd _ _ G), (tr_cd _ _ _ _ T).
  - destruct (gr_old _ _ G 0) as (-> & -> & _); [lia|]. apply (tr_root _ _ _ _ T).
  - intros t [U1 U2] _. destruct (gr_old _ _ G t) as (E1 & E2 & E3); [lia|]. rewrite E1, E2, E3.
    pose proof (gr_size _ _ G). repeat split; auto; try lia.
  - intros t [U1 U2] _. destruct (Z_lt_le_dec t (c_size d)) as [L|L].
    + destruct (gr_old _ _ G t) as (E1 & E2 & E3); [lia|]. rewrite E2 in U2. repeat split; auto; lia.
    + destruct (gr_new _ _ G t) as [_ K]; lia.
  - destruct (gr_old _ _ G 0) as (_ & _ & E); [lia|auto].
Qed.
Lemma alloc_pos R B d : alloc R B d -> 256 <= c_size d.
Proof. intros H. destruct (al_size _ _ _ H) as (nb & ? & ->). lia. Qed.

(** A cell is taken. *)
Lemma tree_take ch x d R B e label from : alloc R B d -> tree ch x (-1) d -> free d e -> 0 <= from ->
  tree ch x e (take e label from d).
Proof.
  intros A T Hf Hfrom. destruct (take_ok R B d e label from A Hf Hfrom) as (R' & B' & _ & E1 & E2 & E3 & E4 & E5 & E6 & E7).
  assert (He0 : e <> 0) by (destruct Hf; lia).
  apply (tree_ext ch x (-1) e d); auto.
  - intros s. rewrite E3. apply (tr_cd _ _ _ _ T).
  - destruct (E6 0) as [-> ->]; auto. apply (tr_root _ _ _ _ T).
  - intros t U _. destruct (E6 t) as [F1 F2]; auto. rewrite F1, F2, E2.
    destruct U as [U1 U2]. split; [split; [lia|lia]|]. split; auto. intros ->. destruct Hf; lia.
  - intros t [U1 U2] Hne. rewrite E1 in U1. split; [|lia].
    split; auto. destruct (Z_lt_le_dec (ac d t) 0); auto. destruct (E7 t) as [_ K]; auto; [split; auto|lia].
  - rewrite E2. auto.
Qed.
(** A cell outside the trie is given back. *)
Lemma tree_push ch x d R B h : alloc R B d -> tree ch x h d -> used d h -> 256 <= h ->
  tree ch x (-1) (push_enode h d).
Proof.
  intros A T U Hh. destruct (push_enode_ok R B d h A U Hh) as (R' & B' & _ & E1 & E2 & E3 & E4 & E5 & E6).
  apply (tree_ext ch x h (-1) d); auto.
  - intros s. rewrite E3. destruct (fu_cases (cd d) h 0 s) as [[_ ->]|[_ ->]]; auto. apply (tr_cd _ _ _ _ T).
  - destruct (E5 0) as [-> ->]; auto; [lia|]. apply (tr_root _ _ _ _ T).
  - intros t Ut Hne. destruct (E5 t) as [F1 F2]; auto. rewrite F1, F2, E2, fu_ne by auto.
    destruct Ut as [U1 U2]. repeat split; auto; lia.
  - intros t [U1 U2] _. rewrite E1 in U1. assert (t <> h) by (intros ->; destruct E4; lia). split; auto.
    split; auto. destruct (Z_lt_le_dec (ac d t) 0); auto. destruct (E6 t) as [_ K]; [split; auto|lia].
  - rewrite E2, fu_ne by lia. auto.
Qed.

Definition put (ch : kids) (p l t : Z) : kids :=
  fun q k => if (q =? p) && (k =? l) then Some t else ch q k.
Lemma put_eq ch p l t : put ch p l t p l = Some t.
Proof. unfold put. rewrite !Z.eqb_refl. auto. Qed.
Lemma put_cases ch p l t q k : q = p /\ k = l /\ put ch p l t q k = Some t \/
  (q <> p \/ k <> l) /\ put ch p l t q k = ch q k.
Proof. unfold put. destruct (Z.eqb_spec q p), (Z.eqb_spec k l); cbn; auto. Qed.

(** Common part of attaching the spare cell [h] as a child. *)
Lemma tree_put ch x h d d' p l : tree ch x h d -> used d h -> inner ch p -> p <> h ->
  ch p l = None -> 0 <= l < 256 -> (p = 0 -> l <> 0) ->
  (* the spare cell has no children yet *)
  (forall k, ch h k = None) ->
  c_size d' = c_size d -> ab d' = ab d -> ac d' = ac d -> (forall s, cd d' s = 0) ->
  ac d h = p -> (l <> 0 -> ab d h = -1) ->
  (p <> x -> h = Z.lxor (ab d p) l /\ 0 <= ab d p /\ (p <> 0 -> 256 <= ab d p /\ (l = 0 \/ ch p 0 <> None)) /\
     exists L, slist (put ch p l h) p L /\ links (sb d') (ab d p) 0 L) ->
  (p = x -> p <> 0 -> 0 <= ab d p -> 256 <= ab d p /\ (l = 0 \/ ch p 0 <> None)) ->
  (forall q k t, q <> p -> ch q k = Some t -> sb d' t = sb d t) -> (p <> 0 -> sb d' 0 = sb d 0) ->
  tree (put ch p l h) x (-1) d'.
Proof.
  intros T Uh Hi Hph Hn Hl Hl0 Hk Esz Eab Eac Hcd Hac Hab H1 Hx H2 H3.
  assert (Hh0 : h <> 0) by (destruct Uh; lia).
  assert (UE : forall t, used d' t <-> used d t) by (intros t; unfold used; rewrite Esz, Eac; tauto).
  assert (IN : forall q, inner ch q -> inner (put ch p l h) q).
  { intros q [->|(r & k & Hk0 & E)]; [left; auto|right; exists r, k; split; auto].
    destruct (put_cases ch p l h r k) as [(-> & -> & K)|[_ ->]]; auto. congruence. }
  assert (NI : forall q, inner (put ch p l h) q -> inner ch q \/ q = h /\ l <> 0).
  { intros q [->|(r & k & Hk0 & E)]; [left; left; auto|].
    destruct (put_cases ch p l h r k) as [(-> & -> & K)|[_ K]]; rewrite K in E.
    - right. split; congruence.
    - left. right. eauto. }
  assert (P0 : forall q, ch q 0 <> None -> put ch p l h q 0 <> None).
  { intros q Hq. destruct (put_cases ch p l h q 0) as [(-> & <- & ->)|[_ ->]]; congruence. }
  constructor; auto.
  - rewrite Eac, Eab. apply (tr_root _ _ _ _ T).
  - intros q k t E. rewrite UE, Eac. destruct (put_cases ch p l h q k) as [(-> & -> & K)|[_ K]]; rewrite K in E.
    + apply Some_inj in E. subst t. repeat split; try apply Uh; auto; try lia. destruct Uh; lia.
    + pose proof (tr_ch _ _ _ _ T _ _ _ E) as (A1 & A2 & A3 & A4 & A5 & A6 & A7).
      repeat split; try apply A1; auto; try lia. destruct A1; lia.
  - intros t U _. rewrite UE in U. rewrite Eac. destruct (Z.eq_dec t h) as [->|Hne].
    + exists l. rewrite Hac. apply put_eq.
    + destruct (tr_all _ _ _ _ T t U Hne) as [k E]. exists k.
      destruct (put_cases ch p l h (ac d t) k) as [(E1 & -> & K)|[_ ->]]; auto. rewrite E1 in E. congruence.
  - intros q k k' t E E'.
    destruct (put_cases ch p l h q k) as [(-> & -> & K)|[_ K]]; rewrite K in E;
      destruct (put_cases ch p l h q k') as [(Q & -> & K')|[_ K']] || destruct (put_cases ch p l h p k') as [(Q & -> & K')|[_ K']]; try rewrite K' in E'; auto.
    + apply Some_inj in E. subst t. apply (tr_ch _ _ _ _ T) in E'. tauto.
    + subst q. apply Some_inj in E'. subst t. apply (tr_ch _ _ _ _ T) in E. tauto.
    + apply (tr_inj _ _ _ _ T q k k' t); auto.
  - intros q k t Hq E. rewrite Eab. destruct (put_cases ch p l h q k) as [(-> & -> & K)|[_ K]]; rewrite K in E.
    + apply Some_inj in E. subst t. destruct (H1 Hq) as (A1 & A2 & _). auto.
    + apply (tr_slot _ _ _ _ T); auto.
  - intros q Hq Hiq Hc. rewrite Eab. destruct (Z.eq_dec q p) as [->|Hne].
    + destruct (H1 Hq) as (_ & _ & _ & L & S & K). exists L. auto.
    + assert (EQ : forall k, put ch p l h q k = ch q k).
      { intros k. destruct (put_cases ch p l h q k) as [(E & _)|[_ ->]]; congruence. }
      assert (Hiq' : inner ch q).
      { destruct (NI q Hiq) as [|[-> _]]; auto. exfalso. destruct Hc as [|Hc]; [auto|]. rewrite EQ, Hk in Hc. congruence. }
      rewrite EQ in Hc. destruct (tr_sib _ _ _ _ T q Hq Hiq' Hc) as (L & [S1 S2] & K). exists L. split.
      * split; auto. intros k. rewrite EQ. auto.
      * apply (links_ext (sb d)); auto. intros k Hk'.
        assert (Cell : q = 0 /\ k = 0 \/ exists t, ch q k = Some t /\ t = Z.lxor (ab d q) k).
        { destruct Hk' as [<-|Hk'].
          - destruct Hc as [->|Hc]; [left; auto|right].
            destruct (ch q 0) as [t|] eqn:E; [|congruence]. exists t. split; auto. apply (tr_slot _ _ _ _ T q 0 t Hq E).
          - right. apply S2 in Hk' as [_ Hk']. destruct (ch q k) as [t|] eqn:E; [|congruence]. exists t. split; auto.
            apply (tr_slot _ _ _ _ T q k t Hq E). }
        destruct Cell as [[-> ->]|(t & E & <-)].
        -- pose proof (tr_root _ _ _ _ T) as [_ ->]. cbn. apply H3. auto.
        -- apply (H2 q k t); auto.
  - intros q Hiq Hq0. rewrite Eab. intros Hge. destruct (NI q Hiq) as [Hiq'|[-> Hl']].
    + destruct (Z.eq_dec q p) as [->|Hne].
      * destruct (Z.eq_dec p x) as [->|Hpx].
        -- destruct (Hx eq_refl Hq0 Hge) as [A1 A2]. split; auto. destruct A2 as [->|A2]; [rewrite put_eq; congruence|auto].
        -- destruct (H1 Hpx) as (_ & _ & A & _). destruct (A Hq0) as [A1 A2]. split; auto.
           destruct A2 as [->|A2]; [rewrite put_eq; congruence|auto].
      * destruct (tr_big _ _ _ _ T q Hiq' Hq0 Hge) as [A1 A2]. split; auto.
    + rewrite Hab in Hge by auto. lia.
Qed.
