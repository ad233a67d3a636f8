(** Proofs about Ukkonen's construction: the loop over the suffixes and the characters. *)
From Verif Require Import Base LfsTree Ukk UkkProofs UkkStepProofs.
Local Open Scope nat_scope.

Section Loop.
  Context (text : list N).
  Let n := length text.
  Notation eqw := (eqw text).

  Definition inner (nodes : list unode) (x : nat) : Prop := exists a, nth_error nodes x = Some a /\ u_leaf a = None.
  Definition link_ok (nodes : list unode) (p d : nat -> nat) (x u : nat) : Prop :=
    inner nodes u /\ d x = S (d u) /\ eqw (p u) (p x + 1) (d u).
  Definition links (nodes : list unode) (p d : nat -> nat) (last : nat) : Prop :=
    (forall r, nth_error nodes 0 = Some r -> u_link r = 0) /\
    (forall x a, x <> 0 -> x <> last -> nth_error nodes x = Some a -> u_leaf a = None -> link_ok nodes p d x (u_link a)).
  Record sinv (e pos last : nat) (s : ust) (p d : nat -> nat) : Prop := {
    s_T : tinv text e (s_suf s) (s_nodes s) p d;
    s_R : s_rem s = e - s_suf s /\ s_suf s <= e;
    s_A : inner (s_nodes s) (s_node s);
    s_D : d (s_node s) + s_len s = pos - s_suf s;
    s_W : eqw (p (s_node s)) (s_suf s) (d (s_node s));
    s_E : 0 < s_len s -> s_edge s = nth (pos - s_len s) text 0%N;
    s_P : s_suf s < pos -> exists i, i < s_suf s /\ eqw i (s_suf s) (pos - s_suf s);
    s_K : links (s_nodes s) p d last;
    s_Z : length (s_nodes s) <= 1 + (2 * s_suf s - 1) }.
  Definition lastok (pos : nat) (s : ust) (p d : nat -> nat) : Prop :=
    s_last s = 0 \/ (s_last s <> 0 /\ inner (s_nodes s) (s_last s) /\ 1 <= s_suf s /\ d (s_last s) = pos + 1 - s_suf s /\
      eqw (p (s_last s)) (s_suf s - 1) (d (s_last s))).

  Section Phase.
  Context (pos : nat) (c : N).
  Hypothesis Hpos : pos < n.
  Hypothesis Hc : c = nth pos text 0%N.

  Lemma text_at k : k < n -> nth_error text k = Some (nth k text 0%N).
  Proof. intros H. apply nth_error_nth'. exact H. Qed.

  Section State.
  Context (s : ust) (p d : nat -> nat).
  Hypothesis S : sinv (pos + 1) pos (s_last s) s p d.
  Hypothesis LO : lastok pos s p d.
  Hypothesis Hrem : s_rem s <> 0.
  Notation nodes := (s_nodes s).
  Notation x := (s_node s).
  Notation L := (s_len s).
  Notation suf := (s_suf s).
  Context (a : unode).
  Hypothesis Hx : nth_error nodes x = Some a.
  Hypothesis Ha : u_leaf a = None.
  Let edge := if L =? 0 then c else s_edge s.

  Lemma suf_le : suf <= pos. Proof. destruct (s_R _ _ _ _ _ _ S) as [A B]. lia. Qed.
  Lemma depth_eq : suf + (d x + L) = pos. Proof. pose proof (s_D _ _ _ _ _ _ S). pose proof suf_le. lia. Qed.
  Lemma edge_eq : edge = nth (suf + d x) text 0%N.
  Proof.
    pose proof depth_eq. unfold edge. destruct (Nat.eqb_spec L 0) as [E|E].
    - rewrite Hc. f_equal. lia.
    - rewrite (s_E _ _ _ _ _ _ S) by lia. f_equal. lia.
  Qed.
  (** when the active point is not at a node, the edge exists, and a suffix that carries the word lies below it *)
  Lemma find_edge i : 0 < L -> i < suf -> eqw i suf (pos - suf) -> exists y v, kfind edge (u_kids a) = Some y /\ nth_error nodes y = Some v /\
    match u_leaf v with None => eqw (p y) i (d y) /\ i + d y < pos + 1 | Some j => j = i end.
  Proof.
    intros HL Hi Hw. pose proof depth_eq as Hd.
    destruct (descend text _ _ _ _ _ (s_T _ _ _ _ _ _ S) x a i Hx Ha Hi) as (_ & y & v & Y1 & Y2 & Y3).
    { eapply eqw_trans; [exact (s_W _ _ _ _ _ _ S)|]. apply eqw_sym. eapply eqw_le; [|exact Hw]. lia. }
    exists y, v. split; [|auto]. rewrite edge_eq. apply in_kfind; [exact (t_det _ _ _ _ _ _ (s_T _ _ _ _ _ _ S) _ _ Hx)|].
    rewrite <- (Hw (d x)) by lia. auto.
  Qed.
  Lemma present_i : 0 < L -> exists i, i < suf /\ eqw i suf (pos - suf).
  Proof. intros H. apply (s_P _ _ _ _ _ _ S). pose proof depth_eq. lia. Qed.
  Lemma not_found : kfind edge (u_kids a) = None -> L = 0.
  Proof.
    intros H. destruct (Nat.eq_dec L 0); auto. destruct (present_i ltac:(lia)) as (i & I1 & I2).
    destruct (find_edge i ltac:(lia) I1 I2) as (y & v & Y1 & _). congruence.
  Qed.

  Section Found.
    Context (y : nat) (v : unode).
    Hypothesis Hk : kfind edge (u_kids a) = Some y.
    Hypothesis Hv : nth_error nodes y = Some v.
    Lemma found_facts : y <> 0 /\ u_start v = p y + d x /\ p y < suf /\
      match u_leaf v with None => u_end v = p y + d y /\ p y + d y <= pos + 1 /\ d x < d y /\ edge_len pos y v = d y - d x
      | Some _ => p y + d x < pos + 1 /\ edge_len pos y v = pos + 1 - (p y + d x) /\ L < edge_len pos y v end.
    Proof.
      apply kfind_in in Hk. destruct (t_kid _ _ _ _ _ _ (s_T _ _ _ _ _ _ S) _ _ _ _ Hx Hk) as (_ & A & w & W1 & W2 & _ & W3).
      assert (w = v) as -> by congruence. destruct (t_node _ _ _ _ _ _ (s_T _ _ _ _ _ _ S) y v A Hv) as [B1 B2].
      pose proof depth_eq. split; auto. split; auto. split; auto. unfold edge_len. replace (y =? 0) with false by lia.
      destruct (u_leaf v).
      - destruct B2 as (E & _). rewrite E, W2. cbn [Nat.eqb]. split; auto. split; auto. lia.
      - destruct B2 as (E & B2 & _). split; auto. split; auto. split; auto. rewrite E, W2.
        replace (p y + d y =? 0) with false by lia. lia.
    Qed.
    (** the word up to the active point, on the way to y *)
    Lemma on_edge : L < edge_len pos y v -> eqw (p y) suf (d x + L).
    Proof.
      intros HL. destruct found_facts as (F0 & F1 & F2 & F3). pose proof depth_eq as Hd. destruct (Nat.eq_dec L 0) as [E|E].
      - rewrite E, Nat.add_0_r. apply kfind_in in Hk. eapply eqw_trans; [|exact (s_W _ _ _ _ _ _ S)].
        apply eqw_sym. exact (t_agree _ _ _ _ _ _ (s_T _ _ _ _ _ _ S) _ _ _ _ Hx Hk).
      - destruct (present_i ltac:(lia)) as (i & I1 & I2). destruct (find_edge i ltac:(lia) I1 I2) as (y' & v' & Y1 & Y2 & Y3).
        assert (y' = y) as -> by congruence. assert (v' = v) as -> by congruence.
        destruct (u_leaf v) as [j|] eqn:Ej.
        + destruct (leaf_p text _ _ _ _ _ (s_T _ _ _ _ _ _ S) y j) as [<- _]; [eauto|]. subst j. eapply eqw_le; [|exact I2]. lia.
        + destruct Y3 as [Y3 _]. eapply eqw_trans; [eapply eqw_le; [|exact Y3]; lia|]. eapply eqw_le; [|exact I2]. lia.
    Qed.
    Lemma walk_down : edge_len pos y v <= L -> u_leaf v = None /\ 1 <= edge_len pos y v /\ edge_len pos y v = d y - d x /\ d x < d y /\ eqw (p y) suf (d y).
    Proof.
      intros HL. destruct found_facts as (F0 & F1 & F2 & F3). pose proof depth_eq as Hd.
      destruct (u_leaf v) as [j|] eqn:Ej; [lia|]. destruct F3 as (F3 & F4 & F5 & F6). split; auto. split; [lia|]. split; auto. split; auto.
      destruct (present_i ltac:(lia)) as (i & I1 & I2). destruct (find_edge i ltac:(lia) I1 I2) as (y' & v' & Y1 & Y2 & Y3).
      assert (y' = y) as -> by congruence. assert (v' = v) as -> by congruence. rewrite Ej in Y3. destruct Y3 as [Y3 _].
      eapply eqw_trans; [exact Y3|]. eapply eqw_le; [|exact I2]. lia.
    Qed.
    (** if the letter on the edge is the new one, a node without link forces the active point to be at a node *)
    Lemma last_at_node : L < edge_len pos y v -> nth (u_start v + L) text 0%N = c -> s_last s <> 0 -> L = 0.
    Proof.
      intros HL Hd Hl. destruct (Nat.eq_dec L 0) as [|E]; auto. exfalso.
      destruct LO as [?|(_ & (b & B1 & B2) & LS & LD & LW)]; [congruence|].
      pose proof (s_T _ _ _ _ _ _ S) as T. pose proof depth_eq as Hq. destruct found_facts as (F0 & F1 & F2 & F3).
      destruct (t_node _ _ _ _ _ _ T _ _ Hl B1) as [_ B3]. rewrite B2 in B3. destruct B3 as (_ & _ & B3).
      assert (K : exists k z, In (k, z) (u_kids b) /\ k <> c).
      { pose proof (t_det _ _ _ _ _ _ T _ _ B1) as D. destruct (u_kids b) as [|[k1 z1] [|[k2 z2] r]] eqn:Ek; cbn in B3; try lia.
        destruct (N.eq_dec k1 c) as [E1|E1]; [|exists k1, z1; split; [left; auto|auto]].
        exists k2, z2. split; [right; left; auto|]. intros E2. cbn in D. inversion D as [|? ? D1 D2]. apply D1. left. congruence. }
      destruct K as (k & z & K1 & K2).
      destruct (t_kid _ _ _ _ _ _ T _ _ _ _ B1 K1) as (_ & Z0 & w & W1 & W2 & W3 & W4).
      destruct (t_node _ _ _ _ _ _ T z w Z0 W1) as [Zp _].
      pose proof (t_agree _ _ _ _ _ _ T _ _ _ _ B1 K1) as Zw.
      assert (ZZ : eqw (p z) (suf - 1) (d (s_last s))) by (eapply eqw_trans; [apply eqw_sym; exact Zw|exact LW]).
      assert (Zne : p z + 1 <> suf).
      { intros Eq. apply K2. rewrite W3, W2, Hc. f_equal. lia. }
      assert (I2 : eqw (p z + 1) suf (pos - suf)).
      { replace suf with (suf - 1 + 1) at 1 by lia. apply eqw_tl. replace (Datatypes.S (pos - suf)) with (d (s_last s)) by lia. auto. }
      destruct (find_edge (p z + 1) ltac:(lia) ltac:(lia) I2) as (y' & v' & Y1 & Y2 & Y3).
      assert (y' = y) as -> by congruence. assert (v' = v) as -> by congruence.
      apply K2. rewrite <- Hd, W3, W2, F1. replace (p z + d (s_last s)) with (p z + 1 + (d x + L)) by lia.
      replace (p y + d x + L) with (p y + (d x + L)) by lia.
      destruct (u_leaf v) as [j|] eqn:Ej.
      - destruct (leaf_p text _ _ _ _ _ T y j) as [<- _]; [eauto|]. f_equal. lia.
      - symmetry. apply (proj1 Y3). lia.
    Qed.
  End Found.

  (** the node without link gets it *)
  Lemma new_link nodes' p' d' x' : (forall z, z < length nodes -> p' z = p z /\ (inner nodes z -> d' z = d z)) ->
    inner nodes' x' -> d' x' = pos - suf -> eqw (p' x') suf (pos - suf) -> s_last s <> 0 -> link_ok nodes' p' d' (s_last s) x'.
  Proof.
    intros Hpd Hi Hd Hw Hl. destruct LO as [?|(_ & LI & LS & LD & LW)]; [congruence|].
    assert (Ll : s_last s < length nodes) by (destruct LI as (b & B & _); apply nth_error_Some; congruence).
    destruct (Hpd _ Ll) as [P1 P2]. specialize (P2 LI). pose proof suf_le. split; auto. split; [lia|]. rewrite P1, Hd.
    eapply eqw_trans; [exact Hw|]. apply eqw_sym. replace suf with (suf - 1 + 1) at 1 by lia. apply eqw_tl.
    replace (Datatypes.S (pos - suf)) with (d (s_last s)) by lia. auto.
  Qed.
  Lemma node_not_last : s_last s <> 0 -> x <> s_last s.
  Proof. intros Hl. destruct LO as [?|(_ & _ & LS & LD & _)]; [congruence|]. pose proof depth_eq. intros E. rewrite E in *. lia. Qed.
  Lemma last_inner : s_last s <> 0 -> inner nodes (s_last s).
  Proof. intros Hl. destruct LO as [?|(_ & A & _)]; [congruence|auto]. Qed.

  (** what the two ways to insert a suffix have in common *)
  Lemma inserted nodes1 p' d' x' : tinv text (pos + 1) (suf + 1) nodes1 p' d' ->
    (forall z, z < length nodes -> p' z = p z /\ d' z = d z) ->
    (forall z v, nth_error nodes z = Some v -> exists v', nth_error nodes1 z = Some v' /\ u_leaf v' = u_leaf v /\ u_link v' = u_link v) ->
    (forall z v', nth_error nodes1 z = Some v' -> u_leaf v' = None -> z = x' \/ exists v, nth_error nodes z = Some v) ->
    inner nodes1 x' -> d' x' = pos - suf -> eqw (p' x') suf (pos - suf) -> length nodes1 <= 1 + (2 * (suf + 1) - 1) ->
    exists nodes2 s', add_sl nodes1 (s_last s) x' = Some nodes2 /\ after_insert text pos edge nodes2 s x' = Some s' /\
      sinv (pos + 1) pos (s_last s') s' p' d' /\ lastok pos s' p' d' /\ s_rem s' + 1 = s_rem s /\ s_len s' <= s_len s.
  Proof.
    intros T' Hpd Hold Hnew Hi' Hd' Hw' Hz'. pose proof (s_T _ _ _ _ _ _ S) as T. pose proof depth_eq as Hq. pose proof suf_le as Hs.
    assert (LL : exists v, nth_error nodes1 (s_last s) = Some v \/ s_last s = 0).
    { destruct (Nat.eq_dec (s_last s) 0) as [E|E]; [exists a; auto|]. destruct (last_inner E) as (b & B1 & B2). destruct (Hold _ _ B1) as (b' & C1 & _). eauto. }
    destruct LL as (vl & LL). destruct (add_sl_shape nodes1 (s_last s) x' vl LL) as (nodes2 & SL & SH & LN & ON & OL).
    pose proof (tinv_shape text _ _ _ _ _ _ SH T') as T2.
    assert (I2 : forall z, inner nodes1 z -> inner nodes2 z).
    { intros z (b & B1 & B2). destruct (shape_get _ _ z b (same_sym _ _ SH) B1) as (w & W1 & _ & _ & _ & W2). exists w. split; congruence. }
    assert (IO : forall z, inner nodes z -> inner nodes2 z).
    { intros z (b & B1 & B2). apply I2. destruct (Hold _ _ B1) as (b' & C1 & C2 & _). exists b'. split; congruence. }
    assert (LT : forall z, inner nodes z -> z < length nodes).
    { intros z (b & B & _). apply nth_error_Some. congruence. }
    (* the link of an old node that is not the last one *)
    assert (LK : forall z b, z <> 0 -> z <> s_last s -> nth_error nodes z = Some b -> u_leaf b = None -> link_ok nodes2 p' d' z (u_link b)).
    { intros z b Z0 Zl B1 B2. destruct (proj2 (s_K _ _ _ _ _ _ S) z b Z0 Zl B1 B2) as (U1 & U2 & U3).
      destruct (Hpd (u_link b) (LT _ U1)) as [P1 P2]. assert (Lz : z < length nodes) by (apply nth_error_Some; congruence).
      destruct (Hpd z Lz) as [P3 P4]. split; auto. rewrite P1, P2, P3, P4. auto. }
    (* the new tree *)
    assert (KK : links nodes2 p' d' x').
    { split.
      - intros r R. destruct (t_root _ _ _ _ _ _ T) as (r0 & R1 & R2). destruct (Hold _ _ R1) as (r1 & R3 & _ & R4).
        rewrite ON in R by (destruct (Nat.eq_dec (s_last s) 0); auto). assert (r = r1) as -> by congruence. rewrite R4. apply (proj1 (s_K _ _ _ _ _ _ S)). auto.
      - intros z b Z0 Zx B1 B2. destruct (shape_get _ _ z b SH B1) as (b1 & W1 & _ & _ & _ & W2).
        destruct (Hnew z b1 W1 ltac:(congruence)) as [->|(b0 & B0)]; [congruence|]. destruct (Hold _ _ B0) as (b1' & C1 & C2 & C3).
        assert (b1' = b1) as -> by congruence.
        destruct (Nat.eq_dec z (s_last s)) as [->|Nl].
        + destruct (OL Z0) as (w & O1 & O2). assert (w = b) as -> by congruence. rewrite O2.
          apply new_link; auto. intros z Hz. destruct (Hpd z Hz). auto.
        + rewrite ON in B1 by auto. assert (b = b1) as -> by congruence. rewrite C3. apply LK; auto. congruence. }
    assert (TX : nth_error nodes2 x = nth_error nodes1 x).
    { apply ON. destruct (Nat.eq_dec (s_last s) 0) as [|E]; auto. left. apply node_not_last. auto. }
    destruct (Hold _ _ Hx) as (a1 & A1 & A2 & A3).
    assert (RR : s_rem s = pos + 1 - suf) by (apply (s_R _ _ _ _ _ _ S)).
    assert (PP : suf + 1 < pos -> exists i, i < suf + 1 /\ eqw i (suf + 1) (pos - (suf + 1))).
    { intros H. destruct (s_P _ _ _ _ _ _ S ltac:(lia)) as (i & J1 & J2). exists (i + 1). split; [lia|]. apply eqw_tl.
      replace (Datatypes.S (pos - (suf + 1))) with (pos - suf) by lia. auto. }
    assert (LO' : x' = 0 \/ (x' <> 0 /\ inner nodes2 x' /\ 1 <= suf + 1 /\ d' x' = pos + 1 - (suf + 1) /\ eqw (p' x') (suf + 1 - 1) (d' x'))).
    { destruct (Nat.eq_dec x' 0); auto. right. split; auto. split; auto. split; [lia|]. split; [lia|]. rewrite Hd'.
      replace (suf + 1 - 1) with suf by lia. auto. }
    exists nodes2. unfold after_insert. destruct (Nat.eqb_spec x 0) as [X0|X0], (Nat.ltb_spec 0 L) as [HL|HL]; cbn [andb].
    - (* at the root *)
      rewrite text_at by lia. cbn [obind]. eexists. split; [exact SL|]. split; [reflexivity|]. split; [|split; [exact LO'|cbn [s_rem s_len]; lia]].
      assert (D0 : d x = 0) by (rewrite X0; apply (t_d0 _ _ _ _ _ _ T)).
      constructor; cbn [s_suf s_nodes s_rem s_node s_len s_edge s_last]; auto.
      + lia.
      + destruct (t_root _ _ _ _ _ _ T2) as (r & R). exists r. auto.
      + rewrite (t_d0 _ _ _ _ _ _ T'). lia.
      + rewrite (t_d0 _ _ _ _ _ _ T'). intros k Hk. lia.
      + intros H. f_equal. lia.
      + lia.
    - rewrite TX, A1. cbn [obind]. eexists. split; [exact SL|]. split; [reflexivity|]. split; [|split; [exact LO'|cbn [s_rem s_len]; lia]].
      assert (D0 : d x = 0) by (rewrite X0; apply (t_d0 _ _ _ _ _ _ T)).
      assert (U0 : u_link a1 = 0) by (rewrite A3; apply (proj1 (s_K _ _ _ _ _ _ S)); rewrite <- X0; auto).
      constructor; cbn [s_suf s_nodes s_rem s_node s_len s_edge s_last]; auto; try rewrite U0; try rewrite (t_d0 _ _ _ _ _ _ T'); try lia.
      + destruct (t_root _ _ _ _ _ _ T2) as (r & R). exists r. auto.
      + intros k Hk. lia.
    - rewrite TX, A1. cbn [obind]. eexists. split; [exact SL|]. split; [reflexivity|]. split; [|split; [exact LO'|cbn [s_rem s_len]; lia]].
      assert (NL : x <> s_last s) by (destruct (Nat.eq_dec (s_last s) 0); [lia|apply node_not_last; auto]).
      destruct (LK x a X0 NL Hx Ha) as (U1 & U2 & U3). rewrite <- A3 in U1, U2, U3.
      assert (Lx : x < length nodes) by (apply nth_error_Some; congruence). destruct (Hpd x Lx) as [P1 P2].
      constructor; cbn [s_suf s_nodes s_rem s_node s_len s_edge s_last]; auto; try lia.
      + eapply eqw_trans; [exact U3|]. rewrite P1. apply eqw_tl. rewrite <- U2, P2. exact (s_W _ _ _ _ _ _ S).
      + intros _. rewrite edge_eq. f_equal. lia.
    - rewrite TX, A1. cbn [obind]. eexists. split; [exact SL|]. split; [reflexivity|]. split; [|split; [exact LO'|cbn [s_rem s_len]; lia]].
      assert (NL : x <> s_last s) by (destruct (Nat.eq_dec (s_last s) 0); [lia|apply node_not_last; auto]).
      destruct (LK x a X0 NL Hx Ha) as (U1 & U2 & U3). rewrite <- A3 in U1, U2, U3.
      assert (Lx : x < length nodes) by (apply nth_error_Some; congruence). destruct (Hpd x Lx) as [P1 P2].
      constructor; cbn [s_suf s_nodes s_rem s_node s_len s_edge s_last]; auto; try lia.
      eapply eqw_trans; [exact U3|]. rewrite P1. apply eqw_tl. rewrite <- U2, P2. exact (s_W _ _ _ _ _ _ S).
  Qed.
  End State.

  Lemma step_ok s p d : sinv (pos + 1) pos (s_last s) s p d -> lastok pos s p d -> s_rem s <> 0 ->
    (exists s' p' d', add_step text pos c s = Some (true, s') /\ sinv (pos + 1) pos (s_last s') s' p' d' /\ lastok pos s' p' d' /\
       ((s_rem s' = s_rem s /\ s_len s' < s_len s) \/ (s_rem s' + 1 = s_rem s /\ s_len s' <= s_len s))) \/
    (exists s' p' d', add_step text pos c s = Some (false, s') /\ sinv (pos + 1) (pos + 1) 0 s' p' d').
  Proof.
    intros S LO R0. unfold add_step.
    pose proof (s_T _ _ _ _ _ _ S) as T. destruct (s_A _ _ _ _ _ _ S) as (a & A1 & A2). rewrite A1. cbn [obind]. rewrite A2.
    assert (Hx : s_node s < length (s_nodes s)) by (apply nth_error_Some; congruence).
    pose proof (depth_eq s p d S R0) as Hq. pose proof (suf_le s p d S R0) as Hs. pose proof (edge_eq s p d S R0) as He. cbv zeta in He.
    set (edge := if s_len s =? 0 then c else s_edge s) in *.
    destruct (kfind edge (u_kids a)) as [y|] eqn:Ek.
    - destruct (kfind_in _ _ _ Ek) as [] || pose proof (kfind_in _ _ _ Ek) as Hin.
      destruct (t_kid _ _ _ _ _ _ T _ _ _ _ A1 Hin) as (_ & Y0 & v & V1 & V2 & V3 & V4). rewrite V1. cbn [obind].
      destruct (found_facts s p d S R0 a A1 y v Ek V1) as (_ & _ & F2 & F3).
      assert (Ly : y < length (s_nodes s)) by (apply nth_error_Some; congruence).
      destruct (Nat.leb_spec (edge_len pos y v) (s_len s)) as [HL|HL].
      + (* walk down *)
        destruct (walk_down s p d S R0 a A1 A2 y v Ek V1 HL) as (W1 & W2 & W3 & W4 & W5). rewrite text_at by lia. cbn [obind]. left.
        eexists; exists p, d; split; [reflexivity|]; split; [|split; [exact LO|cbn [s_rem s_len]; lia]].
        constructor; cbn [s_suf s_nodes s_rem s_node s_len s_edge s_last]; try apply S; auto; try lia. exists v. auto.
      + assert (Hr : u_start v + s_len s < n) by (destruct (u_leaf v); lia). rewrite text_at by auto. cbn [obind].
        pose proof (on_edge s p d S R0 a A1 A2 y v Ek V1 HL) as OE.
        destruct (N.eqb_spec (nth (u_start v + s_len s) text 0%N) c) as [Ec|Ec].
        * (* the letter is there *)
          assert (LL : exists w, nth_error (s_nodes s) (s_last s) = Some w \/ s_last s = 0).
          { destruct (Nat.eq_dec (s_last s) 0) as [E|E]; [exists a; auto|]. destruct (last_inner s p d LO E) as (b & B1 & B2). eauto. }
          destruct LL as (vl & LL). destruct (add_sl_shape (s_nodes s) (s_last s) (s_node s) vl LL) as (nodes2 & SL & SH & LN & ON & OL).
          rewrite SL. cbn [obind]. right. eexists; exists p, d; split; [reflexivity|].
          pose proof (tinv_shape text _ _ _ _ _ _ SH T) as T2.
          assert (I2 : forall z, inner (s_nodes s) z -> inner nodes2 z).
          { intros z (b & B1 & B2). destruct (shape_get _ _ z b (same_sym _ _ SH) B1) as (w & W1 & _ & _ & _ & W2). exists w. split; congruence. }
          destruct (s_R _ _ _ _ _ _ S) as [Q1 Q2].
          constructor; cbn [s_suf s_nodes s_rem s_node s_len s_edge s_last]; auto; try lia.
          -- apply I2. exists a. auto.
          -- apply S.
          -- intros _. rewrite He. f_equal. lia.
          -- intros _. exists (p y). split; auto. intros k Hk. destruct (Nat.eq_dec k (d (s_node s) + s_len s)) as [->|Hn].
             ++ rewrite Hq, <- Hc, <- Ec, V2. f_equal. lia.
             ++ apply OE. lia.
          -- split.
             ++ intros r Rr. rewrite ON in Rr by (destruct (Nat.eq_dec (s_last s) 0); auto). apply (proj1 (s_K _ _ _ _ _ _ S)). auto.
             ++ intros z b Z0 _ B1 B2. destruct (Nat.eq_dec z (s_last s)) as [->|Nl].
                ** destruct (OL Z0) as (w & O1 & O2). assert (w = b) as -> by congruence. rewrite O2.
                   pose proof (last_at_node s p d S LO R0 a A1 A2 y v Ek V1 HL Ec Z0) as L0.
                   apply (new_link s p d S LO R0 nodes2 p d (s_node s)); auto; [apply I2; exists a; auto|lia|].
                   replace (pos - s_suf s) with (d (s_node s)) by lia. apply S.
                ** rewrite ON in B1 by auto. destruct (proj2 (s_K _ _ _ _ _ _ S) z b Z0 Nl B1 B2) as (U1 & U2 & U3). split; auto.
          -- rewrite LN. apply S.
        * (* split *)
          assert (L1 : 1 <= s_len s).
          { destruct (Nat.eq_dec (s_len s) 0) as [E|E]; [|lia]. exfalso. apply Ec. rewrite E, Nat.add_0_r, <- V3, He, Hc. f_equal. lia. }
          assert (Hel : match u_leaf v with None => d (s_node s) + s_len s < d y | Some _ => p y + (d (s_node s) + s_len s) < pos + 1 end)
            by (destruct (u_leaf v); lia).
          set (dch := nth (u_start v + s_len s) text 0%N) in *.
          pose proof (add_split text (pos + 1) (s_suf s) (s_nodes s) p d T (s_node s) a pos A1 A2 ltac:(lia) y v (s_len s) edge dch c Ek V1 L1 ltac:(lia) Hc eq_refl Ec Hel OE) as T'.
          destruct (split_vals text (pos + 1) (s_suf s) (s_nodes s) p d (s_node s) pos ltac:(lia) y v (s_len s) dch c L1 ltac:(lia) Hc eq_refl Ec) as (P1 & P2 & D1).
          destruct (inserted s p d S LO R0 a A1 A2 _ _ _ (length (s_nodes s)) T') as (nodes2 & s' & Z1 & Z2 & Z3 & Z4 & Z5 & Z6).
          -- intros z Hz. split; [exact (split_p_old text (pos + 1) (s_suf s) (s_nodes s) p d (s_node s) pos ltac:(lia) y v (s_len s) dch c L1 ltac:(lia) Hc eq_refl Ec z Hz)|].
             unfold split_d. replace (z =? length (s_nodes s)) with false by lia. auto.
          -- intros z w W. destruct (split_old text (pos + 1) (s_suf s) (s_nodes s) p d T (s_node s) a pos A1 A2 ltac:(lia) y v (s_len s) edge dch c Ek V1 L1 ltac:(lia) Hc eq_refl Ec Hel OE z w W)
               as (w' & B1 & _ & _ & B2 & B3 & _). eauto.
          -- intros z w' W Wl. destruct (split_new text (pos + 1) (s_suf s) (s_nodes s) p d T (s_node s) a pos A1 A2 ltac:(lia) y v (s_len s) edge dch c Ek V1 L1 ltac:(lia) Hc eq_refl Ec Hel OE z w' W)
               as [[B1 _]|[[B1 B2]|(_ & w & B1 & _)]]; [auto|rewrite B2 in Wl; discriminate|eauto].
          -- eexists. split.
             ++ unfold split_nodes. rewrite nth_error_app2 by (rewrite !upd_length; lia). rewrite !upd_length, Nat.sub_diag. reflexivity.
             ++ reflexivity.
          -- rewrite D1. lia.
          -- rewrite P1. replace (pos - s_suf s) with (d (s_node s) + s_len s) by lia. auto.
          -- unfold split_nodes. rewrite app_length, !upd_length. cbn [length]. pose proof (s_Z _ _ _ _ _ _ S). lia.
          -- unfold split_nodes in Z1. rewrite Z1. cbn [obind]. fold edge in Z2. rewrite Z2. cbn [obind]. left. eexists; eexists; eexists; split; [reflexivity|]; split; [exact Z3|]; split; [exact Z4|lia].
    - (* a new leaf *)
      pose proof (not_found s p d S R0 a A1 A2 Ek) as L0.
      assert (Ee : edge = c) by (unfold edge; rewrite L0; auto). rewrite Ee in *.
      pose proof (add_leaf text (pos + 1) (s_suf s) (s_nodes s) p d T (s_node s) a pos A1 A2 ltac:(lia) c Hc ltac:(lia) (s_W _ _ _ _ _ _ S) Ek) as T'.
      destruct (inserted s p d S LO R0 a A1 A2 _ _ _ (s_node s) T') as (nodes2 & s' & Z1 & Z2 & Z3 & Z4 & Z5 & Z6).
      + intros z Hz. split; [exact (leaf_p_old text (pos + 1) (s_suf s) (s_nodes s) p d (s_node s) pos ltac:(lia) c Hc ltac:(lia) z Hz)|auto].
      + intros z w W. destruct (leaf_old text (pos + 1) (s_suf s) (s_nodes s) d (s_node s) a pos A1 ltac:(lia) c Hc ltac:(lia) Ek z w W)
          as (w' & B1 & _ & _ & B2 & B3 & _). eauto.
      + intros z w' W Wl. destruct (leaf_new text (pos + 1) (s_suf s) (s_nodes s) d (s_node s) a pos A1 ltac:(lia) c Hc ltac:(lia) Ek z w' W)
          as [[B1 B2]|(_ & w & B1 & _)]; [rewrite B2 in Wl; discriminate|eauto].
      + destruct (leaf_old text (pos + 1) (s_suf s) (s_nodes s) d (s_node s) a pos A1 ltac:(lia) c Hc ltac:(lia) Ek _ _ A1) as (w' & B1 & _ & _ & B2 & _).
        exists w'. split; congruence.
      + lia.
      + replace (pos - s_suf s) with (d (s_node s)) by lia.
        rewrite (leaf_p_old text (pos + 1) (s_suf s) (s_nodes s) p d (s_node s) pos ltac:(lia) c Hc ltac:(lia) _ Hx). apply S.
      + unfold leaf_nodes. rewrite app_length, upd_length. cbn [length]. pose proof (s_Z _ _ _ _ _ _ S). lia.
      + unfold leaf_nodes in Z1. rewrite Z1. cbn [obind]. fold edge in Z2. rewrite Ee in Z2. rewrite Z2. cbn [obind]. left. eexists; eexists; eexists; split; [reflexivity|]; split; [exact Z3|]; split; [exact Z4|lia].
  Qed.

  Lemma sinv_done s p d : sinv (pos + 1) pos (s_last s) s p d -> lastok pos s p d -> s_rem s = 0 -> sinv (pos + 1) (pos + 1) 0 s p d.
  Proof.
    intros S LO R0. destruct (s_R _ _ _ _ _ _ S) as [Q1 Q2]. pose proof (s_D _ _ _ _ _ _ S) as Q3.
    assert (E : s_suf s = pos + 1) by lia.
    assert (L0 : s_last s = 0).
    { destruct LO as [L0|(L0 & L1 & _ & L2 & _)]; [auto|]. pose proof (inner_pos text _ _ _ _ _ (s_T _ _ _ _ _ _ S) _ L1 L0). lia. }
    pose proof (s_K _ _ _ _ _ _ S) as K. rewrite L0 in K. destruct S. constructor; auto; lia.
  Qed.
  Lemma loop_ok : forall fuel s p d, sinv (pos + 1) pos (s_last s) s p d -> lastok pos s p d -> s_rem s * (n + 2) + s_len s <= fuel ->
    exists s' p' d', add_loop text pos c fuel s = Some s' /\ sinv (pos + 1) (pos + 1) 0 s' p' d'.
  Proof.
    induction fuel as [|f IH]; intros s p d S LO Hf; unfold add_loop; fold add_loop; destruct (Nat.eqb_spec (s_rem s) 0) as [R0|R0].
    1, 3: exists s, p, d; split; [auto|]; apply sinv_done; auto.
    { exfalso. nia. }
    destruct (step_ok s p d S LO R0) as [(s' & p' & d' & E & S' & LO' & M)|(s' & p' & d' & E & S')]; rewrite E; cbn [obind].
    - apply (IH s' p' d' S' LO'). nia.
    - eauto.
  Qed.
  End Phase.

  Lemma feed_ok : forall rest pos s p d, pos + length rest = n -> rest = skipn pos text -> sinv pos pos 0 s p d ->
    exists s' p' d', feed text (S n * (n + 3)) pos rest s = Some s' /\ sinv n n 0 s' p' d'.
  Proof.
    induction rest as [|c rest IH]; intros pos s p d Hn Hr S; cbn [feed length] in *.
    - replace pos with n in S by lia. eauto 6.
    - assert (Hp : pos < n) by lia.
      assert (Hc : c = nth pos text 0%N /\ rest = skipn (pos + 1) text).
      { rewrite (skipn_cons_nth text pos 0%N) in Hr by auto. injection Hr as -> ->. rewrite Nat.add_1_r. split; reflexivity. }
      destruct Hc as [Hc Hr']. destruct (s_R _ _ _ _ _ _ S) as [Q1 Q2]. pose proof (s_D _ _ _ _ _ _ S) as Q3.
      unfold add_char. destruct (loop_ok pos c Hp Hc (Datatypes.S n * (n + 3)) (mk_ust (s_nodes s) (s_suf s) (s_rem s + 1) (s_node s) (s_edge s) (s_len s) 0) p d) as (s' & p' & d' & E & S').
      + destruct S. constructor; cbn [s_suf s_nodes s_rem s_node s_len s_edge s_last] in *; auto; try lia. eapply tinv_extend; [|eauto]. lia.
      + left. reflexivity.
      + cbn [s_rem s_len]. nia.
      + rewrite E. cbn [obind]. apply (IH (pos + 1) s' p' d'); auto. lia.
  Qed.
  Lemma sinv0 : sinv 0 0 0 ust0 (fun _ => 0) (fun _ => 0).
  Proof.
    assert (Q : forall z v, nth_error (s_nodes ust0) z = Some v -> z = 0 /\ v = mk_un 0 0 [] 0 None).
    { intros [|[|z]] v H; cbn in H; try discriminate. injection H as <-. auto. }
    constructor; cbn [s_suf s_rem s_node s_len s_edge s_last ust0]; auto; try lia.
    - constructor; try (intros; lia).
      + eexists. split; reflexivity.
      + intros x a c y H Hin. destruct (Q _ _ H) as [-> ->]. destruct Hin.
      + intros x a c y H Hin. destruct (Q _ _ H) as [-> ->]. destruct Hin.
      + intros y v Hy H. destruct (Q _ _ H). lia.
      + intros y v Hy H. destruct (Q _ _ H). lia.
      + intros x a c x' a' c' y H Hin. destruct (Q _ _ H) as [-> ->]. destruct Hin.
      + intros x a H. destruct (Q _ _ H) as [-> ->]. constructor.
      + intros y v y' v' i H Hin. destruct (Q _ _ H) as [-> ->]. discriminate.
    - eexists. split; reflexivity.
    - intros k Hk. lia.
    - split.
      + intros r H. destruct (Q _ _ H) as [_ ->]. auto.
      + intros x a H0 _ H. destruct (Q _ _ H). lia.
  Qed.

  (** after the whole text; a terminator makes every suffix a leaf *)
  Lemma suffix_tree_inv : exists nodes suf p d, suffix_tree text = Some nodes /\ tinv text n suf nodes p d /\ suf <= n /\ links nodes p d 0 /\ (suf < n -> exists i, i < suf /\ eqw i suf (n - suf)) /\ length nodes <= 1 + (2 * suf - 1).
  Proof.
    destruct (feed_ok text 0 ust0 (fun _ => 0) (fun _ => 0)) as (s & p & d & E & S); auto; [apply sinv0|].
    unfold suffix_tree. fold n. rewrite E. cbn [obind]. exists (s_nodes s), (s_suf s), p, d. split; auto. destruct S. intuition.
  Qed.
End Loop.
