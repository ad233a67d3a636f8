(** Proofs about Ukkonen's construction: inserting a leaf, splitting an edge. *)
From Verif Require Import Base LfsTree Ukk UkkProofs.
Local Open Scope nat_scope.

Lemma nth_error_snoc {A} (l l' : list A) z : nth_error (l ++ l') z = if z <? length l then nth_error l z else nth_error l' (z - length l).
Proof.
  destruct (Nat.ltb_spec z (length l)); [apply nth_error_app1|apply nth_error_app2]; auto.
Qed.

Section Step.
  Context (text : list N) (e suf : nat) (nodes : list unode) (p d : nat -> nat).
  Hypothesis I : tinv text e suf nodes p d.
  Context (x : nat) (a : unode) (pos : nat).
  Hypothesis Hx : nth_error nodes x = Some a.
  Hypothesis Ha : u_leaf a = None.
  Hypothesis Hpos : pos < e.
  Let N0 := length nodes.

  Lemma x_lt : x < N0. Proof. apply nth_error_Some. congruence. Qed.
  Lemma old_lt z v : nth_error nodes z = Some v -> z < N0. Proof. intros. apply nth_error_Some. congruence. Qed.
  Lemma kid_lt z v k y : nth_error nodes z = Some v -> In (k, y) (u_kids v) -> y < N0 /\ y <> 0.
  Proof.
    intros H1 H2. destruct (t_kid _ _ _ _ _ _ I _ _ _ _ H1 H2) as (_ & A & w & B & _). split; auto. eapply old_lt; eauto.
  Qed.
  Lemma root_lt : 0 < N0. Proof. destruct (t_root _ _ _ _ _ _ I) as (r & R & _). eapply old_lt; eauto. Qed.

  Section Leaf.
    Context (c : N).
    Hypothesis Hc : c = nth pos text 0%N.
    Hypothesis Hp : pos = suf + d x.
    Hypothesis Hw : eqw text (p x) suf (d x).
    Hypothesis Hf : kfind c (u_kids a) = None.
    Definition leaf_nodes := upd nodes x (with_kids a (kput c (length nodes) (u_kids a))) ++ [mk_un pos 0 [] 0 (Some suf)].
    Definition leaf_p' (z : nat) : nat := if z =? length nodes then suf else p z.

    Lemma leaf_node z : nth_error leaf_nodes z =
      if z =? x then Some (with_kids a (u_kids a ++ [(c, N0)])) else if z =? N0 then Some (mk_un pos 0 [] 0 (Some suf)) else nth_error nodes z.
    Proof.
      unfold leaf_nodes. rewrite nth_error_snoc, upd_length. fold N0. rewrite kput_new by auto. pose proof x_lt.
      destruct (Nat.eqb_spec z x) as [->|Hne].
      - replace (x <? N0) with true by lia. apply nth_error_upd_eq. auto.
      - destruct (Nat.ltb_spec z N0).
        + rewrite nth_error_upd_ne by auto. replace (z =? N0) with false by lia. auto.
        + destruct (Nat.eqb_spec z N0) as [->|]; [rewrite Nat.sub_diag; auto|].
          destruct (z - N0) as [|k] eqn:E; [lia|]. cbn. destruct k; symmetry; apply nth_error_None; unfold N0 in *; lia.
    Qed.
    (** an old node in the new tree *)
    Lemma leaf_old z v : nth_error nodes z = Some v -> exists v', nth_error leaf_nodes z = Some v' /\ u_start v' = u_start v /\
      u_end v' = u_end v /\ u_leaf v' = u_leaf v /\ u_link v' = u_link v /\ u_kids v' = if z =? x then u_kids a ++ [(c, N0)] else u_kids v.
    Proof.
      intros H. rewrite leaf_node. pose proof (old_lt _ _ H). destruct (Nat.eqb_spec z x) as [->|].
      - assert (v = a) as -> by congruence. eexists. split; [reflexivity|]. cbn. auto.
      - replace (z =? N0) with false by lia. exists v. auto 6.
    Qed.
    Lemma leaf_new z v' : nth_error leaf_nodes z = Some v' -> (z = N0 /\ v' = mk_un pos 0 [] 0 (Some suf)) \/
      (z < N0 /\ exists v, nth_error nodes z = Some v /\ u_start v' = u_start v /\ u_end v' = u_end v /\ u_leaf v' = u_leaf v /\
        u_kids v' = if z =? x then u_kids a ++ [(c, N0)] else u_kids v).
    Proof.
      intros H. destruct (lt_dec z N0) as [L|L].
      - right. split; auto. destruct (nth_error nodes z) as [v|] eqn:E; [|apply nth_error_None in E; unfold N0 in *; lia].
        destruct (leaf_old z v E) as (w & W1 & W2 & W3 & W4 & _ & W5). assert (w = v') as -> by congruence. exists v. auto 6.
      - left. rewrite leaf_node in H. pose proof x_lt. replace (z =? x) with false in H by lia.
        destruct (Nat.eqb_spec z N0) as [->|]; [split; congruence|]. assert (z < length nodes) by (apply nth_error_Some; congruence). unfold N0 in *. lia.
    Qed.
    Lemma leaf_kids z v' k y : nth_error leaf_nodes z = Some v' -> In (k, y) (u_kids v') ->
      (z = x /\ k = c /\ y = N0) \/ (y < N0 /\ y <> 0 /\ exists v, nth_error nodes z = Some v /\ In (k, y) (u_kids v)).
    Proof.
      intros H Hin. destruct (leaf_new _ _ H) as [[-> ->]|(L & v & V1 & _ & _ & _ & V5)]; [destruct Hin|].
      rewrite V5 in Hin. destruct (Nat.eqb_spec z x) as [->|].
      - assert (v = a) as -> by congruence. apply in_app_iff in Hin. destruct Hin as [Hin|[E|[]]]; [|injection E as <- <-; auto].
        right. destruct (kid_lt _ _ _ _ Hx Hin). eauto.
      - right. destruct (kid_lt _ _ _ _ V1 Hin). eauto.
    Qed.
    Lemma leaf_kids_old z v k y : nth_error nodes z = Some v -> In (k, y) (u_kids v) ->
      exists v', nth_error leaf_nodes z = Some v' /\ In (k, y) (u_kids v').
    Proof.
      intros H Hin. destruct (leaf_old z v H) as (v' & V1 & _ & _ & _ & _ & V2). exists v'. split; auto. rewrite V2.
      destruct (Nat.eqb_spec z x) as [->|]; auto. assert (v = a) as -> by congruence. apply in_or_app. auto.
    Qed.
    Lemma leaf_p_old z : z < N0 -> leaf_p' z = p z.
    Proof. intros H. unfold leaf_p'. fold N0. replace (z =? N0) with false by lia. auto. Qed.
    Lemma leaf_p_new : leaf_p' N0 = suf.
    Proof. unfold leaf_p', N0. rewrite Nat.eqb_refl. auto. Qed.

    Lemma add_leaf : tinv text e (suf + 1) leaf_nodes leaf_p' d.
    Proof.
      pose proof x_lt as Lx. pose proof root_lt as L0.
      assert (NX : nth_error leaf_nodes N0 = Some (mk_un pos 0 [] 0 (Some suf))).
      { rewrite leaf_node, Nat.eqb_refl. replace (N0 =? x) with false by lia. auto. }
      constructor.
      - destruct (t_root _ _ _ _ _ _ I) as (r & R1 & R2). destruct (leaf_old _ _ R1) as (v' & V1 & _ & _ & V2 & _). exists v'. split; congruence.
      - exact (t_d0 _ _ _ _ _ _ I).
      - intros z v' k y H Hin. destruct (leaf_kids _ _ _ _ H Hin) as [(-> & -> & ->)|(L1 & L2 & v & V1 & V2)].
        + destruct (leaf_old _ _ Hx) as (w & W1 & _ & _ & W2 & _). split; [congruence|]. split; [lia|].
          eexists. split; [exact NX|]. cbn. rewrite leaf_p_new. split; auto. split; auto. lia.
        + destruct (t_kid _ _ _ _ _ _ I _ _ _ _ V1 V2) as (A & B & w & W1 & W2 & W3 & W4).
          destruct (leaf_old _ _ V1) as (v'' & U1 & _ & _ & U2 & _). split; [congruence|]. split; auto.
          destruct (leaf_old _ _ W1) as (w' & X1 & X2 & _ & X3 & _). exists w'. rewrite leaf_p_old by auto. rewrite X2, X3. auto.
      - intros z v' k y H Hin. destruct (leaf_kids _ _ _ _ H Hin) as [(-> & -> & ->)|(L1 & L2 & v & V1 & V2)].
        + rewrite leaf_p_new, leaf_p_old by auto. auto.
        + rewrite !leaf_p_old by (auto; eapply old_lt; eauto). eapply (t_agree _ _ _ _ _ _ I); eauto.
      - intros y v' Hy H. destruct (leaf_new _ _ H) as [[-> ->]|(L & v & V1 & _ & V2 & V3 & V4)].
        + rewrite leaf_p_new. cbn. split; [lia|auto].
        + rewrite leaf_p_old by auto. destruct (t_node _ _ _ _ _ _ I y v Hy V1) as [A B]. split; [lia|]. rewrite V2, V3.
          destruct (u_leaf v) as [i|] eqn:Ei.
          * destruct B as (B1 & B2 & B3). split; auto. split; auto. rewrite V4. destruct (Nat.eqb_spec y x) as [->|]; auto. congruence.
          * destruct B as (B1 & B2 & B3). split; auto. split; auto. rewrite V4. destruct (Nat.eqb_spec y x) as [->|]; auto.
            assert (v = a) as -> by congruence. rewrite app_length. lia.
      - intros y v' Hy H. destruct (leaf_new _ _ H) as [[-> ->]|(L & v & V1 & _)].
        + destruct (leaf_old _ _ Hx) as (w & W1 & _ & _ & _ & _ & W2). exists x, w, c. split; auto. rewrite W2, Nat.eqb_refl. apply in_or_app. right. left. auto.
        + destruct (t_par _ _ _ _ _ _ I y v Hy V1) as (z & b & k & B1 & B2). destruct (leaf_kids_old _ _ _ _ B1 B2) as (b' & C1 & C2). eauto.
      - intros z v k z' v' k' y H1 H2 H3 H4.
        destruct (leaf_kids _ _ _ _ H1 H2) as [(-> & _ & E)|(L1 & L2 & b & B1 & B2)],
          (leaf_kids _ _ _ _ H3 H4) as [(-> & _ & E')|(L1' & L2' & b' & B1' & B2')]; auto; try lia.
        eapply (t_uniq _ _ _ _ _ _ I); eauto.
      - intros z v' H. destruct (leaf_new _ _ H) as [[-> ->]|(L & v & V1 & _ & _ & _ & V4)]; [constructor|]. rewrite V4.
        pose proof (t_det _ _ _ _ _ _ I _ _ V1) as D. destruct (Nat.eqb_spec z x) as [->|]; auto. assert (v = a) as -> by congruence.
        rewrite map_app. cbn [map fst]. apply (proj2 (NoDup_count_occ' N.eq_dec _)). intros k Hk.
        rewrite count_occ_app. cbn [count_occ]. assert (Nc : ~ In c (map fst (u_kids a))).
        { intros Hin. apply in_map_iff in Hin. destruct Hin as ([c' y] & E & Hin). cbn in E. subst c'. eapply kfind_none; eauto. }
        rewrite (NoDup_count_occ' N.eq_dec) in D. apply in_app_iff in Hk. destruct (N.eq_dec c k) as [<-|Hne].
        + rewrite (proj1 (count_occ_not_In N.eq_dec _ _) Nc). auto.
        + destruct Hk as [Hk|[Hk|[]]]; [rewrite D by auto; auto|congruence].
      - intros i Hi. destruct (Nat.eq_dec i suf) as [->|]; [exists N0; eexists; split; [exact NX|reflexivity]|].
        destruct (t_leaf _ _ _ _ _ _ I i ltac:(lia)) as (y & v & V1 & V2). destruct (leaf_old _ _ V1) as (v' & W1 & _ & _ & W2 & _).
        exists y, v'. split; congruence.
      - intros y v y' v' i H1 H2 H3 H4.
        assert (Q : forall z w, nth_error nodes z = Some w -> u_leaf w = Some suf -> False).
        { intros z w Z1 Z2. destruct (leaf_p text e suf nodes p d I z suf) as [_ X]; [eauto|]. lia. }
        destruct (leaf_new _ _ H1) as [[-> ->]|(L & b & B1 & _ & _ & B2 & _)], (leaf_new _ _ H3) as [[-> ->]|(L' & b' & B1' & _ & _ & B2' & _)]; auto.
        + cbn in H2. injection H2 as <-. exfalso. apply (Q y' b'); congruence.
        + cbn in H4. injection H4 as <-. exfalso. apply (Q y b); congruence.
        + apply (t_leafu _ _ _ _ _ _ I y b y' b' i); congruence.
    Qed.
  End Leaf.

  Section Split.
    Context (y : nat) (v : unode) (L : nat) (ec dch c : N).
    Hypothesis Hk : kfind ec (u_kids a) = Some y.
    Hypothesis Hv : nth_error nodes y = Some v.
    Hypothesis HL : 1 <= L.
    Hypothesis Hp : pos = suf + (d x + L).
    Hypothesis Hc : c = nth pos text 0%N.
    Hypothesis Hd : dch = nth (u_start v + L) text 0%N.
    Hypothesis Hne : dch <> c.
    Hypothesis Hel : match u_leaf v with None => d x + L < d y | Some _ => p y + (d x + L) < e end.
    Hypothesis Hw : eqw text (p y) suf (d x + L).
    Definition split_nodes := upd (upd nodes x (with_kids a (kput ec (length nodes) (u_kids a)))) y (with_start v (u_start v + L)) ++
      [mk_un (u_start v) (u_start v + L) [(dch, y); (c, length nodes + 1)] 0 None; mk_un pos 0 [] 0 (Some suf)].
    Definition split_p (z : nat) : nat := if z =? length nodes then p y else if z =? length nodes + 1 then suf else p z.
    Definition split_d (z : nat) : nat := if z =? length nodes then d x + L else d z.

    Lemma kid_y : In (ec, y) (u_kids a). Proof. apply kfind_in. auto. Qed.
    Lemma y_facts : y <> 0 /\ y <> x /\ y < N0 /\ u_start v = p y + d x /\ ec = nth (u_start v) text 0%N /\ p y < suf /\ p y + (d x + L) <= e.
    Proof.
      destruct (t_kid _ _ _ _ _ _ I _ _ _ _ Hx kid_y) as (_ & A & w & W1 & W2 & W3 & W4).
      assert (w = v) as -> by congruence. destruct (t_node _ _ _ _ _ _ I y v A Hv) as [B C].
      split; auto. split. { intros ->. assert (v = a) as -> by congruence. rewrite Ha in W4. lia. }
      split; [eapply old_lt; eauto|]. repeat (split; auto). destruct (u_leaf v); [lia|]. destruct C as (_ & C & _). lia.
    Qed.
    Lemma split_node z : nth_error split_nodes z =
      if z =? x then Some (with_kids a (kput ec N0 (u_kids a))) else if z =? y then Some (with_start v (u_start v + L))
      else if z =? N0 then Some (mk_un (u_start v) (u_start v + L) [(dch, y); (c, N0 + 1)] 0 None)
      else if z =? N0 + 1 then Some (mk_un pos 0 [] 0 (Some suf)) else nth_error nodes z.
    Proof.
      destruct y_facts as (Y0 & Yx & Yl & _). pose proof x_lt.
      unfold split_nodes. rewrite nth_error_snoc, !upd_length. fold N0.
      destruct (Nat.eqb_spec z x) as [->|Nx].
      - replace (x <? N0) with true by lia. rewrite nth_error_upd_ne by auto. apply nth_error_upd_eq. auto.
      - destruct (Nat.eqb_spec z y) as [->|Ny].
        + replace (y <? N0) with true by lia. apply nth_error_upd_eq. rewrite upd_length. auto.
        + destruct (Nat.ltb_spec z N0).
          * rewrite !nth_error_upd_ne by auto. replace (z =? N0) with false by lia. replace (z =? N0 + 1) with false by lia. auto.
          * destruct (Nat.eqb_spec z N0) as [->|]; [rewrite Nat.sub_diag; auto|].
            destruct (Nat.eqb_spec z (N0 + 1)) as [->|]; [replace (N0 + 1 - N0) with 1 by lia; auto|].
            destruct (z - N0) as [|[|k]] eqn:E; try lia. cbn. destruct k; symmetry; apply nth_error_None; unfold N0 in *; lia.
    Qed.
    Lemma split_old z w : nth_error nodes z = Some w -> exists w', nth_error split_nodes z = Some w' /\
      u_start w' = (if z =? y then u_start v + L else u_start w) /\ u_end w' = u_end w /\ u_leaf w' = u_leaf w /\ u_link w' = u_link w /\
      u_kids w' = if z =? x then kput ec N0 (u_kids a) else u_kids w.
    Proof.
      intros H. rewrite split_node. pose proof (old_lt _ _ H). destruct y_facts as (Y0 & Yx & Yl & _).
      destruct (Nat.eqb_spec z x) as [->|].
      - assert (w = a) as -> by congruence. replace (x =? y) with false by lia. eexists. split; [reflexivity|]. cbn. auto.
      - destruct (Nat.eqb_spec z y) as [->|].
        + assert (w = v) as -> by congruence. eexists. split; [reflexivity|]. cbn. auto.
        + replace (z =? N0) with false by lia. replace (z =? N0 + 1) with false by lia. exists w. auto 6.
    Qed.
    Lemma split_new z w' : nth_error split_nodes z = Some w' ->
      (z = N0 /\ w' = mk_un (u_start v) (u_start v + L) [(dch, y); (c, N0 + 1)] 0 None) \/
      (z = N0 + 1 /\ w' = mk_un pos 0 [] 0 (Some suf)) \/
      (z < N0 /\ exists w, nth_error nodes z = Some w /\ u_start w' = (if z =? y then u_start v + L else u_start w) /\ u_end w' = u_end w /\
        u_leaf w' = u_leaf w /\ u_kids w' = if z =? x then kput ec N0 (u_kids a) else u_kids w).
    Proof.
      intros H. destruct (lt_dec z N0) as [Lz|Lz].
      - right. right. split; auto. destruct (nth_error nodes z) as [w|] eqn:E; [|apply nth_error_None in E; unfold N0 in *; lia].
        destruct (split_old z w E) as (w'' & W1 & W2 & W3 & W4 & _ & W5). assert (w'' = w') as -> by congruence. exists w. auto 6.
      - rewrite split_node in H. pose proof x_lt. destruct y_facts as (Y0 & Yx & Yl & _).
        replace (z =? x) with false in H by lia. replace (z =? y) with false in H by lia.
        destruct (Nat.eqb_spec z N0) as [->|]; [left; split; congruence|]. destruct (Nat.eqb_spec z (N0 + 1)) as [->|]; [right; left; split; congruence|].
        assert (z < length nodes) by (apply nth_error_Some; congruence). unfold N0 in *. lia.
    Qed.
    Lemma split_kids z w' k u : nth_error split_nodes z = Some w' -> In (k, u) (u_kids w') ->
      (z = x /\ k = ec /\ u = N0) \/ (z = N0 /\ k = dch /\ u = y) \/ (z = N0 /\ k = c /\ u = N0 + 1) \/
      (u < N0 /\ u <> 0 /\ u <> y /\ z < N0 /\ exists w, nth_error nodes z = Some w /\ In (k, u) (u_kids w)).
    Proof.
      intros H Hin. destruct (split_new _ _ H) as [[-> ->]|[[-> ->]|(Lz & w & W1 & _ & _ & _ & W5)]].
      - cbn in Hin. destruct Hin as [E|[E|[]]]; injection E as <- <-; auto 6.
      - destruct Hin.
      - rewrite W5 in Hin. destruct (Nat.eqb_spec z x) as [->|Nx].
        + assert (w = a) as -> by congruence. apply (kput_in ec N0 y _ (t_det _ _ _ _ _ _ I _ _ Hx) Hk) in Hin.
          destruct Hin as [[-> ->]|[Hn Hin]]; auto. right. right. right. destruct (kid_lt _ _ _ _ Hx Hin). split; auto. split; auto.
          split; [|split; [auto|eauto]]. intros ->. destruct (t_kid _ _ _ _ _ _ I _ _ _ _ Hx Hin) as (_ & _ & w & V1 & _ & V3 & _).
          destruct y_facts as (_ & _ & _ & _ & Ec & _). assert (w = v) as -> by congruence. congruence.
        + right. right. right. destruct (kid_lt _ _ _ _ W1 Hin). split; auto. split; auto. split; [|split; [auto|eauto]].
          intros ->. apply Nx. eapply (t_uniq _ _ _ _ _ _ I z w k x a ec y); eauto. apply kid_y.
    Qed.
    Lemma split_kids_old z w k u : nth_error nodes z = Some w -> In (k, u) (u_kids w) -> u <> y ->
      exists w', nth_error split_nodes z = Some w' /\ In (k, u) (u_kids w').
    Proof.
      intros H Hin Hu. destruct (split_old z w H) as (w' & V1 & _ & _ & _ & _ & V2). exists w'. split; auto. rewrite V2.
      destruct (Nat.eqb_spec z x) as [->|]; auto. assert (w = a) as -> by congruence.
      apply (kput_in ec N0 y _ (t_det _ _ _ _ _ _ I _ _ Hx) Hk). right. split; auto.
      intros ->. apply Hu. apply (key_inj _ ec u y (t_det _ _ _ _ _ _ I _ _ Hx)); auto. apply kid_y.
    Qed.
    Lemma split_p_old z : z < N0 -> split_p z = p z.
    Proof. intros H. unfold split_p. fold N0. replace (z =? N0) with false by lia. replace (z =? N0 + 1) with false by lia. auto. Qed.
    Lemma split_d_old z : z < N0 -> split_d z = d z.
    Proof. intros H. unfold split_d. fold N0. replace (z =? N0) with false by lia. auto. Qed.
    Lemma split_vals : split_p N0 = p y /\ split_p (N0 + 1) = suf /\ split_d N0 = d x + L.
    Proof.
      unfold split_p, split_d. fold N0. rewrite !Nat.eqb_refl. replace (N0 + 1 =? N0) with false by lia. auto.
    Qed.

    Lemma add_split : tinv text e (suf + 1) split_nodes split_p split_d.
    Proof.
      pose proof x_lt as Lx. pose proof root_lt as L0. destruct y_facts as (Y0 & Yx & Yl & Ys & Yc & Yp & Ye).
      destruct split_vals as (P1 & P2 & D1).
      assert (NS : nth_error split_nodes N0 = Some (mk_un (u_start v) (u_start v + L) [(dch, y); (c, N0 + 1)] 0 None)).
      { rewrite split_node, Nat.eqb_refl. replace (N0 =? x) with false by lia. replace (N0 =? y) with false by lia. auto. }
      assert (NL : nth_error split_nodes (N0 + 1) = Some (mk_un pos 0 [] 0 (Some suf))).
      { rewrite split_node, Nat.eqb_refl. replace (N0 + 1 =? x) with false by lia. replace (N0 + 1 =? y) with false by lia.
        replace (N0 + 1 =? N0) with false by lia. auto. }
      destruct (split_old _ _ Hv) as (v' & VY1 & VY2 & VY3 & VY4 & _ & VY5). rewrite Nat.eqb_refl in VY2.
      destruct (split_old _ _ Hx) as (a' & AX1 & _ & _ & AX2 & _ & AX3). rewrite Nat.eqb_refl in AX3.
      constructor.
      - destruct (t_root _ _ _ _ _ _ I) as (r & R1 & R2). destruct (split_old _ _ R1) as (w & V1 & _ & _ & V2 & _). exists w. split; congruence.
      - rewrite split_d_old by auto. exact (t_d0 _ _ _ _ _ _ I).
      - intros z w' k u H Hin. destruct (split_kids _ _ _ _ H Hin) as [(-> & -> & ->)|[(-> & -> & ->)|[(-> & -> & ->)|(L1 & L2 & L3 & L4 & w & W1 & W2)]]].
        + split; [congruence|]. split; [lia|]. eexists. split; [exact NS|]. cbn [u_start u_leaf]. rewrite P1, D1, split_d_old by auto.
          split; auto. split; auto. lia.
        + split; [rewrite NS in H; injection H as <-; auto|]. split; auto. exists v'. rewrite D1, split_p_old, split_d_old by auto. rewrite VY2, VY4.
          split; auto. split; [lia|]. split; auto.
        + split; [rewrite NS in H; injection H as <-; auto|]. split; [lia|]. eexists. split; [exact NL|]. cbn [u_start u_leaf]. rewrite P2, D1.
          split; auto. split; auto. lia.
        + destruct (t_kid _ _ _ _ _ _ I _ _ _ _ W1 W2) as (A & B & b & B1 & B2 & B3 & B4).
          destruct (split_old _ _ W1) as (w'' & U1 & _ & _ & U2 & _). split; [congruence|]. split; auto.
          destruct (split_old _ _ B1) as (b' & X1 & X2 & _ & X3 & _). exists b'. rewrite split_p_old, !split_d_old by auto. rewrite X2, X3.
          replace (u =? y) with false by lia. auto.
      - intros z w' k u H Hin. destruct (split_kids _ _ _ _ H Hin) as [(-> & -> & ->)|[(-> & -> & ->)|[(-> & -> & ->)|(L1 & L2 & L3 & L4 & w & W1 & W2)]]].
        + rewrite P1, split_p_old, split_d_old by auto. eapply (t_agree _ _ _ _ _ _ I); eauto. apply kid_y.
        + rewrite P1, D1, split_p_old by auto. apply eqw_refl.
        + rewrite P1, P2, D1. auto.
        + rewrite !split_p_old, split_d_old by auto. eapply (t_agree _ _ _ _ _ _ I); eauto.
      - intros u w' Hu H. destruct (split_new _ _ H) as [[-> ->]|[[-> ->]|(Lz & w & W1 & _ & W2 & W3 & W4)]].
        + rewrite P1, D1. cbn [u_leaf u_end u_kids length]. split; [lia|]. split; [lia|]. split; [lia|auto].
        + rewrite P2. cbn. split; [lia|auto].
        + rewrite split_p_old, split_d_old by auto. destruct (t_node _ _ _ _ _ _ I u w Hu W1) as [A B]. split; [lia|]. rewrite W2, W3.
          destruct (u_leaf w) as [i|] eqn:Ei.
          * destruct B as (B1 & B2 & B3). split; auto. split; auto. rewrite W4. destruct (Nat.eqb_spec u x) as [->|]; auto. congruence.
          * destruct B as (B1 & B2 & B3). split; auto. split; auto. rewrite W4. destruct (Nat.eqb_spec u x) as [->|]; auto.
            assert (w = a) as -> by congruence. rewrite (kput_len _ _ _ _ Hk). lia.
      - intros u w' Hu H. destruct (Nat.eq_dec u y) as [->|Ny].
        { exists N0; eexists; exists dch. split; [exact NS|]. left. auto. }
        destruct (split_new _ _ H) as [[-> ->]|[[-> ->]|(Lz & w & W1 & _)]].
        + exists x, a', ec. split; auto. rewrite AX3. apply (kput_in ec N0 y _ (t_det _ _ _ _ _ _ I _ _ Hx) Hk). auto.
        + exists N0; eexists; exists c. split; [exact NS|]. right. left. auto.
        + destruct (t_par _ _ _ _ _ _ I u w Hu W1) as (z & b & k & B1 & B2). destruct (split_kids_old _ _ _ _ B1 B2 Ny) as (b' & C1 & C2). eauto.
      - intros z w k z' w' k' u H1 H2 H3 H4.
        destruct (split_kids _ _ _ _ H1 H2) as [(-> & -> & E)|[(-> & -> & E)|[(-> & -> & E)|(L1 & L2 & L3 & L4 & b & B1 & B2)]]],
          (split_kids _ _ _ _ H3 H4) as [(-> & -> & E')|[(-> & -> & E')|[(-> & -> & E')|(L1' & L2' & L3' & L4' & b' & B1' & B2')]]]; auto; try lia.
        eapply (t_uniq _ _ _ _ _ _ I); eauto.
      - intros z w' H. destruct (split_new _ _ H) as [[-> ->]|[[-> ->]|(Lz & w & W1 & _ & _ & _ & W4)]].
        + cbn. constructor; [|constructor; [intros []|constructor]]. intros [E|[]]. congruence.
        + constructor.
        + rewrite W4. pose proof (t_det _ _ _ _ _ _ I _ _ W1) as D. destruct (Nat.eqb_spec z x) as [->|]; auto. assert (w = a) as -> by congruence.
          rewrite (kput_keys _ _ _ _ Hk). auto.
      - intros i Hi. destruct (Nat.eq_dec i suf) as [->|]; [exists (N0 + 1); eexists; split; [exact NL|reflexivity]|].
        destruct (t_leaf _ _ _ _ _ _ I i ltac:(lia)) as (u & w & V1 & V2). destruct (split_old _ _ V1) as (w' & W1 & _ & _ & W2 & _).
        exists u, w'. split; congruence.
      - intros u w u' w' i H1 H2 H3 H4.
        assert (Q : forall z w, nth_error nodes z = Some w -> u_leaf w = Some suf -> False).
        { intros z w0 Z1 Z2. destruct (leaf_p text e suf nodes p d I z suf) as [_ X]; [eauto|]. lia. }
        destruct (split_new _ _ H1) as [[-> ->]|[[-> ->]|(Lz & b & B1 & _ & _ & B2 & _)]],
          (split_new _ _ H3) as [[-> ->]|[[-> ->]|(Lz' & b' & B1' & _ & _ & B2' & _)]]; auto; try discriminate.
        + cbn in H2. injection H2 as <-. exfalso. apply (Q u' b'); congruence.
        + cbn in H4. injection H4 as <-. exfalso. apply (Q u b); congruence.
        + apply (t_leafu _ _ _ _ _ _ I u b u' b' i); congruence.
    Qed.
  End Split.
End Step.
