(** Proofs: the loop of BinarySuffixTree follows that of SuffixTree. *)
From Verif Require Import Base LfsSpec LfsTree Ukk UkkProofs UkkStepProofs UkkLoopProofs Bst BstProofs.
Local Open Scope nat_scope.

Section BLoop.
  Context (text : list N).
  Let n := length text.
  Record srel (s : ust) (b : bst) : Prop := {
    q_rel : rel n (s_nodes s) b; q_suf : b_suf b = s_suf s; q_rem : b_rem b = s_rem s; q_node : b_node b = idx (s_node s);
    q_edge : b_edge b = s_edge s; q_len : b_len b = s_len s; q_last : b_last b = idx (s_last s) }.

  (** the relation only looks at the arrays and the counter *)
  Lemma rel_same nodes b b' : rel n nodes b -> b_first b' = b_first b -> b_next b' = b_next b -> b_start b' = b_start b -> b_end b' = b_end b ->
    b_slink b' = b_slink b -> b_suffix b' = b_suffix b -> b_new b' = b_new b -> rel n nodes b'.
  Proof. intros [A1 A2 A3 A4 A5 A6] E1 E2 E3 E4 E5 E6 E7. constructor; rewrite ?E1, ?E2, ?E3, ?E4, ?E5, ?E6, ?E7; auto. Qed.

  Lemma add_sl_sim nodes b last x : rel n nodes b -> b_last b = idx last -> last < length nodes -> idx last < 2 * n - 1 ->
    exists nodes' sl, add_sl nodes last x = Some nodes' /\
      b_add_sl b (idx x) = Some (mk_b (b_first b) (b_next b) (b_start b) (b_end b) sl (b_suffix b) (b_suf b) (b_new b) (b_rem b) (b_node b) (b_edge b) (b_len b) (idx x)) /\
      length nodes' = length nodes /\
      forall b', b_first b' = b_first b -> b_next b' = b_next b -> b_start b' = b_start b -> b_end b' = b_end b ->
        b_slink b' = sl -> b_suffix b' = b_suffix b -> b_new b' = b_new b -> rel n nodes' b'.
  Proof.
    intros R El Hl Hi. unfold add_sl, b_add_sl. rewrite El, idx_zero. destruct (Nat.eqb_spec last 0) as [E|E].
    - exists nodes, (b_slink b). split; auto. split; auto. split; auto. intros b' E1 E2 E3 E4 E5 E6 E7. eapply rel_same; eauto.
    - destruct (r_l1 _ _ _ R) as (Q1 & Q2 & Q3). destruct (nth_error nodes last) as [v|] eqn:Ev; [|apply nth_error_None in Ev; lia].
      cbn [obind]. rewrite put_ok by lia. cbn [obind]. eexists; eexists. split; [reflexivity|]. split; [reflexivity|]. split; [apply upd_length|].
      intros b' E1 E2 E3 E4 E5 E6 E7. destruct R as [A1 A2 A3 A4 A5 A6]. constructor; rewrite ?E1, ?E2, ?E3, ?E4, ?E5, ?E6, ?E7, ?upd_length; auto.
      + intros z w. destruct (Nat.eq_dec z last) as [->|Nz].
        * rewrite nth_error_upd_eq by auto. intros H. injection H as <-. destruct (A4 _ _ Ev) as (B1 & B2 & B3 & B4). cbn [u_start u_end u_link u_leaf].
          rewrite nth_upd, Nat.eqb_refl by lia. auto.
        * rewrite nth_error_upd_ne by auto. intros H. destruct (A4 _ _ H) as (B1 & B2 & B3 & B4). rewrite nth_upd by lia.
          replace (idx z =? idx last) with false by (symmetry; apply Nat.eqb_neq; intros Q; apply idx_inj in Q; auto). auto.
      + intros z w. destruct (Nat.eq_dec z last) as [->|Nz].
        * rewrite nth_error_upd_eq by auto. intros H. injection H as <-. cbn [u_kids]. auto.
        * rewrite nth_error_upd_ne by auto. auto.
      + intros i Hi'. destruct (A6 i Hi') as (B1 & B2 & B3). rewrite nth_upd by lia. pose proof (idx_le last _ Hl).
        replace (i =? idx last) with false by lia. auto.
  Qed.

  Lemma after_sim pos edge nodes s last b s' : rel n nodes b -> b_suf b = s_suf s + 1 -> b_rem b = s_rem s -> b_node b = idx (s_node s) ->
    b_edge b = edge -> b_len b = s_len s -> b_last b = idx last -> idx (s_node s) < 2 * n - 1 ->
    after_insert text pos edge nodes s last = Some s' -> exists b', b_after text pos b = Some b' /\ srel s' b'.
  Proof.
    intros R E1 E2 E3 E4 E5 E6 Hi. unfold after_insert, b_after, set_rem. cbn [b_node b_len b_rem b_slink]. rewrite E2, E3, E5, idx_zero.
    destruct ((s_node s =? 0) && (0 <? s_len s)) eqn:Ec.
    - destruct (nth_error text _) as [e|]; cbn [obind]; [|discriminate]. intros H. injection H as <-. eexists. split; [reflexivity|].
      apply andb_prop in Ec. destruct Ec as [Ec _]. apply Nat.eqb_eq in Ec.
      constructor; cbn; auto; try (rewrite ?E1, ?E2, ?E3, ?E5, ?Ec; auto); try lia. eapply rel_same; [exact R|..]; reflexivity.
    - destruct (nth_error nodes (s_node s)) as [a|] eqn:Ea; cbn [obind]; [|discriminate]. intros H. injection H as <-.
      destruct (r_l1 _ _ _ R) as (Q1 & Q2 & Q3). rewrite get_ok by lia. cbn [obind]. eexists. split; [reflexivity|].
      destruct (r_data _ _ _ R _ _ Ea) as (_ & _ & B3 & _). rewrite B3.
      constructor; cbn; auto; try lia. 
      + eapply rel_same; [exact R|..]; reflexivity.
      + destruct (Nat.eqb_spec (idx (u_link a)) 0); auto.
  Qed.

  Section Phase.
  Context (pos : nat) (c : N).
  Hypothesis Hpos : pos < n.
  Hypothesis Hc : c = nth pos text 0%N.
  Hypothesis Hn : 2 <= n.

  Lemma step_sim s p d b k s' : sinv text (pos + 1) pos (s_last s) s p d -> lastok text pos s p d -> s_rem s <> 0 -> srel s b ->
    add_step text pos c s = Some (k, s') -> exists b', b_step text pos c b = Some (k, b') /\ srel s' b'.
  Proof.
    intros S LO R0 Q. pose proof (s_T _ _ _ _ _ _ _ S) as T. destruct (s_A _ _ _ _ _ _ _ S) as (a & A1 & A2).
    pose proof (depth_eq text pos c Hpos Hc s p d S R0) as Hq. pose proof (suf_le text pos c Hpos Hc s p d S R0) as Hs.
    pose proof (edge_eq text pos c Hpos Hc s p d S R0) as He. cbv zeta in He.
    pose proof (s_Z _ _ _ _ _ _ _ S) as Hz.
    unfold add_step, b_step. rewrite A1. cbn [obind]. rewrite A2.
    set (edge := if s_len s =? 0 then c else s_edge s) in *.
    destruct b as [fi nx st en sl su bsuf bnew brem bnode bedge blen blast]. destruct Q as [QR Q1 Q2 Q3 Q4 Q5 Q6].
    cbn [b_suf b_rem b_node b_edge b_len b_last] in Q1, Q2, Q3, Q4, Q5, Q6. cbn [b_len b_node].
    set (b0 := mk_b fi nx st en sl su (s_suf s) bnew (s_rem s) (idx (s_node s)) edge (s_len s) (idx (s_last s))).
    replace (if blen =? 0 then _ else _) with b0
      by (unfold b0, edge, set_active; cbn; rewrite Q1, Q2, Q3, Q4, Q5, Q6; destruct (s_len s =? 0); reflexivity).
    assert (R : rel n (s_nodes s) b0) by (eapply rel_same; [exact QR|..]; reflexivity).
    clear QR Q1 Q2 Q3 Q4 Q5 Q6 bsuf brem bnode bedge blen blast.
    destruct (r_l1 _ _ _ R) as (L1 & L2 & L3). destruct (r_l2 _ _ _ R) as (L4 & L5 & L6).
    assert (Lx : s_node s < length (s_nodes s)) by (apply nth_error_Some; congruence).
    assert (Ll : s_last s < length (s_nodes s)).
    { destruct LO as [->|(_ & (w & W & _) & _)]; [lia|]. apply nth_error_Some. congruence. }
    assert (Hm : length (s_nodes s) < 2 * n - 1 \/ (length (s_nodes s) = 1 /\ 2 <= n)) by lia.
    assert (Hn1 : pos + 1 <= length text) by (fold n; lia).
    pose proof (fits text (pos + 1) (s_nodes s) Hn1 Hm) as Fit. fold n in Fit. pose proof (Fit _ Lx) as Fx. pose proof (Fit _ Ll) as Fl.
    pose proof (r_new _ _ _ R) as Bn.
    change (b_node b0) with (idx (s_node s)). rewrite get_ok by lia. cbn [obind].
    rewrite (find_child_ok text (pos + 1) (s_suf s) (s_nodes s) p d T Hn1 b0 R (s_node s) a A1 Hm (b_edge b0)).
    cbn [obind]. change (b_edge b0) with edge. set (m := length (s_nodes s)) in *.
    destruct (kfind edge (u_kids a)) as [y|] eqn:Ek; cbn [option_map].
    - pose proof (kfind_in _ _ _ Ek) as Hin.
      destruct (t_kid _ _ _ _ _ _ T _ _ _ _ A1 Hin) as (_ & Y0 & v & V1 & V2 & V3 & V4). rewrite V1. cbn [obind].
      destruct (found_facts text pos c Hpos Hc s p d S R0 a A1 y v Ek V1) as (_ & _ & F2 & F3).
      assert (Ly : y < m) by (apply nth_error_Some; congruence). pose proof (Fit _ Ly) as Fy.
      destruct (r_data _ _ _ R y v V1) as (D1 & D2 & _).
      unfold b_edge_length. rewrite idx_zero. replace (y =? 0) with false by lia. rewrite (get_ok (b_end b0)), (get_ok (b_start b0)) by lia. cbn [obind]. rewrite D1, D2.
      assert (EL : (if u_end v =? 0 then pos + 1 - u_start v else u_end v - u_start v) = edge_len pos y v).
      { unfold edge_len. replace (y =? 0) with false by lia. reflexivity. }
      rewrite EL. change (b_len b0) with (s_len s).
      destruct (Nat.leb_spec (edge_len pos y v) (s_len s)) as [HL|HL].
      + (* walk down *)
        destruct (nth_error text (pos - (s_len s - edge_len pos y v))) as [e1|]; cbn [obind]; [|discriminate]. intros H. injection H as <- <-.
        eexists. split; [reflexivity|]. constructor; try reflexivity. eapply rel_same; [exact R|..]; reflexivity.
      + destruct (nth_error text (u_start v + s_len s)) as [dch|] eqn:Ed; cbn [obind]; [|discriminate].
        pose proof (on_edge text pos c Hpos Hc s p d S R0 a A1 A2 y v Ek V1 HL) as OE.
        destruct (N.eqb_spec dch c) as [Ec|Ec].
        * (* the letter is there *)
          set (b1 := set_active b0 _ _ _).
          assert (R1 : rel n (s_nodes s) b1) by (eapply rel_same; [exact R|..]; reflexivity).
          destruct (add_sl_sim (s_nodes s) b1 (s_last s) (s_node s) R1 eq_refl Ll Fl) as (nodes' & sl' & X1 & X2 & _ & X3).
          rewrite X1. cbn [obind]. intros H. injection H as <- <-. change (b_node b0) with (idx (s_node s)). rewrite X2. cbn [obind].
          eexists. split; [reflexivity|]. constructor; try reflexivity. apply X3; reflexivity.
        * (* split *)
          apply nth_error_nth with (d := 0%N) in Ed. symmetry in Ed.
          assert (LL : 1 <= s_len s).
          { destruct (Nat.eq_dec (s_len s) 0) as [E|E]; [|lia]. exfalso. apply Ec. rewrite Ed, E, Nat.add_0_r, <- V3, He, Hc. f_equal. lia. }
          assert (Hel : match u_leaf v with None => d (s_node s) + s_len s < d y | Some _ => p y + (d (s_node s) + s_len s) < pos + 1 end)
            by (destruct (u_leaf v); lia).
          assert (Hm2 : m + 2 < 2 * length text - 1) by (fold n; lia).
          pose proof (rel_split text (pos + 1) (s_suf s) (s_nodes s) p d T Hn1 b0 R (s_node s) a A1 A2 Hm pos y v (s_len s) edge dch c ltac:(lia) Ek V1 LL ltac:(lia) Hc Ed Ec Hel OE Hm2) as RS.
          fold n in Hm2.
          pose proof (prev_split_lt text (pos + 1) (s_suf s) (s_nodes s) p d T Hn1 b0 R (s_node s) a A1 Hm y edge Ek) as PL.
          pose proof (first_zero text (pos + 1) (s_suf s) (s_nodes s) p d T Hn1 b0 R (s_node s) a A1 Hm) as FZ.
          assert (FZ' : (nth (idx (s_node s)) (b_first b0) 0 =? 0) = false) by (rewrite FZ; destruct (u_kids a); [destruct Hin|reflexivity]). clear FZ.
          unfold split_first, split_next, split_next2, split_next1 in RS. fold m in RS.
          set (prev := match before edge (u_kids a) with Some z => idx z | None => nth (idx (s_node s)) (b_first b0) 0 end) in *.
          set (nodes1 := split_nodes (s_suf s) (s_nodes s) (s_node s) a pos y v (s_len s) edge dch c) in *.
          assert (LN : length nodes1 = m + 2) by (unfold nodes1, split_nodes; rewrite app_length, !upd_length; reflexivity).
          assert (Im : idx m = m + 1) by (apply idx_pos; lia).
          change (upd (upd (s_nodes s) _ _) y _ ++ _) with nodes1.
          unfold create_node at 1. rewrite Bn. rewrite !put_ok by lia. cbn [obind b_first b_next b_start b_end b_slink b_suffix b_suf b_new b_rem b_node b_edge b_len b_last].
          rewrite put_ok by (rewrite upd_length; lia). cbn [obind]. unfold set_start. cbn [b_first b_next b_start b_end b_slink b_suffix b_suf b_new b_rem b_node b_edge b_len b_last].
          change (b_node b0) with (idx (s_node s)). rewrite get_ok by lia. cbn [obind]. rewrite FZ'. cbn [obind b_first b_next b_start b_end b_slink b_suffix b_suf b_new b_rem b_node b_edge b_len b_last].
          change (b_node b0) with (idx (s_node s)). rewrite get_ok by lia. cbn [obind].
          unfold set_leaf. unfold create_node.
          destruct (nth (idx (s_node s)) (b_first b0) 0 =? idx y) eqn:Ef.
          -- rewrite put_ok by lia. cbn [obind]. unfold set_first, set_next. cbn [b_first b_next b_start b_end b_slink b_suffix b_suf b_new b_rem b_node b_edge b_len b_last].
             rewrite put_ok by (rewrite upd_length; lia). cbn [obind b_first b_next b_start b_end b_slink b_suffix b_suf b_new b_rem b_node b_edge b_len b_last]. rewrite get_ok by lia. cbn [obind b_first b_next b_start b_end b_slink b_suffix b_suf b_new b_rem b_node b_edge b_len b_last].
             rewrite put_ok by lia. cbn [obind b_first b_next b_start b_end b_slink b_suffix b_suf b_new b_rem b_node b_edge b_len b_last]. replace (m + 1 + 1) with (m + 2) by lia.
             rewrite !put_ok by (rewrite ?upd_length; lia). cbn [obind b_first b_next b_start b_end b_slink b_suffix b_suf b_new b_rem b_node b_edge b_len b_last]. rewrite put_ok by (rewrite ?upd_length; lia). cbn [obind b_first b_next b_start b_end b_slink b_suffix b_suf b_new b_rem b_node b_edge b_len b_last].
             rewrite put_ok by (rewrite ?upd_length; lia). cbn [obind b_first b_next b_start b_end b_slink b_suffix b_suf b_new b_rem b_node b_edge b_len b_last].
            set (b1 := mk_b _ _ _ _ _ _ _ _ _ _ _ _ _). specialize (RS b1 eq_refl ltac:(cbn [b_next b1]; reflexivity) eq_refl eq_refl eq_refl eq_refl eq_refl).
            destruct (add_sl_sim nodes1 b1 (s_last s) m RS eq_refl ltac:(lia) Fl) as (nodes' & sl' & X1 & X2 & _ & X3).
            rewrite X1. rewrite <- Im. rewrite X2. cbn [obind].
            destruct (after_insert text pos edge nodes' s m) as [s1|] eqn:EA; cbn [obind]; [|discriminate]. intros H. injection H as <- <-.
            match goal with |- context [b_after text pos ?q] => edestruct (after_sim pos edge nodes' s m q s1) as (b' & B1 & B2) end;
              [apply X3; reflexivity|reflexivity|reflexivity|reflexivity|reflexivity|reflexivity|reflexivity|exact Fx|exact EA|].
            rewrite B1. cbn [obind]. eauto.
          -- specialize (PL eq_refl). rewrite put_ok by lia. cbn [obind]. unfold set_first, set_next. cbn [b_first b_next b_start b_end b_slink b_suffix b_suf b_new b_rem b_node b_edge b_len b_last].
             rewrite put_ok by (rewrite ?upd_length; lia). cbn [obind b_first b_next b_start b_end b_slink b_suffix b_suf b_new b_rem b_node b_edge b_len b_last]. rewrite get_ok by (rewrite upd_length; lia). cbn [obind b_first b_next b_start b_end b_slink b_suffix b_suf b_new b_rem b_node b_edge b_len b_last].
             rewrite put_ok by (rewrite ?upd_length; lia). cbn [obind b_first b_next b_start b_end b_slink b_suffix b_suf b_new b_rem b_node b_edge b_len b_last]. replace (m + 1 + 1) with (m + 2) by lia.
             rewrite !put_ok by (rewrite ?upd_length; lia). cbn [obind b_first b_next b_start b_end b_slink b_suffix b_suf b_new b_rem b_node b_edge b_len b_last]. rewrite put_ok by (rewrite ?upd_length; lia). cbn [obind b_first b_next b_start b_end b_slink b_suffix b_suf b_new b_rem b_node b_edge b_len b_last].
             rewrite put_ok by (rewrite ?upd_length; lia). cbn [obind b_first b_next b_start b_end b_slink b_suffix b_suf b_new b_rem b_node b_edge b_len b_last].
            set (b1 := mk_b _ _ _ _ _ _ _ _ _ _ _ _ _). specialize (RS b1 eq_refl ltac:(cbn [b_next b1]; reflexivity) eq_refl eq_refl eq_refl eq_refl eq_refl).
            destruct (add_sl_sim nodes1 b1 (s_last s) m RS eq_refl ltac:(lia) Fl) as (nodes' & sl' & X1 & X2 & _ & X3).
            rewrite X1. rewrite <- Im. rewrite X2. cbn [obind].
            destruct (after_insert text pos edge nodes' s m) as [s1|] eqn:EA; cbn [obind]; [|discriminate]. intros H. injection H as <- <-.
            match goal with |- context [b_after text pos ?q] => edestruct (after_sim pos edge nodes' s m q s1) as (b' & B1 & B2) end;
              [apply X3; reflexivity|reflexivity|reflexivity|reflexivity|reflexivity|reflexivity|reflexivity|exact Fx|exact EA|].
            rewrite B1. cbn [obind]. eauto.
    - (* a new leaf *)
      pose proof (not_found text pos c Hpos Hc s p d S R0 a A1 A2 Ek) as L0.
      assert (Ee : edge = c) by (unfold edge; rewrite L0; auto). clear He; clearbody edge; subst edge.
      assert (Hm2 : m + 1 < 2 * length text) by (fold n; lia).
      pose proof (rel_leaf text (pos + 1) (s_suf s) (s_nodes s) p d T Hn1 b0 R (s_node s) a A1 Hm pos c ltac:(lia) Hc ltac:(lia) Ek Hm2) as RS. fold n in Hm2.
      pose proof (prev_lt text (pos + 1) (s_suf s) (s_nodes s) p d T Hn1 b0 R (s_node s) a A1 Hm c Ek) as PL.
      unfold leaf_first, leaf_next in RS. fold m in RS.
      set (prev := match before c (u_kids a) with Some z => idx z | None => nth (idx (s_node s)) (b_first b0) 0 end) in *.
      set (nodes1 := leaf_nodes (s_suf s) (s_nodes s) (s_node s) a pos c) in *.
      assert (LN : length nodes1 = m + 1) by (unfold nodes1, leaf_nodes; rewrite app_length, upd_length; reflexivity).
      change (upd (s_nodes s) (s_node s) _ ++ _) with nodes1.
      unfold create_node. rewrite Bn. rewrite !put_ok by lia. cbn [obind]. unfold set_leaf. cbn [b_new b_suffix b_suf]. rewrite put_ok by (change (length (b_suffix b0)) with (length (b_suffix b0)); lia).
      cbn [obind b_first b_next b_start b_end b_slink b_suffix b_suf b_new b_rem b_node b_edge b_len b_last].
      change (b_node b0) with (idx (s_node s)). rewrite get_ok by lia. cbn [obind].
      destruct (nth (idx (s_node s)) (b_first b0) 0 =? 0) eqn:Ef.
      + rewrite put_ok by lia. cbn [obind]. unfold set_first. cbn [b_first b_next b_start b_end b_slink b_suffix b_suf b_new b_rem b_node b_edge b_len b_last].
        set (b1 := mk_b _ _ _ _ _ _ _ _ _ _ _ _ _). specialize (RS b1 eq_refl eq_refl eq_refl eq_refl eq_refl eq_refl eq_refl).
        destruct (add_sl_sim nodes1 b1 (s_last s) (s_node s) RS eq_refl ltac:(lia) Fl) as (nodes' & sl' & X1 & X2 & _ & X3).
        change (upd (b_suffix b0) (m + 1) (b_suf b0)) with (upd (b_suffix b0) (m + 1) (s_suf s)). rewrite X1, X2. cbn [obind].
        destruct (after_insert text pos c nodes' s (s_node s)) as [s1|] eqn:EA; cbn [obind]; [|discriminate]. intros H. injection H as <- <-.
        match goal with |- context [b_after text pos ?q] => edestruct (after_sim pos c nodes' s (s_node s) q s1) as (b' & B1 & B2) end;
          [apply X3; reflexivity|reflexivity|reflexivity|reflexivity|reflexivity|reflexivity|reflexivity|exact Fx|exact EA|].
        rewrite B1. cbn [obind]. eauto.
      + specialize (PL eq_refl). rewrite put_ok by lia. cbn [obind]. unfold set_next. cbn [b_first b_next b_start b_end b_slink b_suffix b_suf b_new b_rem b_node b_edge b_len b_last].
        set (b1 := mk_b _ _ _ _ _ _ _ _ _ _ _ _ _). specialize (RS b1 eq_refl eq_refl eq_refl eq_refl eq_refl eq_refl eq_refl).
        destruct (add_sl_sim nodes1 b1 (s_last s) (s_node s) RS eq_refl ltac:(lia) Fl) as (nodes' & sl' & X1 & X2 & _ & X3).
        rewrite X1, X2. cbn [obind].
        destruct (after_insert text pos c nodes' s (s_node s)) as [s1|] eqn:EA; cbn [obind]; [|discriminate]. intros H. injection H as <- <-.
        match goal with |- context [b_after text pos ?q] => edestruct (after_sim pos c nodes' s (s_node s) q s1) as (b' & B1 & B2) end;
          [apply X3; reflexivity|reflexivity|reflexivity|reflexivity|reflexivity|reflexivity|reflexivity|exact Fx|exact EA|].
        rewrite B1. cbn [obind]. eauto.
  Qed.
  Lemma loop_sim : forall fuel s p d b s', sinv text (pos + 1) pos (s_last s) s p d -> lastok text pos s p d -> srel s b ->
    add_loop text pos c fuel s = Some s' -> exists b', b_loop text pos c fuel b = Some b' /\ srel s' b'.
  Proof.
    induction fuel as [|f IH]; intros s p d b s' S LO Q; unfold add_loop, b_loop; fold add_loop; fold b_loop; rewrite (q_rem _ _ Q);
      destruct (Nat.eqb_spec (s_rem s) 0) as [R0|R0]; try discriminate.
    1, 2: intros H; injection H as <-; eauto.
    destruct (step_ok text pos c Hpos Hc s p d S LO R0) as [(s1 & p' & d' & E & S' & LO' & _)|(s1 & p' & d' & E & _)];
      destruct (step_sim s p d b _ _ S LO R0 Q E) as (b1 & E1 & Q1); rewrite E, E1; cbn [obind].
    - intros H. eapply IH; eauto.
    - intros H. injection H as <-. eauto.
  Qed.
  End Phase.

  Lemma feed_sim (Hn : 2 <= n) fuel : S n * (n + 3) <= fuel -> forall rest pos s p d b s', pos + length rest = n -> rest = skipn pos text -> sinv text pos pos 0 s p d -> srel s b ->
    feed text fuel pos rest s = Some s' -> exists b', b_feed text fuel pos rest b = Some b' /\ srel s' b'.
  Proof.
    intros Hf. induction rest as [|c rest IH]; intros pos s p d b s' Hl Hr S Q; cbn [feed b_feed length] in *.
    - intros H. injection H as <-. eauto.
    - assert (Hp : pos < n) by lia.
      assert (Hc : c = nth pos text 0%N /\ rest = skipn (pos + 1) text).
      { rewrite (skipn_cons_nth text pos 0%N) in Hr by auto. injection Hr as -> ->. rewrite Nat.add_1_r. split; reflexivity. }
      destruct Hc as [Hc Hr']. destruct (s_R _ _ _ _ _ _ _ S) as [Q1 Q2]. pose proof (s_D _ _ _ _ _ _ _ S) as Q3.
      unfold add_char, b_add_char. set (s1 := mk_ust _ _ _ _ _ _ _). set (b1 := mk_b _ _ _ _ _ _ _ _ _ _ _ _ _).
      assert (S1 : sinv text (pos + 1) pos (s_last s1) s1 p d).
      { destruct S. constructor; cbn [s_suf s_nodes s_rem s_node s_len s_edge s_last s1] in *; auto; try lia. eapply tinv_extend; [|eauto]. lia. }
      assert (LO : lastok text pos s1 p d) by (left; reflexivity).
      assert (Q' : srel s1 b1).
      { destruct Q as [K1 K2 K3 K4 K5 K6 K7]. constructor; cbn; auto. eapply rel_same; [exact K1|..]; reflexivity. }
      destruct (loop_ok text pos c Hp Hc fuel s1 p d S1 LO) as (s2 & p' & d' & E & S2).
      { cbn [s_rem s_len s1]. fold n. nia. }
      destruct (loop_sim pos c Hp Hc Hn fuel s1 p d b1 s2 S1 LO Q' E) as (b2 & E2 & Q2'). rewrite E, E2. cbn [obind]. apply (IH (pos + 1) s2 p' d'); auto. lia.
  Qed.

  Lemma init_sim : 2 <= n -> exists b, b_init n = Some b /\ srel ust0 b.
  Proof.
    intros Hn. unfold b_init. replace (n =? 0) with false by lia. unfold create_node. cbn [b_new b_start b_end].
    rewrite !put_ok by (rewrite repeat_length; lia). cbn [obind]. eexists. split; [reflexivity|].
    assert (Z : forall k i, nth i (repeat 0 k) 0 = 0) by (intros k i; apply nth_repeat).
    constructor; cbn [b_suf b_rem b_node b_edge b_len b_last ust0 s_nodes s_suf s_rem s_node s_edge s_len s_last]; try reflexivity.
    constructor; cbn [b_first b_next b_start b_end b_slink b_suffix b_new]; rewrite ?upd_length, ?repeat_length; auto.
    - intros [|x] v H; cbn in H; [|destruct x; discriminate]. injection H as <-. cbn [u_start u_end u_link u_leaf idx Nat.eqb].
      rewrite !nth_upd by (rewrite repeat_length; lia). rewrite !Z. repeat split; auto. discriminate.
    - intros [|x] v H; cbn in H; [|destruct x; discriminate]. injection H as <-. cbn [u_kids kl map seg]. apply Z.
  Qed.

  Lemma tree_sim : 2 <= n -> exists nodes suf p d b, suffix_tree text = Some nodes /\ tinv text n suf nodes p d /\ suf <= n /\ 0 < suf /\
    length nodes <= 2 * n /\ b_tree text = Some (b_shrink b) /\ rel n nodes b.
  Proof.
    intros Hn. destruct (feed_ok text text 0 ust0 (fun _ => 0) (fun _ => 0)) as (s & p & d & E & S); auto; [apply sinv0|].
    destruct (init_sim Hn) as (b0 & B0 & Q0).
    destruct (feed_sim Hn (Datatypes.S (length text) * (length text + 3)) ltac:(fold n; lia) text 0 ust0 (fun _ => 0) (fun _ => 0) b0 s) as (b & E' & Q); auto; [apply sinv0|].
    destruct (s_R _ _ _ _ _ _ _ S) as [_ R]. fold n in R.
    exists (s_nodes s), (s_suf s), p, d, b. unfold suffix_tree, b_tree. rewrite E. fold n. rewrite B0. cbn [obind]. fold n in E'. rewrite E'. cbn [obind].
    split; auto. split; [apply S|]. split; auto. split.
    - destruct (Nat.eq_dec (s_suf s) 0) as [Z|]; [|lia]. destruct (s_P _ _ _ _ _ _ _ S) as (i & I1 & _); fold n; lia.
    - pose proof (s_Z _ _ _ _ _ _ _ S). split; [lia|]. split; [auto|]. apply (q_rel _ _ Q).
  Qed.
End BLoop.
