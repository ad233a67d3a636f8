(** Proofs about LFS2: the two layers of rules. *)
From Coq Require Import Permutation Sorted.
From Verif Require Import Base Strategies HuffmanProofs Lfs LfsSpec LfsEsaProofs LfsTree LfsTreeSpec LfsTreeProofs Lfs2.
Local Open Scope nat_scope.

Lemma put_ok {A} (l : list A) i v : i < length l -> put l i v = Some (upd l i v).
Proof. intros H. unfold put. replace (i <? length l) with true by lia. auto. Qed.

Lemma mark_off_ok m : forall off o k, o + k + m <= length off ->
  exists off', mark_off off o k m = Some off' /\ length off' = length off /\
    forall x, nth_error off' x = if (o + k <=? x) && (x <? o + k + m) then Some (x - o + 1) else nth_error off x.
Proof.
  induction m as [|m IH]; intros off o k H; cbn [mark_off].
  - exists off. split; auto. split; auto. intros x. replace ((o + k <=? x) && (x <? o + k + 0))%bool with false by lia. auto.
  - rewrite put_ok by lia. cbn [obind].
    destruct (IH (upd off (o + k) (k + 1)) o (k + 1)) as (off' & E & L & F); [rewrite upd_length; lia|].
    exists off'. split; auto. rewrite upd_length in L. split; auto. intros x. rewrite F.
    destruct (Nat.eq_dec (o + k) x) as [<-|Hne].
    + rewrite nth_error_upd_eq by lia.
      replace ((o + (k + 1) <=? o + k) && (o + k <? o + (k + 1) + m))%bool with false by lia.
      replace ((o + k <=? o + k) && (o + k <? o + k + S m))%bool with true by lia. f_equal. lia.
    + rewrite nth_error_upd_ne by auto.
      replace ((o + (k + 1) <=? x) && (x <? o + (k + 1) + m))%bool with ((o + k <=? x) && (x <? o + k + S m))%bool by lia. auto.
Qed.
Lemma mark_first_ok num i : forall occs fl off n, length fl = n -> length off = n -> 1 <= i -> Forall (fun o => o + i <= n) occs ->
  ForallOrdPairs (fun a b => a + i <= b) occs ->
  exists fl' off', mark_first fl off num i occs = Some (fl', off') /\ length fl' = n /\ length off' = n /\
    (forall x, In x occs -> nth_error fl' x = Some num) /\ (forall x, ~ In x occs -> nth_error fl' x = nth_error fl x) /\
    (forall o x, In o occs -> o <= x < o + i -> nth_error off' x = Some (x - o + 1)) /\
    (forall x, (forall o, In o occs -> ~ (o <= x < o + i)) -> nth_error off' x = nth_error off x).
Proof.
  induction occs as [|o occs IH]; intros fl off n L1 L2 Hi Hf Hs; cbn [mark_first].
  { exists fl, off. repeat split; auto; intros; exfalso; auto. }
  inversion Hf as [|? ? F1 F2]; subst. inversion Hs as [|? ? S1 S2]; subst. rewrite Forall_forall in S1.
  rewrite put_ok by lia. cbn [obind].
  destruct (mark_off_ok i off o 0) as (off1 & E1 & E2 & E3); [lia|]. rewrite E1. cbn [obind].
  destruct (IH (upd fl o num) off1 (length fl)) as (fl' & off' & G1 & G2 & G3 & G4 & G5 & G6 & G7); auto; try lia.
  { apply upd_length. }
  exists fl', off'. split; auto. split; auto. split; auto. split; [|split; [|split]].
  - intros x [<-|Hx]; auto. rewrite G5; [apply nth_error_upd_eq; lia|]. intros Hin. specialize (S1 _ Hin). lia.
  - intros x Hx. rewrite G5 by (intros H; apply Hx; right; auto). apply nth_error_upd_ne. intros ->. apply Hx. left; auto.
  - intros q x [<-|Hq] Hx; [|eauto]. rewrite G7.
    + rewrite E3. replace ((o + 0 <=? x) && (x <? o + 0 + i))%bool with true by lia. auto.
    + intros q Hq Hc. specialize (S1 _ Hq). lia.
  - intros x Hx. rewrite G7 by (intros q Hq; apply Hx; right; auto). rewrite E3.
    specialize (Hx o (or_introl eq_refl)). replace ((o + 0 <=? x) && (x <? o + 0 + i))%bool with false by lia. auto.
Qed.

Section Layers.
  Context (text : list N) (mn : nat).
  Let n := length text.
  Hypothesis Hmn : 1 <= mn.

  Lemma sub_piece p q L d i : piece text p L = piece text q L -> d + i <= L -> piece text (p + d) i = piece text (q + d) i.
  Proof.
    intros E H.
    assert (G : forall r, piece text (r + d) i = firstn i (skipn d (piece text r L))).
    { intros r. unfold piece. rewrite skipn_firstn_comm. rewrite firstn_firstn. rewrite Nat.min_l by lia.
      f_equal. generalize text as t. clear. intros t. revert r t. induction r as [|r IH]; intros t; [auto|].
      destruct t; [rewrite !skipn_nil; auto|]. cbn [Nat.add skipn]. apply IH. }
    rewrite !G, E. auto.
  Qed.

  (** the second layer: a symbol inside the defining occurrence of an earlier rule *)
  Definition sl_ok (syms : list rule) (sl : list nat) (x : nat) : Prop :=
    nth_error sl x = Some 0 \/
    exists m s len j ps L, nth_error sl x = Some (S m) /\ nth_error syms m = Some (s, len) /\
      piece text s len = piece text x len /\ nth_error syms j = Some (ps, L) /\ ps <= x /\ x + len <= ps + L /\ j < m.
  Record linv (cur : nat) (y : lay) (dead : list bool) (ns : list nts) : Prop := {
    l_inv : inv text mn 1 cur dead (y_syms y) ns;
    l_self : forall k p l, nth_error (y_syms y) k = Some (p, l) -> In (p, k, l) ns;
    l_l1 : length (y_fl y) = n; l_l2 : length (y_off y) = n; l_l3 : length (y_sl y) = n; l_l4 : length (y_dead y) = n;
    l_off : forall x, x < n -> (exists u, In u ns /\ cov u x /\ nth_error (y_off y) x = Some (x - fst (fst u) + 1)) \/
              (nth_error (y_off y) x = Some 0 /\ forall u, In u ns -> ~ cov u x);
    l_fl : forall x, x < n -> (exists u, In u ns /\ fst (fst u) = x /\ nth_error (y_fl y) x = Some (S (snd (fst u)))) \/
              (nth_error (y_fl y) x = Some 0 /\ forall u, In u ns -> fst (fst u) <> x);
    l_sl : forall x, x < n -> sl_ok (y_syms y) (y_sl y) x }.

  Lemma linv_weaken cur cur' y dead ns : cur' <= cur -> linv cur y dead ns -> linv cur' y dead ns.
  Proof. intros H I. destruct I. constructor; auto. apply (inv_weaken text mn 1 cur); auto. Qed.

  Lemma same_block ns u v x : ForallOrdPairs apart ns -> In u ns -> In v ns -> cov u x -> cov v x -> u = v.
  Proof.
    induction 1 as [|a ns Ha H IH]; intros Hu Hv Cu Cv; [destruct Hu|]. rewrite Forall_forall in Ha.
    destruct Hu as [<-|Hu], Hv as [<-|Hv]; auto.
    - exfalso. apply (Ha v Hv x). auto.
    - exfalso. apply (Ha u Hu x). auto.
  Qed.
  Lemma block_len cur dead d ns u : inv text mn 1 cur dead d ns -> In u ns -> mn <= snd u /\ fst (fst u) + snd u <= n /\
    exists p, nth_error d (snd (fst u)) = Some (p, snd u) /\ piece text p (snd u) = piece text (fst (fst u)) (snd u).
  Proof.
    intros I Hu. pose proof (i_use _ _ _ _ _ _ _ I) as U. rewrite Forall_forall in U. destruct (U u Hu) as (U1 & p & U2 & U3).
    pose proof (i_dcur _ _ _ _ _ _ _ I) as D. rewrite Forall_forall in D. pose proof (D _ (nth_error_In _ _ U2)) as [_ D2]. cbn in D2.
    split; auto. split; auto. eauto.
  Qed.
  (** the block that covers a position, found through the two vectors *)
  Lemma find_block cur y dead ns x f : linv cur y dead ns -> x < n -> nth_error (y_off y) x = Some f -> f <> 0 ->
    exists u p, In u ns /\ cov u x /\ f = x - fst (fst u) + 1 /\ nth_error (y_fl y) (x - (f - 1)) = Some (S (snd (fst u))) /\
      nth_error (y_syms y) (snd (fst u)) = Some (p, snd u) /\ piece text p (snd u) = piece text (fst (fst u)) (snd u).
  Proof.
    intros I Hx Ef Hf. destruct (l_off _ _ _ _ I x Hx) as [(u & U1 & U2 & U3)|[U3 _]]; [|congruence].
    assert (E : f = x - fst (fst u) + 1) by congruence. subst f.
    destruct (block_len _ _ _ _ u (l_inv _ _ _ _ I) U1) as (B1 & B2 & p & B3 & B4).
    assert (Es : x - (x - fst (fst u) + 1 - 1) = fst (fst u)) by (unfold cov in U2; lia).
    destruct (l_fl _ _ _ _ I (fst (fst u)) ltac:(lia)) as [(v & V1 & V2 & V3)|[_ V]]; [|exfalso; apply (V u U1); auto].
    destruct (block_len _ _ _ _ v (l_inv _ _ _ _ I) V1) as (C1 & _).
    assert (v = u) as ->.
    { apply (same_block ns v u (fst (fst u))); auto; [apply (i_apart _ _ _ _ _ _ _ (l_inv _ _ _ _ I))| |]; unfold cov; lia. }
    exists u, p. rewrite Es. auto 6.
  Qed.

  Lemma viable_ok cur y dead ns i : linv cur y dead ns -> 1 <= i ->
    forall occs free, Forall (fun o => o + i <= n) occs ->
    exists a b, viable y i free occs = Some (a, b) /\ ForallOrdPairs (fun a b => a + i <= b) a /\
      (forall o, In o a -> In o occs /\ free <= o /\ nth_error (y_off y) o = Some 0 /\ nth_error (y_off y) (o + i - 1) = Some 0) /\
      (forall o, In o b -> In o occs /\ exists u, In u ns /\ cov u o /\ o + i <= fst (fst u) + snd u).
  Proof.
    intros I Hi. pose proof (l_l2 _ _ _ _ I) as L2. induction occs as [|o occs IH]; intros free Hf; cbn [viable].
    { exists [], []. split; auto. split; [constructor|]. split; intros o []. }
    inversion Hf as [|? ? F1 F2]; subst.
    assert (Skip : forall free, exists a b, viable y i free occs = Some (a, b) /\ ForallOrdPairs (fun a b => a + i <= b) a /\
      (forall q, In q a -> In q (o :: occs) /\ free <= q /\ nth_error (y_off y) q = Some 0 /\ nth_error (y_off y) (q + i - 1) = Some 0) /\
      (forall q, In q b -> In q (o :: occs) /\ exists u, In u ns /\ cov u q /\ q + i <= fst (fst u) + snd u)).
    { intros fr. destruct (IH fr F2) as (a & b & E & A & B & C). exists a, b. split; auto. split; auto. split.
      - intros q Hq. destruct (B q Hq). split; auto. right; auto.
      - intros q Hq. destruct (C q Hq). split; auto. right; auto. }
    destruct (Nat.leb_spec free o) as [L|L]; [|apply Skip].
    destruct (nth_error (y_off y) o) as [f|] eqn:Ef; [|apply nth_error_None in Ef; lia]. cbn [obind].
    destruct (Nat.eqb_spec f 0) as [->|Hf0].
    - destruct (nth_error (y_off y) (o + i - 1)) as [g|] eqn:Eg; [|apply nth_error_None in Eg; lia]. cbn [obind].
      destruct (Nat.eqb_spec g 0) as [->|]; [|apply Skip].
      destruct (Skip (o + i)) as (a & b & E & A & B & C). rewrite E. cbn [obind].
      exists (o :: a), b. split; auto. split.
      { constructor; auto. apply Forall_forall. intros q Hq. apply B in Hq. lia. }
      split; auto. intros q [<-|Hq]; [split; [left|]; auto|]. destruct (B q Hq) as (B1 & B2 & B3). split; auto. split; [lia|auto].
    - destruct (find_block cur y dead ns o f I ltac:(lia) Ef Hf0) as (u & p & U1 & U2 & U3 & U4 & U5 & U6).
      rewrite U4. cbn [obind symbol]. rewrite U5. cbn [obind].
      destruct (Skip free) as (a & b & E & A & B & C). rewrite E. cbn [obind].
      destruct (Nat.leb_spec (f - 1 + i) (snd u)) as [L1|L1].
      + exists a, (o :: b). split; auto. split; auto. split; auto.
        intros q [<-|Hq]; auto. split; [left; auto|]. exists u. split; auto. split; auto. unfold cov in U2. lia.
      + exists a, b. auto.
  Qed.

  Lemma sl_mono syms r sl x : sl_ok syms sl x -> sl_ok (syms ++ [r]) sl x.
  Proof.
    intros [H|(m & s & len & j & ps & L & H1 & H2 & H3 & H4 & H5)]; [left; auto|]. right.
    exists m, s, len, j, ps, L. rewrite !nth_error_app1 by (apply nth_error_Some; congruence). auto.
  Qed.

  Lemma mark_second_ok cur dead ns k i s : 1 <= i -> forall occs y, linv cur y dead ns ->
    nth_error (y_syms y) k = Some (s, i) ->
    (forall o, In o occs -> piece text s i = piece text o i /\
       exists u, In u ns /\ cov u o /\ o + i <= fst (fst u) + snd u /\ snd (fst u) < k) ->
    exists y', mark_second y (S k) i occs = Some y' /\ linv cur y' dead ns /\ y_syms y' = y_syms y.
  Proof.
    intros Hi. induction occs as [|o occs IH]; intros y I Hk Ho; cbn [mark_second]; [eauto|].
    destruct (Ho o (or_introl eq_refl)) as (O1 & u & U1 & U2 & U3 & U4).
    assert (Ho' : forall o, In o occs -> piece text s i = piece text o i /\
       exists u, In u ns /\ cov u o /\ o + i <= fst (fst u) + snd u /\ snd (fst u) < k) by (intros; apply Ho; right; auto).
    destruct (block_len _ _ _ _ u (l_inv _ _ _ _ I) U1) as (B1 & B2 & _).
    assert (Lo : o < n) by lia.
    destruct (nth_error (y_off y) o) as [f|] eqn:Ef; [|apply nth_error_None in Ef; rewrite (l_l2 _ _ _ _ I) in Ef; lia]. cbn [obind].
    assert (Hf : f <> 0).
    { intros ->. destruct (l_off _ _ _ _ I o Lo) as [(w & _ & _ & W)|[_ W]]; [rewrite Ef in W; injection W; lia|]. apply (W u U1 U2). }
    destruct (find_block cur y dead ns o f I Lo Ef Hf) as (u' & p & V1 & V2 & V3 & V4 & V5 & V6).
    assert (u' = u) as ->.
    { apply (same_block ns u' u o); auto. apply (i_apart _ _ _ _ _ _ _ (l_inv _ _ _ _ I)). }
    rewrite V4. cbn [obind symbol]. rewrite V5. cbn [obind].
    pose proof (i_rule _ _ _ _ _ _ _ (l_inv _ _ _ _ I)) as R. rewrite Forall_forall in R.
    pose proof (R _ (nth_error_In _ _ V5)) as [R1 R2]. cbn [fst snd] in R1, R2. fold n in R2.
    set (st := p + f - 1). assert (St : st = p + (o - fst (fst u)) /\ st + i <= p + snd u /\ p <= st).
    { unfold st. unfold cov in U2. lia. }
    destruct St as (St1 & St2 & St3).
    rewrite (nth_error_nth' (y_dead y) false) by (rewrite (l_l4 _ _ _ _ I); lia). cbn [obind].
    assert (A : exists b, (if nth st (y_dead y) false then Some true else nth_error (y_dead y) (st + i - 1)) = Some b).
    { destruct (nth st (y_dead y) false); [eauto|]. rewrite (nth_error_nth' (y_dead y) false) by (rewrite (l_l4 _ _ _ _ I); lia). eauto. }
    destruct A as (b & Eb). rewrite Eb. cbn [obind]. destruct b; [apply IH; auto|].
    rewrite put_ok by (rewrite (l_l3 _ _ _ _ I); lia). cbn [obind].
    destruct (mark_spec i (y_dead y) st) as (d' & D1 & D2 & _); [rewrite (l_l4 _ _ _ _ I); lia|]. rewrite D1. cbn [obind].
    apply (IH (mk_lay (y_fl y) (y_off y) (upd (y_sl y) st (S k)) d' (y_syms y))); auto.
    destruct I. constructor; cbn [y_fl y_off y_sl y_dead y_syms]; auto.
    - rewrite upd_length. auto.
    - lia.
    - intros x Hx. destruct (Nat.eq_dec st x) as [<-|Hne].
      + right. exists k, s, i, (snd (fst u)), p, (snd u). rewrite nth_error_upd_eq by lia.
        split; auto. split; auto. split.
        { rewrite O1, St1. replace o with (fst (fst u) + (o - fst (fst u))) at 1 by (unfold cov in U2; lia).
          symmetry. apply (sub_piece p (fst (fst u)) (snd u)); auto. unfold cov in U2. lia. }
        auto.
      + destruct (l_sl0 x Hx) as [H|(m & s' & len & j & ps & L & H1 & H2)]; [left|right].
        * rewrite nth_error_upd_ne; auto.
        * exists m, s', len, j, ps, L. rewrite nth_error_upd_ne by auto. auto.
  Qed.

  Lemma candidate_ok i y dead ns w occs : mn <= i -> linv i y dead ns ->
    Forall (fun o => o + i <= n /\ piece text o i = w) occs ->
    exists y' dead' ns', candidate 0 y i occs = Some y' /\ linv i y' dead' ns'.
  Proof.
    intros Hi I Ho. unfold candidate.
    destruct (viable_ok i y dead ns i I ltac:(lia) occs 0) as (a & b & E & A & B & C).
    { revert Ho. apply Forall_impl. tauto. }
    rewrite E. cbn [obind]. rewrite Forall_forall in Ho.
    destruct a as [|o a']; [eauto|]. set (a := o :: a') in *. destruct (2 <=? length a + length b); [|eauto].
    rewrite Nat.sub_0_r. replace (length (y_syms y) + 1) with (S (length (y_syms y))) by lia. set (k := length (y_syms y)).
    assert (Oo : In o a) by (left; auto). destruct (B o Oo) as (Bo & _). destruct (Ho o Bo) as [Ho1 Ho2].
    assert (Dz : forall x, x < n -> nth_error (y_off y) x = Some 0 -> nth x dead false = false).
    { intros x Hx Ex. destruct (nth x dead false) eqn:Ed; auto. exfalso.
      apply (i_dead _ _ _ _ _ _ _ (l_inv _ _ _ _ I) x Hx) in Ed. destruct Ed as (u & Hu & Hc).
      destruct (l_off _ _ _ _ I x Hx) as [(v & _ & _ & V)|[_ V]]; [rewrite Ex in V; injection V; lia|]. apply (V u Hu Hc). }
    destruct (add_rule text mn 1 i dead (y_syms y) ns i o a (l_inv _ _ _ _ I)) as (dead' & _ & I'); try lia.
    { apply Forall_forall. intros q Hq. destruct (B q Hq) as (B1 & _ & B2 & B3). destruct (Ho q B1) as [P1 P2].
      split; auto. split; [congruence|]. split; apply Dz; auto; unfold n in *; lia. }
    { auto. }
    { cbn. lia. }
    { cbn. lia. }
    fold k in I'.
    destruct (mark_first_ok (S k) i a (y_fl y) (y_off y) n (l_l1 _ _ _ _ I) (l_l2 _ _ _ _ I) ltac:(lia))
      as (fl' & off' & G1 & G2 & G3 & G4 & G5 & G6 & G7); auto.
    { apply Forall_forall. intros q Hq. destruct (B q Hq) as (B1 & _). apply Ho in B1. tauto. }
    rewrite G1. cbn [obind].
    set (ns' := ns ++ map (fun p => (p, k, i)) a) in *.
    set (y1 := mk_lay fl' off' (y_sl y) (y_dead y) (y_syms y ++ [(o, i)])).
    assert (N1 : forall u, In u ns' <-> In u ns \/ exists q, In q a /\ u = (q, k, i)).
    { intros u. unfold ns'. rewrite in_app_iff, in_map_iff. split; intros [H|(q & H)]; auto; right; exists q; destruct H; auto. }
    assert (I1 : linv i y1 dead' ns').
    { constructor; unfold y1; cbn [y_fl y_off y_sl y_dead y_syms]; auto.
      - intros j p l Hj. apply N1. destruct (lt_dec j k) as [Lj|Lj].
        + rewrite nth_error_app1 in Hj by auto. left. apply (l_self _ _ _ _ I); auto.
        + rewrite nth_error_app2 in Hj by (fold k; lia). fold k in Hj. destruct (j - k) as [|z] eqn:Ez; [|destruct z; discriminate].
          injection Hj as <- <-. right. exists o. split; auto. f_equal. f_equal. lia.
      - exact (l_l3 _ _ _ _ I).
      - exact (l_l4 _ _ _ _ I).
      - intros x Hx. destruct (existsb (fun q => (q <=? x) && (x <? q + i)) a) eqn:Ex.
        + apply existsb_exists in Ex. destruct Ex as (q & Hq & Hc). left. exists (q, k, i). split; [apply N1; eauto|].
          split; [unfold cov; cbn [fst snd]; lia|]. cbn [fst snd]. apply G6; auto. lia.
        + assert (Nx : forall q, In q a -> ~ (q <= x < q + i)).
          { intros q Hq Hc. assert (existsb (fun q => (q <=? x) && (x <? q + i)) a = true); [|congruence].
            apply existsb_exists. exists q. split; auto. lia. }
          destruct (l_off _ _ _ _ I x Hx) as [(u & U1 & U2 & U3)|[U1 U2]].
          * left. exists u. split; [apply N1; auto|]. split; auto. rewrite G7; auto.
          * right. rewrite G7 by auto. split; auto. intros u Hu. apply N1 in Hu. destruct Hu as [Hu|(q & Hq & ->)]; [auto|].
            unfold cov. cbn [fst snd]. apply Nx. auto.
      - intros x Hx. destruct (in_dec Nat.eq_dec x a) as [Hin|Hin].
        + left. exists (x, k, i). split; [apply N1; eauto|]. split; auto.
        + destruct (l_fl _ _ _ _ I x Hx) as [(u & U1 & U2 & U3)|[U1 U2]].
          * left. exists u. split; [apply N1; auto|]. split; auto. rewrite G5; auto.
          * right. rewrite G5 by auto. split; auto. intros u Hu. apply N1 in Hu. destruct Hu as [Hu|(q & Hq & ->)]; [auto|].
            cbn [fst]. intros ->. auto.
      - intros x Hx. apply sl_mono. apply (l_sl _ _ _ _ I); auto. }
    destruct (mark_second_ok i dead' ns' k i o ltac:(lia) b y1 I1) as (y' & E' & I2 & _).
    - unfold y1. cbn [y_syms]. rewrite nth_error_app2 by (fold k; lia). fold k. rewrite Nat.sub_diag. auto.
    - intros q Hq. destruct (C q Hq) as (C1 & u & U1 & U2 & U3). destruct (Ho q C1) as [P1 P2]. split; [congruence|].
      exists u. split; [apply N1; auto|]. split; auto. split; auto.
      destruct (block_len _ _ _ _ u (l_inv _ _ _ _ I) U1) as (_ & _ & p & V & _). apply nth_error_Some. congruence.
    - rewrite E'. eauto.
  Qed.

  Lemma linv0 cur : linv cur (lay0 n []) (repeat false n) [].
  Proof.
    constructor; cbn [lay0 y_fl y_off y_sl y_dead y_syms]; try apply repeat_length.
    - apply inv_init.
    - intros [|k]; discriminate.
    - intros x Hx. right. split; [apply nth_error_repeat; auto|intros u []].
    - intros x Hx. right. split; [apply nth_error_repeat; auto|intros u []].
    - intros x Hx. left. apply nth_error_repeat; auto.
  Qed.

  (** ** the suffix tree *)
  Context (T : list tnode) (W : nat -> list N).
  Hypothesis HW : spells text T W.
  Notation st2 := (bins_t * list (option (list nat)) * lay)%type.
  Definition sound2 (len : nat) (rest : list nat) (st : st2) : Prop :=
    let '(bins, bp, y) := st in
    good_bins T bins /\ entry text T W bp /\ (exists dead ns, linv len y dead ns) /\ len < length bins /\
    Forall (fun x => exists t, nth_error T x = Some t /\ len <= td_depth t) rest.

  Lemma cand_occ x t i l : i <= td_depth t -> Forall (occ text W x t) l ->
    Forall (fun o => o + i <= n /\ piece text o i = firstn i (W x)) l.
  Proof.
    intros H. apply Forall_impl. intros o [O1 O2]. unfold n. split; [lia|]. rewrite <- O2. symmetry. apply (piece_shorter text mn); auto.
  Qed.

  Lemma lfs2_step_ok exact i x rest st : mn <= i -> sound2 i (x :: rest) st ->
    exists st', lfs2_step T n 0 exact i x st = Some st' /\ sound2 i rest st'.
  Proof.
    intros Hi S. destruct st as [[bins bp] y]. destruct S as (G1 & G2 & (dead & ns & G3) & G4 & Hr).
    inversion Hr as [|? ? (t & Hx & Hd) Hr']; subst.
    assert (X : forall bins' bp' y', good_bins T bins' -> length bins' = length bins -> entry text T W bp' ->
      (exists dead ns, linv i y' dead ns) -> sound2 i rest (bins', bp', y')).
    { intros. refine (conj _ (conj _ (conj _ (conj _ _)))); auto. lia. }
    unfold lfs2_step. destruct (entry_at text mn T W Hmn bp x t G2 Hx) as (e & Ee). rewrite Ee. cbn [obind].
    assert (Y : exists l bp', match e with Some (z :: l) => Some (z :: l, bp) | _ => gather T (Some []) (all_alive n) x bp end = Some (l, bp') /\
      entry text T W bp' /\ Forall (occ text W x t) l /\ StronglySorted le l).
    { assert (La : length (all_alive n) = length text) by (unfold all_alive; apply repeat_length).
      destruct e as [[|z l]|].
      - apply (gather_ok text mn T W Hmn HW (Some []) (all_alive n) x t bp); auto. lia.
      - exists (z :: l), bp. destruct (proj2 G2 x t (z :: l) Hx Ee). auto.
      - apply (gather_ok text mn T W Hmn HW (Some []) (all_alive n) x t bp); auto. lia. }
    destruct Y as (l & bp' & Ey & Y1 & Y2 & Y3). rewrite Ey. cbn [obind].
    destruct (ends l) as [[f b]|] eqn:Ef; [|eexists; split; [reflexivity|]; apply X; eauto].
    destruct (2 <=? length l); [|eexists; split; [reflexivity|]; apply X; eauto].
    destruct (Nat.leb_spec i (b - f)) as [L|L].
    - destruct (candidate_ok i y dead ns (firstn i (W x)) l Hi G3) as (y' & dead' & ns' & E & I'); [apply (cand_occ x t); auto|].
      rewrite E. cbn [obind]. eexists. split; [reflexivity|]. apply X; eauto.
    - destruct exact; [|eexists; split; [reflexivity|]; apply X; eauto].
      rewrite Hx. cbn [obind]. destruct (HW x t Hx) as (_ & _ & Hp & _). destruct Hp as (p & Ep & _); [lia|].
      rewrite Ep. cbn [obind]. destruct (td_depth p <? b - f); [|eexists; split; [reflexivity|]; apply X; eauto].
      destruct (good_push T bins (b - f) x t) as (bins' & P1 & P2 & P3); auto; try lia.
      rewrite P1. cbn [obind]. eexists. split; [reflexivity|]. apply X; eauto.
  Qed.
  Lemma lfs2bst_step_ok i x rest st : mn <= i -> sound2 i (x :: rest) st ->
    exists st', lfs2bst_step T n 0 i x st = Some st' /\ sound2 i rest st'.
  Proof.
    intros Hi S. destruct st as [[bins bp] y]. destruct S as (G1 & G2 & (dead & ns & G3) & G4 & Hr).
    inversion Hr as [|? ? (t & Hx & Hd) Hr']; subst.
    assert (X : forall bp' y', entry text T W bp' -> (exists dead ns, linv i y' dead ns) -> sound2 i rest (bins, bp', y')).
    { intros. refine (conj _ (conj _ (conj _ (conj _ _)))); auto. }
    unfold lfs2bst_step. destruct (entry_at text mn T W Hmn bp x t G2 Hx) as (e & Ee). rewrite Ee. cbn [obind].
    assert (Y : exists l bp', match e with Some l => Some (l, bp) | None => gather T None (all_alive n) x bp end = Some (l, bp') /\
      entry text T W bp' /\ Forall (occ text W x t) l /\ StronglySorted le l).
    { assert (La : length (all_alive n) = length text) by (unfold all_alive; apply repeat_length).
      destruct e as [l|].
      - exists l, bp. destruct (proj2 G2 x t l Hx Ee). auto.
      - apply (gather_ok text mn T W Hmn HW None (all_alive n) x t bp); auto. lia. }
    destruct Y as (l & bp' & Ey & Y1 & Y2 & Y3). rewrite Ey. cbn [obind].
    destruct (ends l) as [[f b]|] eqn:Ef; [|eexists; split; [reflexivity|]; apply X; eauto].
    destruct (_ && _)%bool; [|eexists; split; [reflexivity|]; apply X; eauto].
    destruct (candidate_ok i y dead ns (firstn i (W x)) l Hi G3) as (y' & dead' & ns' & E & I'); [apply (cand_occ x t); auto|].
    rewrite E. cbn [obind]. eexists. split; [reflexivity|]. apply X; eauto.
  Qed.

  Lemma run2_ok (step : nat -> nat -> st2 -> option st2) :
    (forall i x rest st, mn <= i -> sound2 i (x :: rest) st -> exists st', step i x st = Some st' /\ sound2 i rest st') ->
    forall i bins bp y, good_bins T bins -> entry text T W bp -> (exists dead ns, linv i y dead ns) -> i < length bins ->
    exists bins' bp' y' cur dead ns, run_levels2 step mn i (bins, bp, y) = Some (bins', bp', y') /\ linv cur y' dead ns.
  Proof.
    intros Hs.
    assert (RN : forall i rest st, mn <= i -> sound2 i rest st -> exists st', run_nodes2 step i rest st = Some st' /\ sound2 i [] st').
    { intros i. induction rest as [|x rest IH]; intros st Hl Hi; cbn [run_nodes2]; [eauto|].
      destruct (Hs i x rest st Hl Hi) as (st' & E & Hi'). rewrite E. cbn [obind]. auto. }
    induction i as [|i IH]; intros bins bp y G1 G2 (dead & ns & G3) G4; cbn [run_levels2].
    - replace (0 <? mn) with true by lia. exists bins, bp, y, 0, dead, ns. auto.
    - destruct (Nat.ltb_spec (S i) mn) as [L|L]; [exists bins, bp, y, (S i), dead, ns; auto|].
      rewrite (nth_error_nth' bins []) by auto. cbn [obind].
      assert (G1' : good_bins T (upd bins (S i) [])).
      { intros b x Hx. destruct (Nat.eq_dec (S i) b) as [<-|Hne]; [rewrite nth_upd_eq in Hx by auto; destruct Hx|].
        rewrite nth_upd_ne in Hx by auto. apply G1; auto. }
      destruct (RN (S i) (rev (nth (S i) bins [])) (upd bins (S i) [], bp, y) L) as ([[bins' bp'] y'] & E & S').
      { refine (conj G1' (conj G2 (conj _ (conj _ _)))); [eauto|rewrite upd_length; auto|]. apply Forall_forall. intros x Hx. apply in_rev in Hx. apply G1; auto. }
      rewrite E. cbn [obind]. destruct S' as (S1 & S2 & (dead' & ns' & S3) & S4 & _). apply IH; auto; [|lia].
      exists dead', ns'. apply (linv_weaken (S i)); auto.
  Qed.

  Lemma lfs2_layers_ok exact order : traversal T order -> (exists c, In c text /\ c <> 0%N) \/ n < mn ->
    exists y cur dead ns, lfs2_layers T exact mn order text = Some y /\ linv cur y dead ns.
  Proof.
    intros P Hz. unfold lfs2_layers, lfs2_run. fold n. cbv zeta. cbn [length]. destruct (Nat.leb_spec mn n) as [L|L].
    2: { exists (lay0 n []), 0, (repeat false n), []. split; auto. apply linv0. }
    destruct Hz as [(c & Hc & Hnz)|]; [|lia].
    assert (A : exists k, strip_nul (rev text) = Some k).
    { apply in_rev in Hc. revert Hc. generalize (rev text). clear - Hnz. induction l as [|a l IH]; intros []; cbn [strip_nul].
      - subst a. rewrite (proj2 (N.eqb_neq c 0)) by auto. eauto.
      - destruct (a =? 0)%N; eauto. }
    destruct A as (k & A). rewrite A. cbn [obind]. replace (resize [] 200 []) with bins0 by reflexivity.
    replace (resize (Some (@nil nat)) (length T) []) with (repeat (Some (@nil nat)) (length T))
      by (unfold resize; rewrite firstn_nil, Nat.sub_0_r; reflexivity).
    destruct (sim_fill_ok text mn T Hmn order (order_lt text mn T Hmn order P) bins0) as (bins & E & G & Lb).
    { apply good_bins0. }
    { unfold bins0. rewrite repeat_length. lia. }
    rewrite E. cbn [obind].
    destruct (run2_ok (lfs2_step T n 0 exact)) with (i := length bins - 1) (bins := bins) (bp := repeat (Some (@nil nat)) (length T)) (y := lay0 n [])
      as (bins' & bp' & y' & cur & dead & ns & R & I); auto.
    - intros. apply lfs2_step_ok; auto.
    - apply entry0. auto.
    - eexists _, _. apply linv0.
    - lia.
    - rewrite R. cbn [obind]. eauto 6.
  Qed.
  Lemma lfs2bst_layers_ok order : traversal T order ->
    exists y cur dead ns, lfs2bst_layers T mn order text = Some y /\ linv cur y dead ns.
  Proof.
    intros P. unfold lfs2bst_layers. fold n. destruct (Nat.leb_spec mn n) as [L|L].
    2: { exists (lay0 n []), 0, (repeat false n), []. split; auto. apply linv0. }
    destruct (bst_fill_ok text mn T Hmn order (order_lt text mn T Hmn order P) bins0 0) as (bins & mx & E & G & Lb).
    { apply good_bins0. }
    { unfold bins0. rewrite repeat_length. lia. }
    rewrite E. cbn [obind].
    assert (L' : mx < length (firstn (mx + 1) bins)) by (rewrite firstn_length; lia).
    assert (G' : good_bins T (firstn (mx + 1) bins)).
    { intros b x Hx. apply G. destruct (le_lt_dec (mx + 1) b) as [Lc|Lc].
      - rewrite nth_overflow in Hx; [destruct Hx|]. rewrite firstn_length. lia.
      - rewrite <- (firstn_skipn (mx + 1) bins). rewrite app_nth1; auto. rewrite firstn_length. lia. }
    destruct (run2_ok (lfs2bst_step T n 0)) with (i := mx) (bins := firstn (mx + 1) bins) (bp := repeat (@None (list nat)) (length T)) (y := lay0 n [])
      as (bins' & bp' & y' & cur & dead & ns & R & I); auto.
    - intros. apply lfs2bst_step_ok; auto.
    - apply entry0. auto.
    - eexists _, _. apply linv0.
    - rewrite R. cbn [obind]. eauto 6.
  Qed.
End Layers.
