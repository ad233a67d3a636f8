(** Moving all the children of a node, and following an edge that makes a new node. *)
From Coq Require Import ZArith List Lia Sorted Permutation.
From Verif Require Import Base Coders LZ Cedar CedarRing CedarAlloc CedarTree CedarMove CedarStep.
Import ListNotations.
Local Open Scope Z_scope.

Lemma move_kids_ok flag base base_ from to_pn ln pc new : 256 <= base -> 256 <= base_ -> from <> 0 -> 0 < ln < 256 ->
  (flag = true -> pc = ln /\ to_pn = Z.lxor base_ ln /\ new = Z.lxor base ln) ->
  (flag = false -> to_pn = Z.lxor base_ pc /\ new = to_pn) ->
  forall ls R B ch fn d, alloc R B d -> tree ch from (-1) d -> inner ch from -> inner ch fn -> fn <> 0 ->
  ab d from = base -> NoDup ls ->
  (forall p, In p ls -> 0 <= p < 256 /\ free d (Z.lxor base p) /\
     (flag && (p =? ln) = false -> ch from p = Some (Z.lxor base_ p))) ->
  (flag = true -> fn = from) -> (flag = false -> fn <> from /\ 256 <= ab d fn /\ to_pn = Z.lxor (ab d fn) ln) ->
  (In pc ls -> ch fn ln = None) ->
  let r := move_kids flag base base_ from to_pn ln ls fn d in
  exists R' B' ch' s, alloc R' B' (snd r) /\ moved flag base from ln pc new ls ch fn d ch' (fst r) (snd r) s /\
    match ls with [] => True | p :: ls' => links (sb (snd r)) base p ls' end.
Proof.
  intros Hbase Hb_ Hfrom Hln Hf1 Hf0. induction ls as [|p ls IH]; intros R B ch fn d A T If Ifn Hfn Eb N Hls Hft Hff Hpc.
  - cbn [move_kids]. exists R, B, ch, (fun q => q). split; [exact A|]. split; [|exact I].
    constructor; try reflexivity; auto; try (intros ? []; fail).
    + intros q _ l. cbn. destruct (ch q l); auto.
    + intros K. cbn. apply (Hff K).
    + intros [].
  - pose proof N as NN. apply NoDup_cons_iff in NN as [N1 N2]. rewrite move_kids_step.
    destruct (Hls p ltac:(left; auto)) as (P1 & P2 & P3).
    destruct (step_ok flag base base_ from to_pn ln pc new Hbase Hfrom Hln Hf1 Hf0 R B ch fn d p
      (match ls with [] => 0 | q :: _ => q end) A T If Ifn Eb P1 Hb_ P2 P3 Hft Hff) as (R1 & B1 & ch1 & s1 & A1 & M1 & S1 & F1).
    { intros ->. apply Hpc. left; auto. }
    destruct (step flag base base_ from to_pn ln p (match ls with [] => 0 | q :: _ => q end) fn d) as [fn1 d1].
    cbn [fst snd] in *.
    pose proof (ren_inner _ _ _ _ _ _ _ _ _ T (mo_0 _ _ _ _ _ _ _ _ _ _ _ _ _ _ M1) (mo_ren _ _ _ _ _ _ _ _ _ _ _ _ _ _ M1)) as I1.
    pose proof (mo_from _ _ _ _ _ _ _ _ _ _ _ _ _ _ M1) as E1. pose proof (mo_fn _ _ _ _ _ _ _ _ _ _ _ _ _ _ M1) as E2.
    pose proof (mo_tree _ _ _ _ _ _ _ _ _ _ _ _ _ _ M1) as T1.
    assert (If1 : inner ch1 from) by (rewrite <- E1; auto).
    assert (Ab1 : forall q, inner ch q -> q <> 0 -> ab d1 (s1 q) = ab d q).
    { intros q [->|(r' & l & _ & E)] Hq; [congruence|]. apply (mo_ab _ _ _ _ _ _ _ _ _ _ _ _ _ _ M1 _ _ _ E). }
    assert (Efn : ab d1 fn1 = ab d fn) by (rewrite E2; auto).
    destruct (IH R1 B1 ch1 fn1 d1) as (R' & B' & ch' & s & A' & M' & L'); auto.
    { rewrite E2. auto. }
    { intros Z0. pose proof (tr_root _ _ _ _ T1) as [_ G2]. destruct (Bool.bool_dec flag true) as [F|F].
      - rewrite E2, (Hft F), E1 in Z0. auto.
      - apply Bool.not_true_is_false in F. destruct (Hff F) as (_ & G & _). rewrite Z0 in Efn. lia. }
    { rewrite <- E1. rewrite Ab1; auto. }
    { intros p' Hp'. destruct (Hls p' ltac:(right; auto)) as (Q1 & Q2 & Q3). split; auto. split.
      - apply F1; auto. intros K. apply lxor_inj in K. subst p'. auto.
      - intros K. specialize (Q3 K). pose proof (mo_ren _ _ _ _ _ _ _ _ _ _ _ _ _ _ M1 from If p') as Rn.
        rewrite Q3, E1 in Rn. rewrite Rn. f_equal. apply (mo_id _ _ _ _ _ _ _ _ _ _ _ _ _ _ M1).
        intros p'' [<-|[]] E. apply N1. rewrite (tr_inj _ _ _ _ T _ _ _ _ E Q3). auto. }
    { intros K. rewrite E2, (Hft K). auto. }
    { intros K. rewrite Efn. destruct (Hff K) as (G1 & G2 & G3). split; auto. apply (mo_ne _ _ _ _ _ _ _ _ _ _ _ _ _ _ M1 K). }
    { intros K. pose proof (mo_ren _ _ _ _ _ _ _ _ _ _ _ _ _ _ M1 fn Ifn ln) as Rn. rewrite (Hpc ltac:(right; auto)) in Rn.
      rewrite E2. destruct Rn as [Rn|([Rn|[]] & _)]; auto. subst p. contradiction. }
    exists R', B', ch', (fun q => s (s1 q)). split; [exact A'|]. split.
    + eapply moved_app; eauto.
    + assert (SP : sb (snd (move_kids flag base base_ from to_pn ln ls fn1 d1)) (Z.lxor base p) = match ls with [] => 0 | q :: _ => q end).
      { rewrite (mo_sb _ _ _ _ _ _ _ _ _ _ _ _ _ _ M'); auto. apply (mo_kid _ _ _ _ _ _ _ _ _ _ _ _ _ _ M1). left; auto. }
      destruct ls as [|q ls]; cbn [links]; [exact SP|split; [exact SP|exact L']].
Qed.

Lemma tree_open ch x d b : tree ch (-1) (-1) d -> x <> 0 -> 256 <= b -> (inner ch x -> ch x 0 <> None) ->
  tree ch x (-1) (set_ab (fu (ab d) x b) d).
Proof.
  intros T X Hb Hc. constructor; try apply T.
  - cbn [ab ac set_ab]. rewrite fu_ne by auto. apply T.
  - intros p l t Hp E. cbn [ab set_ab]. rewrite fu_ne by auto. apply (tr_slot _ _ _ _ T p l t); auto.
    apply (tr_ch _ _ _ _ T) in E. intros ->. destruct E as (_ & _ & _ & _ & _ & I & _).
    destruct (inner_node _ _ _ _ _ T I) as [|[]]; lia.
  - intros p Hp I Hq. cbn [ab sb set_ab]. rewrite fu_ne by auto. apply (tr_sib _ _ _ _ T p); auto.
    intros ->. destruct (inner_node _ _ _ _ _ T I) as [|[]]; lia.
  - intros p I P0. cbn [ab set_ab]. destruct (fu_cases (ab d) x b p) as [[-> ->]|[_ ->]]; auto. apply (tr_big _ _ _ _ T); auto.
Qed.
Lemma tree_close ch x d : tree ch x (-1) d ->
  (forall l t, ch x l = Some t -> 0 <= ab d x /\ t = Z.lxor (ab d x) l) ->
  (exists L, slist ch x L /\ links (sb d) (ab d x) 0 L) -> tree ch (-1) (-1) d.
Proof.
  intros T H1 H2. constructor; try apply T.
  - intros p l t _ E. destruct (Z.eq_dec p x) as [->|]; auto. apply (tr_slot _ _ _ _ T p l t); auto.
  - intros p _ I C. destruct (Z.eq_dec p x) as [->|]; auto. apply (tr_sib _ _ _ _ T p); auto.
Qed.

Lemma set_child_ok ch d p L o : tree ch (-1) (-1) d -> slist ch p L -> links (sb d) (ab d p) 0 L ->
  set_child (sb d) (ab d p) 0 o = 0 :: match o with Some x => put_label x L | None => L end.
Proof.
  intros T SL K. destruct (slist_len _ _ _ _ _ _ T SL) as [LL LN].
  unfold set_child. cbn [Z.eqb]. rewrite (sibs_links (sb d) (ab d p) L 0 256); auto.
Qed.

Lemma resolve_ok R B ch d fn ln : alloc R B d -> tree ch (-1) (-1) d -> inner ch fn -> fn <> 0 ->
  ch fn 0 <> None -> ch fn ln = None -> 0 < ln < 256 ->
  used d (Z.lxor (ab d fn) ln) ->
  let '(to, fn', d') := resolve fn (ab d fn) ln d in
  exists R' B' ch' s, alloc R' B' d' /\ tree ch' (-1) (-1) d' /\ ren True ln fn' s ch ch' /\
    fn' = s fn /\ s 0 = 0 /\ (forall q q', inner ch q -> inner ch q' -> s q = s q' -> q = q') /\ (forall p q, ch p 0 = Some q -> ab d' (s q) = ab d q) /\
    ch' fn' ln = Some to /\ (forall k, ch' to k = None) /\ ab d' to = -1.
Proof.
  intros A T Ifn Hfn C0 Cn Hln U.
  assert (NN : forall q, inner ch q -> q <> -1) by (intros q I ->; destruct (inner_node _ _ _ _ _ T I) as [|[]]; lia).
  assert (Gfn : 0 <= ab d fn).
  { destruct (ch fn 0) as [t|] eqn:E; [|congruence]. apply (tr_slot _ _ _ _ T fn 0 t); auto. }
  destruct (tr_big _ _ _ _ T fn Ifn Hfn Gfn) as [Bfn _].
  set (to_pn := Z.lxor (ab d fn) ln) in *.
  destruct (tr_all _ _ _ _ T to_pn U) as [l' El]; [destruct U; lia|].
  pose proof (tr_ch _ _ _ _ T _ _ _ El) as (_ & _ & Hl' & _ & _ & Ifp & Hfp0).
  assert (P256 : 256 <= to_pn).
  { destruct (lxor_blk (ab d fn) ln ltac:(lia) ltac:(lia)) as [K1 K2]. apply (div256_lt _ (ab d fn / 256)); auto.
    apply Z.div_le_lower_bound; lia. }
  set (fp := ac d to_pn) in *.
  destruct (tr_slot _ _ _ _ T fp l' to_pn ltac:(auto) El) as [Gp Ep].
  assert (Hfp : fp <> 0). { intros K. rewrite K in Ep. pose proof (tr_root _ _ _ _ T) as [_ K2]. rewrite K2 in Ep. cbn in Ep. lia. }
  destruct (tr_big _ _ _ _ T fp Ifp Hfp Gp) as [Bp Cp].
  assert (Nfp : fn <> fp). { intros K. rewrite <- K in Ep, El. unfold to_pn in Ep. apply lxor_inj in Ep. subst l'. congruence. }
  unfold resolve. cbv zeta. fold to_pn. fold fp. rewrite !(tr_cd _ _ _ _ T).
  set (flag := consult 256 (sb d) (ab d fn) (ab d fp) 0 0). clearbody flag.
  set (ls := if flag then set_child (sb d) (ab d fn) 0 (Some ln) else set_child (sb d) (ab d fp) 0 None).
  set (from := if flag then fn else fp). set (base_ := if flag then ab d fn else ab d fp).
  set (pc := if flag then ln else l').
  assert (Iff : inner ch from) by (unfold from; destruct flag; auto).
  assert (Cf : ch from 0 <> None) by (unfold from; destruct flag; auto).
  assert (Hff : from <> 0) by (unfold from; destruct flag; auto).
  assert (Bb : 256 <= base_) by (unfold base_; destruct flag; auto).
  assert (Eb : base_ = ab d from) by (unfold base_, from; destruct flag; auto).
  destruct (tr_sib _ _ _ _ T from ltac:(auto) Iff ltac:(auto)) as (L & SL & KL).
  assert (HLS : exists ls', ls = 0 :: ls' /\ StronglySorted Z.lt (0 :: ls') /\
     forall l, In l ls' <-> l <> 0 /\ (ch from l <> None \/ flag = true /\ l = ln)).
  { pose proof SL as [S1 S2]. unfold ls. destruct flag; cbn [from] in *.
    - rewrite (set_child_ok ch d fn L) by auto. exists (put_label ln L). split; auto.
      destruct (put_label_sorted ln L 0 S1 ltac:(lia)) as [Q1 Q2]; [rewrite S2; intros [_ K]; apply K; exact Cn|].
      split; auto. intros l. rewrite Q2, S2. unfold from. split; [intros [->|K]; split; auto; try lia; tauto|tauto].
    - rewrite (set_child_ok ch d fp L) by auto. exists L. split; auto. split; auto. intros l. rewrite S2. unfold from. 
      split; [tauto|]. intros [K1 [K2|[K2 _]]]; [auto|discriminate]. }
  destruct HLS as (ls' & Els & Sls & Ils).
  assert (Ils0 : forall l, In l ls <-> ch from l <> None \/ flag = true /\ l = ln).
  { intros l. rewrite Els. cbn [In]. rewrite Ils. destruct (Z.eq_dec l 0) as [->|]; [|intuition congruence].
    split; auto. }
  assert (RL : forall l, In l ls -> 0 <= l < 256).
  { intros l Hl. apply Ils0 in Hl as [Hl|[_ ->]]; [|lia]. destruct (ch from l) as [t|] eqn:E; [|congruence].
    apply (tr_ch _ _ _ _ T) in E. lia. }
  assert (FP : exists R1 B1, let r := match ls with [_] => find_place1 d | _ => find_place ls d end in
    alloc R1 B1 (snd r) /\ grow d (snd r) /\ fits (snd r) ls (fst r)).
  { assert (G : exists R1 B1, let r := find_place ls d in alloc R1 B1 (snd r) /\ grow d (snd r) /\ fits (snd r) ls (fst r)).
    { apply (find_place_ok R B d ls A); auto. rewrite Els. discriminate. }
    rewrite Els in G |- *. destruct ls' as [|y ls'']; [|exact G].
    destruct (find_place1_ok R B d A) as (R1 & B1 & Q1 & Q2 & Q3 & Q4). exists R1, B1. split; auto. split; auto.
    split; auto. split; auto. intros p [<-|[]]. cbn [hd]. rewrite !Z.lxor_0_r. auto. }
  destruct FP as (R1 & B1 & FP). cbv zeta in FP.
  destruct (match ls with [_] => find_place1 d | _ => find_place ls d end) as [e d1] eqn:EF. cbn [fst snd] in FP.
  assert (Ehd : hd 0 ls = 0) by (rewrite Els; auto).
  destruct FP as (A1 & G1 & F1 & F2 & F3). rewrite Ehd, Z.lxor_0_r in F3.
  rewrite Ehd, Z.lxor_0_r.
  replace (0 =? ln) with false by lia. rewrite andb_false_r.
  pose proof (alloc_pos _ _ _ A) as Zp.
  pose proof (tree_grow ch (-1) d d1 T ltac:(lia) G1) as T1.
  pose proof (tree_open ch from d1 e T1 Hff F1 (fun _ => Cf)) as T2.
  fold from base_.
  set (d2 := set_ab (fu (ab d1) from e) d1) in *.
  assert (Ufrom : used d1 from).
  { destruct (inner_node _ _ _ _ _ T1 Iff) as [|]; [congruence|auto]. }
  assert (A2 : alloc R1 B1 d2).
  { apply (alloc_ext R1 B1 d1); auto.
    - intros s [Fs1 Fs2]. split; [|reflexivity]. unfold d2. cbn [ab set_ab]. apply fu_ne. intros ->. destruct Ufrom; lia.
    - intros s [_ Us]. exact Us. }
  assert (Old : forall q, inner ch q -> ab d1 q = ab d q).
  { intros q I. apply (gr_old _ _ G1). destruct (inner_node _ _ _ _ _ T I) as [->|[? _]]; lia. }
  destruct (move_kids_ok flag e base_ from to_pn ln pc (if flag then Z.lxor e ln else to_pn) F1 Bb Hff Hln) with
    (ls := ls) (R := R1) (B := B1) (ch := ch) (fn := fn) (d := d2) as (R' & B' & ch' & s & A' & M & K).
  { intros ->. auto. }
  { intros ->. unfold base_, pc. auto. }
  { exact A2. } { exact T2. } { exact Iff. } { exact Ifn. } { exact Hfn. }
  { unfold d2. cbn [ab set_ab]. apply fu_eq. }
  { rewrite Els. apply sorted_nodup. auto. }
  { intros p Hp. split; [auto|]. split; [exact (F3 p Hp)|].
    intros Hn. assert (N : ch from p <> None).
    { apply Ils0 in Hp as [Hp|[-> ->]]; auto. cbn [andb] in Hn. rewrite Z.eqb_refl in Hn. discriminate. }
    destruct (ch from p) as [t|] eqn:E; [|congruence]. destruct (tr_slot _ _ _ _ T from p t ltac:(auto) E) as [_ ->].
    rewrite Eb. auto. }
  { intros K. unfold from. rewrite K. auto. }
  { intros K. unfold from. rewrite K. split; [auto|]. unfold d2. cbn [ab set_ab]. rewrite fu_ne by (unfold from; rewrite K; auto).
    rewrite Old by auto. auto. }
  { auto. }
  destruct (move_kids flag e base_ from to_pn ln ls fn d2) as [fn' d3]. cbn [fst snd] in A', M, K.
  assert (Kall : forall l t, ch' from l = Some t -> In l ls).
  { intros l t E. apply Ils0. pose proof (mo_ren _ _ _ _ _ _ _ _ _ _ _ _ _ _ M from Iff l) as Rn.
    rewrite (mo_from _ _ _ _ _ _ _ _ _ _ _ _ _ _ M) in Rn. destruct (ch from l); [left; discriminate|].
    destruct Rn as [Rn|(_ & Rn & ->)]; [congruence|]. right. destruct flag; [auto|].
    exfalso. apply (mo_ne _ _ _ _ _ _ _ _ _ _ _ _ _ _ M); auto. }
  assert (Abf : ab d3 from = e).
  { rewrite <- (mo_from _ _ _ _ _ _ _ _ _ _ _ _ _ _ M). destruct Iff as [|(r' & l & _ & E)]; [congruence|].
    rewrite (mo_ab _ _ _ _ _ _ _ _ _ _ _ _ _ _ M _ _ _ E). unfold d2. cbn [ab set_ab]. apply fu_eq. }
  assert (Ipc : In pc ls).
  { apply Ils0. unfold pc, from. destruct flag; [auto|left; congruence]. }
  destruct (mo_new _ _ _ _ _ _ _ _ _ _ _ _ _ _ M Ipc) as (W1 & W2 & W3).
  exists R', B', ch', s. split; [exact A'|]. split.
  { apply (tree_close ch' from); [apply (mo_tree _ _ _ _ _ _ _ _ _ _ _ _ _ _ M)| |].
    - intros l t E. rewrite Abf. split; [lia|]. pose proof (mo_kid _ _ _ _ _ _ _ _ _ _ _ _ _ _ M l (Kall l t E)) as E2. congruence.
    - exists ls'. rewrite Abf. rewrite Els in K. split; [|exact K]. split; [exact Sls|]. intros l. split.
      + intros Hl. split; [apply Ils in Hl; tauto|]. rewrite (mo_kid _ _ _ _ _ _ _ _ _ _ _ _ _ _ M l); [discriminate|rewrite Els; right; auto].
      + intros [L0 Hl]. destruct (ch' from l) as [t|] eqn:E; [|congruence]. apply Kall in E. rewrite Els in E.
        destruct E as [E|E]; [congruence|auto]. }
  split.
  { intros q I l. pose proof (mo_ren _ _ _ _ _ _ _ _ _ _ _ _ _ _ M q I l) as Rn. destruct (ch q l); auto. tauto. }
  split; [apply (mo_fn _ _ _ _ _ _ _ _ _ _ _ _ _ _ M)|]. split; [apply (mo_0 _ _ _ _ _ _ _ _ _ _ _ _ _ _ M)|].
  split; [apply (mo_inj _ _ _ _ _ _ _ _ _ _ _ _ _ _ M)|]. split; [|auto].
  intros p q E. rewrite (mo_ab _ _ _ _ _ _ _ _ _ _ _ _ _ _ M _ _ _ E). unfold d2. cbn [ab set_ab].
  pose proof (tr_ch _ _ _ _ T _ _ _ E) as ([U1 _] & E2 & _).
  rewrite fu_ne; [apply (gr_old _ _ G1); lia|]. intros ->.
  destruct Iff as [|(r' & l & L0 & E3)]; [congruence|]. pose proof (tr_ch _ _ _ _ T _ _ _ E3) as (_ & E4 & _).
  assert (Q : r' = p) by congruence. rewrite Q in E3. apply L0. apply (tr_inj _ _ _ _ T _ _ _ _ E3 E).
Qed.
