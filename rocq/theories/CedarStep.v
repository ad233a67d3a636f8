(** Moving the children of a node (move_kids of Cedar.v), one at a time. *)
From Coq Require Import ZArith List Lia Sorted Permutation.
From Verif Require Import Base Coders LZ Cedar CedarRing CedarAlloc CedarTree CedarMove.
Import ListNotations.
Local Open Scope Z_scope.

Lemma tree_attach ch x h d p l d' : tree ch x h d -> used d h -> inner ch p -> p <> h ->
  ch p l = None -> 0 < l < 256 -> (forall k, ch h k = None) -> ac d h = p -> ab d h = -1 ->
  p <> x -> h = Z.lxor (ab d p) l -> 0 <= ab d p -> (p <> 0 -> 256 <= ab d p /\ ch p 0 <> None) ->
  c_size d' = c_size d -> ab d' = ab d -> ac d' = ac d -> (forall s, cd d' s = 0) ->
  sb d' = (let q := sib_prev 256 (sb d) (ab d p) 0 l in
           fu (fu (sb d) h (sb d (Z.lxor (ab d p) q))) (Z.lxor (ab d p) q) l) ->
  tree (put ch p l h) x (-1) d' /\ forall q k t, q <> p -> ch q k = Some t -> sb d' t = sb d t.
Proof.
  intros T U Hi Hph Hn Hl Hk Hac Hab Hpx Hh Hge Hbig Esz Eab Eac Ecd Esb.
  assert (Co : p = 0 \/ ch p 0 <> None).
  { destruct (Z.eq_dec p 0); [auto|right]. apply Hbig; auto. }
  destruct (tr_sib _ _ _ _ T p Hpx Hi Co) as (L & SL & K). pose proof SL as [S1 S2].
  destruct (slist_len _ _ _ _ _ _ T SL) as [LL LN].
  destruct (sib_prev_links (sb d) (ab d p) l L 0 256%nat K S1 LN LL) as (L1 & L2 & E1 & E2 & E3); [lia| |].
  { intros I. apply S2 in I. tauto. }
  rewrite E3 in Esb. cbv zeta in Esb.
  assert (N2 : NoDup (0 :: L1 ++ l :: L2)) by (apply sorted_nodup; auto).
  assert (HL : In (last (0 :: L1) 0) (0 :: L)).
  { rewrite E1. clear. destruct L1 as [|a L1]; [left; auto|]. right. change (last (0 :: a :: L1) 0) with (last (a :: L1) 0).
    apply in_app_iff. left. revert a. induction L1 as [|b L1 IH]; intros a; [left; auto|right; apply (IH b)]. }
  set (lst := last (0 :: L1) 0) in *.
  assert (Kid : p = 0 /\ lst = 0 \/ ch p lst = Some (Z.lxor (ab d p) lst)).
  { assert (K2 : p = 0 /\ lst = 0 \/ ch p lst <> None).
    { destruct HL as [HL|HL]; [rewrite <- HL; destruct Co; auto|]. apply S2 in HL. tauto. }
    destruct K2 as [K2|K2]; [auto|right]. destruct (ch p lst) as [t|] eqn:E; [|congruence].
    destruct (tr_slot _ _ _ _ T p lst t Hpx E) as [_ <-]. auto. }
  assert (SBO : forall q k t, q <> p -> ch q k = Some t -> sb d' t = sb d t).
  { intros q k t Hq E. rewrite Esb. pose proof (tr_ch _ _ _ _ T _ _ _ E) as (A1 & A2 & _ & _ & A5 & _).
    rewrite fu_ne; [rewrite fu_ne; auto|]. intros ->. destruct Kid as [[E4 E5]|Kid].
    - rewrite E4, E5 in A1. pose proof (tr_root _ _ _ _ T) as [_ R]. rewrite R in A1. cbn in A1. destruct A1; lia.
    - apply (tr_ch _ _ _ _ T) in Kid. apply Hq. destruct Kid as (_ & Kid & _). congruence. }
  split; [|exact SBO].
  apply (tree_put ch x h d); auto; try lia.
  - intros _. split; auto. split; auto. split; [intros P0; destruct (Hbig P0); split; auto|].
    exists (L1 ++ l :: L2). split.
    + split; auto. intros k. rewrite in_app_iff. cbn [In]. destruct (put_cases ch p l h p k) as [(_ & -> & ->)|[NE ->]].
      * split; [intros _; split; [lia|congruence]|intros _; right; left; auto].
      * rewrite <- S2, E1, in_app_iff. assert (l <> k) by lia. tauto.
    + rewrite Esb. rewrite Hh. apply links_insert; auto. rewrite <- E1. auto.
  - intros P0. rewrite Esb. rewrite fu_ne; [rewrite fu_ne; auto; destruct U; lia|].
    destruct Kid as [[]|Kid]; [congruence|]. apply (tr_ch _ _ _ _ T) in Kid. destruct Kid as ([Kid _] & _). lia.
Qed.

Lemma fold_fu b v ks : forall (f : Z -> Z) t,
  ((exists k, In k ks /\ t = Z.lxor b k) -> fold_left (fun f k => fu f (Z.lxor b k) v) ks f t = v) /\
  ((forall k, In k ks -> t <> Z.lxor b k) -> fold_left (fun f k => fu f (Z.lxor b k) v) ks f t = f t).
Proof.
  induction ks as [|a ks IH]; intros f t; cbn [fold_left].
  - split; [intros (k & [] & _)|auto].
  - destruct (IH (fu f (Z.lxor b a) v) t) as [I1 I2]. split.
    + intros (k & [->|Hk] & E); [|apply I1; eauto].
      destruct (in_dec Z.eq_dec t (map (Z.lxor b) ks)) as [J|J].
      * apply in_map_iff in J as (k' & J1 & J2). apply I1. eauto.
      * rewrite I2; [rewrite E; apply fu_eq|]. intros k' Hk' ->. apply J. apply in_map. auto.
    + intros H. rewrite I2; [apply fu_ne, H; left; auto|]. intros k Hk. apply H. right; auto.
Qed.

(** The children of the old cell get the new one as their parent. *)
Definition rechild (to to_ p : Z) (d2 : cedar) : cedar :=
  if (0 <? ab d2 to) && negb (p =? 0) then
    let c := cd d2 to_ in
    let a1 := set_cd (fu (cd d2) to c) d2 in
    let kids := c :: sibs 256 (sb a1) (ab a1 to) (sb a1 (Z.lxor (ab a1 to) c)) in
    set_ac (fold_left (fun f k => fu f (Z.lxor (ab a1 to) k) to) kids (ac a1)) a1
  else d2.
Lemma rechild_ok ch x n d o p nxt : tree ch x n d -> inner ch x -> used d n -> ch x p = Some o -> ac d n = x ->
  exists F G, rechild n o p (set_ab (fu (ab d) n (ab d o)) (set_sb (fu (sb d) n nxt) d)) =
    set_ac F (set_cd G (set_ab (fu (ab d) n (ab d o)) (set_sb (fu (sb d) n nxt) d))) /\ (forall s, G s = 0) /\
    (forall k t, ch o k = Some t -> F t = n) /\ (forall t, (forall k, ch o k <> Some t) -> F t = ac d t).
Proof.
  intros T Ix Un Ho An. set (d2 := set_ab (fu (ab d) n (ab d o)) (set_sb (fu (sb d) n nxt) d)). pose proof (tr_ch _ _ _ _ T _ _ _ Ho) as To.
  assert (xo : o <> x) by tauto. assert (o0 : o <> 0) by (destruct To as ([] & _); lia).
  unfold rechild. assert (Eb : ab d2 n = ab d o) by (unfold d2; cbn [ab set_ab]; apply fu_eq). rewrite Eb.
  destruct ((0 <? ab d o) && negb (p =? 0)) eqn:C.
  - apply andb_prop in C as [C1 C2].
    assert (Io : inner ch o) by (right; exists x, p; split; [lia|auto]).
    destruct (tr_big _ _ _ _ T o Io o0 ltac:(lia)) as [B1 B2].
    destruct (tr_sib _ _ _ _ T o xo Io ltac:(auto)) as (L & SL & K). pose proof SL as [S1 S2].
    destruct (slist_len _ _ _ _ _ _ T SL) as [LL LN].
    assert (KC : forall k, In k (0 :: L) -> ch o k = Some (Z.lxor (ab d o) k)).
    { intros k Hk. assert (ch o k <> None) by (destruct Hk as [<-|Hk]; auto; apply S2 in Hk; tauto).
      destruct (ch o k) as [t|] eqn:E; [|congruence]. destruct (tr_slot _ _ _ _ T o k t xo E) as [_ <-]. auto. }
    assert (E0 : cd d2 o = 0) by apply (tr_cd _ _ _ _ T). rewrite E0.
    assert (KS : sibs 256 (sb d2) (ab d o) (sb d2 (Z.lxor (ab d o) 0)) = L).
    { apply sibs_links; auto. apply (links_ext (sb d)); auto. intros k Hk. unfold d2. cbn [sb set_ab set_sb].
      apply fu_ne. specialize (KC k Hk). apply (tr_ch _ _ _ _ T) in KC. tauto. }
    change (ab (set_cd (fu (cd d2) n 0) d2)) with (ab d2). change (sb (set_cd (fu (cd d2) n 0) d2)) with (sb d2).
    change (ac (set_cd (fu (cd d2) n 0) d2)) with (ac d). rewrite Eb, KS.
    eexists _, _. split; [reflexivity|]. split.
    { intros s. destruct (fu_cases (cd d2) n 0 s) as [[_ ->]|[_ ->]]; auto. apply (tr_cd _ _ _ _ T). }
    split.
    + intros k t E. destruct (tr_slot _ _ _ _ T o k t xo E) as [_ Et].
      apply (fold_fu (ab d o) n (0 :: L) (ac d) t). exists k. split; auto.
      destruct (Z.eq_dec k 0) as [->|]; [left; auto|right]. apply S2. split; [auto|congruence].
    + intros t Hk. apply (fold_fu (ab d o) n (0 :: L) (ac d) t). intros k Ik ->. apply (Hk k). apply KC. auto.
  - exists (ac d), (cd d). split; [unfold d2; destruct d; reflexivity|]. split; [apply (tr_cd _ _ _ _ T)|].
    split; auto. intros k t E. exfalso. destruct (tr_slot _ _ _ _ T o k t xo E) as [G _].
    pose proof (tr_ch _ _ _ _ T _ _ _ E) as (_ & _ & _ & _ & _ & Io & _).
    destruct (tr_big _ _ _ _ T o Io o0 G) as [B1 B2].
    assert (p <> 0) by (apply (inner_o ch x n o p d T Ho Io)). lia.
Qed.

Definition sg (o n q : Z) : Z := if q =? o then n else q.
Lemma sg_o o n : sg o n o = n. Proof. unfold sg. rewrite Z.eqb_refl. auto. Qed.
Lemma sg_ne o n q : q <> o -> sg o n q = q. Proof. intros H. unfold sg. replace (q =? o) with false by lia. auto. Qed.

Lemma sg_inj o n q q' : q <> n -> q' <> n -> sg o n q = sg o n q' -> q = q'.
Proof. unfold sg. destruct (Z.eqb_spec q o), (Z.eqb_spec q' o); congruence. Qed.

(** [ch'] is [ch] with the cells renamed by [s], but for a new child of [fn'] under [ln]. *)
Definition ren (P : Prop) (ln fn' : Z) (s : Z -> Z) (ch ch' : kids) : Prop :=
  forall q, inner ch q -> forall l,
    match ch q l with
    | Some t => ch' (s q) l = Some (s t)
    | None => ch' (s q) l = None \/ (P /\ s q = fn' /\ l = ln)
    end.
Lemma ren_mv ch x n o p d : tree ch x n d -> used d n -> inner ch x -> ch x p = Some o ->
  forall q, inner ch q -> forall l,
    mv ch x p o n (sg o n q) l = option_map (sg o n) (ch q l).
Proof.
  intros T Un Ix Ho q Iq l. pose proof (tr_ch _ _ _ _ T _ _ _ Ho) as To.
  assert (n0 : n <> 0) by (destruct Un; lia).
  destruct (Z.eq_dec q o) as [->|Q].
  - rewrite sg_o, mv_n. destruct (ch o l) as [t|] eqn:E; auto. cbn. rewrite sg_ne; auto.
    apply (tr_ch _ _ _ _ T) in E. tauto.
  - rewrite sg_ne by auto. assert (q <> n) by (apply (inner_hole _ _ _ _ _ T); auto).
    assert (x <> n) by (apply (inner_hole _ _ _ _ _ T); auto).
    assert (D : q = x /\ l = p \/ (q <> x \/ l <> p)) by lia. destruct D as [[-> ->]|D].
    + rewrite mv_xp, Ho by (auto; intros K; symmetry in K; tauto). cbn. rewrite sg_o. auto.
    + rewrite mv_other by auto. destruct (ch q l) as [t|] eqn:E; auto. cbn. rewrite sg_ne; auto.
      intros ->. pose proof (tr_ch _ _ _ _ T _ _ _ E) as Te. assert (q = x) by (destruct Te as (_ & Te & _), To as (_ & To & _); congruence).
      subst q. pose proof (tr_inj _ _ _ _ T _ _ _ _ E Ho). lia.
Qed.
Lemma ren_inner P ln fn' s ch ch' x h d : tree ch x h d -> s 0 = 0 -> ren P ln fn' s ch ch' ->
  forall q, inner ch q -> inner ch' (s q).
Proof.
  intros T S0 H q [->|(r & l & Hl & E)]; [left; auto|right].
  assert (Ir : inner ch r) by (apply (tr_ch _ _ _ _ T) in E; tauto).
  specialize (H r Ir l). rewrite E in H. eauto.
Qed.

(** ** The loop *)
Section Kids.
Variables (flag : bool) (base base_ from to_pn ln pc new : Z).

Definition step (p nxt fn : Z) (d : cedar) : Z * cedar :=
  let '(to, d) := pop_enode base p from d in
  let to_ := Z.lxor base_ p in
  if flag && (to_ =? to_pn) then (fn, set_sb (fu (sb d) to nxt) d)
  else
    let d3 := rechild to to_ p (set_ab (fu (ab d) to (ab d to_)) (set_sb (fu (sb d) to nxt) d)) in
    let fn := if negb flag && (to_ =? fn) then to else fn in
    if negb flag && (to_ =? to_pn) then
      let a1 := push_sibling fn (Z.lxor to_pn ln) ln true d3 in
      let a2 := set_cd (fu (cd a1) to_ 0) a1 in
      let a3 := set_ab (fu (ab a2) to_ (if negb (ln =? 0) then -1 else 0)) a2 in
      (fn, set_ac (fu (ac a3) to_ fn) a3)
    else (fn, push_enode to_ d3).
Lemma move_kids_step p ls fn d : move_kids flag base base_ from to_pn ln (p :: ls) fn d =
  let '(fn, d) := step p (match ls with [] => 0 | q :: _ => q end) fn d in
  move_kids flag base base_ from to_pn ln ls fn d.
Proof.
  cbn [move_kids]. unfold step, rechild. destruct (pop_enode base p from d) as [to d0].
  destruct (flag && (Z.lxor base_ p =? to_pn)); [reflexivity|].
  destruct (negb flag && (Z.lxor base_ p =? to_pn)); reflexivity.
Qed.

Record moved (ls : list Z) (ch : kids) (fn : Z) (d : cedar) (ch' : kids) (fn' : Z) (d' : cedar) (s : Z -> Z) : Prop := {
  mo_tree : tree ch' from (-1) d';
  mo_ren : ren (In pc ls) ln fn' s ch ch';
  mo_fn : fn' = s fn;
  mo_from : s from = from;
  mo_0 : s 0 = 0;
  mo_inj : forall q q', inner ch q -> inner ch q' -> s q = s q' -> q = q';
  mo_size : c_size d' = c_size d;
  mo_kid : forall p, In p ls -> ch' from p = Some (Z.lxor base p);
  mo_ab : forall p l q, ch p l = Some q -> ab d' (s q) = ab d q;
  mo_id : forall q, (forall p, In p ls -> ch from p <> Some q) -> s q = q;
  mo_sb : forall k, ~ In k ls -> ch from k = Some (Z.lxor base k) -> sb d' (Z.lxor base k) = sb d (Z.lxor base k);
  mo_ne : flag = false -> fn' <> from;
  mo_new : In pc ls -> ch' fn' ln = Some new /\ (forall k, ch' new k = None) /\ ab d' new = -1 }.

Hypothesis Hbase : 256 <= base.
Hypothesis Hfrom : from <> 0.
Hypothesis Hln : 0 < ln < 256.
Hypothesis Hf1 : flag = true -> pc = ln /\ to_pn = Z.lxor base_ ln /\ new = Z.lxor base ln.
Hypothesis Hf0 : flag = false -> to_pn = Z.lxor base_ pc /\ new = to_pn.

Lemma moved_app p ls ch fn d ch1 fn1 d1 s1 ch' fn' d' s2 : tree ch from (-1) d -> inner ch from -> inner ch fn ->
  NoDup (p :: ls) ->
  moved [p] ch fn d ch1 fn1 d1 s1 -> moved ls ch1 fn1 d1 ch' fn' d' s2 ->
  moved (p :: ls) ch fn d ch' fn' d' (fun q => s2 (s1 q)).
Proof.
  intros T Ifrom Ifn N M1 M2. apply NoDup_cons_iff in N as [N1 N2].
  pose proof (mo_tree _ _ _ _ _ _ _ _ M1) as T1. pose proof (mo_tree _ _ _ _ _ _ _ _ M2) as T2.
  pose proof (ren_inner _ _ _ _ _ _ _ _ _ T (mo_0 _ _ _ _ _ _ _ _ M1) (mo_ren _ _ _ _ _ _ _ _ M1)) as I1.
  assert (F : forall p', In p' ls -> ch1 from p' <> Some (Z.lxor base p)).
  { intros p' Hp' E. pose proof (mo_kid _ _ _ _ _ _ _ _ M1 p ltac:(left; auto)) as E2.
    pose proof (tr_inj _ _ _ _ T1 _ _ _ _ E E2). subst p'. auto. }
  constructor; auto.
  - intros q Iq l. pose proof (mo_ren _ _ _ _ _ _ _ _ M1 q Iq l) as A.
    pose proof (mo_ren _ _ _ _ _ _ _ _ M2 (s1 q) (I1 q Iq) l) as C.
    destruct (ch q l) as [t|].
    + rewrite A in C. auto.
    + destruct A as [A|(A1 & A2 & A3)].
      * rewrite A in C. destruct C as [C|(C1 & C2 & C3)]; auto. right. split; [right; auto|auto].
      * right. split; [destruct A1 as [->|[]]; left; auto|]. split; auto. rewrite A2. symmetry. apply (mo_fn _ _ _ _ _ _ _ _ M2).
  - rewrite (mo_fn _ _ _ _ _ _ _ _ M2), (mo_fn _ _ _ _ _ _ _ _ M1). auto.
  - rewrite (mo_from _ _ _ _ _ _ _ _ M1). apply (mo_from _ _ _ _ _ _ _ _ M2).
  - rewrite (mo_0 _ _ _ _ _ _ _ _ M1). apply (mo_0 _ _ _ _ _ _ _ _ M2).
  - intros q q' Iq Iq' E. apply (mo_inj _ _ _ _ _ _ _ _ M1); auto. apply (mo_inj _ _ _ _ _ _ _ _ M2); auto.
  - rewrite (mo_size _ _ _ _ _ _ _ _ M2). apply (mo_size _ _ _ _ _ _ _ _ M1).
  - intros p' [<-|Hp']; [|apply (mo_kid _ _ _ _ _ _ _ _ M2); auto].
    pose proof (mo_kid _ _ _ _ _ _ _ _ M1 p ltac:(left; auto)) as E.
    assert (I' : inner ch1 from) by (rewrite <- (mo_from _ _ _ _ _ _ _ _ M1); auto).
    pose proof (mo_ren _ _ _ _ _ _ _ _ M2 from I' p) as R. rewrite E in R.
    rewrite (mo_from _ _ _ _ _ _ _ _ M2) in R. rewrite R. f_equal. apply (mo_id _ _ _ _ _ _ _ _ M2). auto.
  - intros r l q E. pose proof (mo_ren _ _ _ _ _ _ _ _ M1 r ltac:(apply (tr_ch _ _ _ _ T) in E; tauto) l) as R. rewrite E in R.
    rewrite (mo_ab _ _ _ _ _ _ _ _ M2 _ _ _ R). apply (mo_ab _ _ _ _ _ _ _ _ M1 _ _ _ E).
  - intros q H. assert (E : s1 q = q) by (apply (mo_id _ _ _ _ _ _ _ _ M1); intros p' [<-|[]]; apply H; left; auto).
    rewrite E. apply (mo_id _ _ _ _ _ _ _ _ M2). intros p' Hp' E2.
    pose proof (mo_ren _ _ _ _ _ _ _ _ M1 from Ifrom p') as R. rewrite (mo_from _ _ _ _ _ _ _ _ M1) in R.
    destruct (ch from p') as [t|] eqn:Et.
    + rewrite R in E2. apply Some_inj in E2. rewrite (mo_id _ _ _ _ _ _ _ _ M1) in E2.
      * subst t. apply (H p'); [right; auto|auto].
      * intros p'' [<-|[]] E3. apply N1. rewrite (tr_inj _ _ _ _ T _ _ _ _ E3 Et). auto.
    + destruct R as [R|(R1 & R2 & R3)]; [congruence|]. destruct flag eqn:Ef; [|apply (mo_ne _ _ _ _ _ _ _ _ M1); auto].
      destruct (Hf1 eq_refl) as [F1 _]. destruct R1 as [R1|[]]. congruence.
  - intros k Hk E. cbn [In] in Hk.
    pose proof (mo_ren _ _ _ _ _ _ _ _ M1 from Ifrom k) as R. rewrite E, (mo_from _ _ _ _ _ _ _ _ M1) in R.
    rewrite (mo_id _ _ _ _ _ _ _ _ M1) in R.
    + rewrite (mo_sb _ _ _ _ _ _ _ _ M2) by tauto. apply (mo_sb _ _ _ _ _ _ _ _ M1); auto. cbn. tauto.
    + intros p' [<-|[]] E3. apply Hk. left. apply (tr_inj _ _ _ _ T _ _ _ _ E3 E).
  - apply (mo_ne _ _ _ _ _ _ _ _ M2).
  - intros [Ep|Hpc]; [|apply (mo_new _ _ _ _ _ _ _ _ M2); auto].
    destruct (mo_new _ _ _ _ _ _ _ _ M1 (or_introl Ep)) as (A1 & A2 & A3).
    pose proof (I1 fn Ifn) as I1f. rewrite <- (mo_fn _ _ _ _ _ _ _ _ M1) in I1f.
    assert (Sn : s2 new = new).
    { apply (mo_id _ _ _ _ _ _ _ _ M2). intros p' Hp' E.
      assert (from = fn1). { apply (tr_ch _ _ _ _ T1) in E, A1. destruct E as (_ & E & _), A1 as (_ & A1 & _). congruence. }
      subst fn1. pose proof (tr_inj _ _ _ _ T1 _ _ _ _ E A1). subst p'.
      destruct flag eqn:Ef; [|apply (mo_ne _ _ _ _ _ _ _ _ M1); auto].
      destruct (Hf1 eq_refl) as [F1 _]. congruence. }
    split; [|split].
    + pose proof (mo_ren _ _ _ _ _ _ _ _ M2 fn1 I1f ln) as R. rewrite A1 in R.
      rewrite <- (mo_fn _ _ _ _ _ _ _ _ M2), Sn in R. auto.
    + intros k. assert (In1 : inner ch1 new) by (right; exists fn1, ln; split; [lia|auto]).
      pose proof (mo_ren _ _ _ _ _ _ _ _ M2 new In1 k) as R. rewrite A2, Sn in R.
      destruct R as [R|(R1 & _)]; auto. exfalso. apply N1. rewrite Ep. auto.
    + rewrite <- Sn at 1. rewrite (mo_ab _ _ _ _ _ _ _ _ M2 _ _ _ A1). auto.
Qed.

Lemma no_kids ch x h d : tree ch x h d -> h <> 0 -> forall k, ch h k = None.
Proof.
  intros T H k. destruct (ch h k) as [t|] eqn:E; auto. exfalso. apply (tr_ch _ _ _ _ T) in E.
  destruct E as (_ & _ & _ & _ & _ & I & _). apply (inner_hole _ _ _ _ _ T) in I; auto.
Qed.
Lemma core R B ch d p o nxt : alloc R B d -> tree ch from (-1) d -> inner ch from ->
  ch from p = Some o -> forall to d0 d3, to = Z.lxor base p -> free d to -> d0 = take to p from d ->
  d3 = rechild to o p (set_ab (fu (ab d0) to (ab d0 o)) (set_sb (fu (sb d0) to nxt) d0)) ->
  exists R' B', alloc R' B' d3 /\ tree (mv ch from p o to) from o d3 /\ c_size d3 = c_size d /\
    (forall r l q, ch r l = Some q -> ab d3 (sg o to q) = ab d q) /\ sb d3 = fu (sb d) to nxt /\
    (forall s, free d s -> s <> to -> free d3 s) /\ used d3 o /\ used d3 to /\ (forall s, cd d3 s = 0).
Proof.
  intros A T If Ho to d0 d3 Eto Hfree Ed0 Ed3.
  assert (f0 : 0 <= from) by (destruct (inner_node _ _ _ _ _ T If) as [->|[]]; lia).
  destruct (take_ok R B d to p from A Hfree f0) as (R1 & B1 & A0 & E1 & E2 & E3 & E4 & E5 & E6 & E7).
  pose proof (tree_take ch from d R B to p from A T Hfree f0) as T0. rewrite <- Ed0 in A0, E1, E2, E3, E4, E5, E6, E7, T0. clear Ed0 Eto.
  assert (U0 : used d0 to) by (split; [rewrite E1; destruct Hfree; auto|lia]).
  pose proof (tr_ch _ _ _ _ T _ _ _ Ho) as To0. pose proof (tr_ch _ _ _ _ T0 _ _ _ Ho) as To.
  destruct (rechild_ok ch from to d0 o p nxt T0 If U0 Ho E5) as (F & G & EQ & HG & HF1 & HF2).
  rewrite <- Ed3 in EQ. clear Ed3.
  assert (C1 : ab d3 = fu (ab d0) to (ab d0 o)) by (rewrite EQ; reflexivity).
  assert (C2 : sb d3 = fu (sb d0) to nxt) by (rewrite EQ; reflexivity).
  assert (C3 : ac d3 = F) by (rewrite EQ; reflexivity).
  assert (C4 : c_size d3 = c_size d0) by (rewrite EQ; reflexivity).
  assert (C5 : forall s, cd d3 s = 0) by (rewrite EQ; exact HG).
  assert (NKF : forall s, free d0 s -> F s = ac d0 s).
  { intros s [S1 S2]. apply HF2. intros k E. apply (tr_ch _ _ _ _ T0) in E. destruct E as ([_ E] & _). lia. }
  assert (NO : to <> o) by (intros K; symmetry in K; tauto).
  assert (T3 : tree (mv ch from p o to) from o d3).
  { apply (tree_mv ch from to o p d0 d3); auto; intros.
    - rewrite C1. unfold fu. reflexivity.
    - rewrite C2. apply fu_ne; auto.
    - rewrite C3. eapply HF1; eauto.
    - rewrite C3. auto. }
  assert (UF : forall s, used d0 s -> 0 <= F s).
  { intros s U. destruct (in_dec Z.eq_dec (F s) [to]) as [[K|[]]|K]; [rewrite <- K; destruct U0; lia|].
    assert (NK : forall k, ch o k <> Some s). { intros k E. apply K. left. symmetry. eapply HF1; eauto. }
    rewrite (HF2 _ NK). apply U. }
  exists R1, B1. split.
  { apply (alloc_ext R1 B1 d0); [exact A0|rewrite EQ; reflexivity|rewrite EQ; reflexivity|rewrite EQ; reflexivity|rewrite EQ; reflexivity
      |rewrite EQ; reflexivity|intros w; rewrite EQ; destruct w; reflexivity|rewrite EQ; reflexivity| |].
    - intros s Fs. rewrite C1, C3, NKF by auto. split; auto. apply fu_ne. intros ->. destruct Fs, U0; lia.
    - intros s Us. rewrite C3. auto. }
  split; [exact T3|]. split; [rewrite C4; auto|]. split.
  { intros r l q E. pose proof (tr_ch _ _ _ _ T _ _ _ E) as Eq. pose proof (tr_ch _ _ _ _ T0 _ _ _ E) as Eq0. rewrite C1.
    destruct (Z.eq_dec q o) as [->|Q].
    - rewrite sg_o, fu_eq. apply E6. tauto.
    - rewrite sg_ne, fu_ne by tauto. apply E6. tauto. }
  split; [rewrite C2, E2; auto|]. split.
  { intros s Fs Hs. destruct (E7 s Fs Hs) as [S1 S2]. split; [rewrite C4; auto|]. rewrite C3, NKF; [auto|split; auto]. }
  split.
  { split; [rewrite C4; apply To|]. rewrite C3. apply UF. tauto. }
  split; [|exact C5]. split; [rewrite C4; apply U0|]. rewrite C3. apply UF. auto.
Qed.

Lemma step_ok R B ch fn d p nxt : alloc R B d -> tree ch from (-1) d -> inner ch from -> inner ch fn ->
  ab d from = base -> 0 <= p < 256 -> 256 <= base_ -> free d (Z.lxor base p) ->
  (flag && (p =? ln) = false -> ch from p = Some (Z.lxor base_ p)) ->
  (flag = true -> fn = from) -> (flag = false -> fn <> from /\ 256 <= ab d fn /\ to_pn = Z.lxor (ab d fn) ln) ->
  (p = pc -> ch fn ln = None) ->
  let r := step p nxt fn d in
  exists R' B' ch1 s, alloc R' B' (snd r) /\ moved [p] ch fn d ch1 (fst r) (snd r) s /\
    sb (snd r) (Z.lxor base p) = nxt /\ (forall s, free d s -> s <> Z.lxor base p -> free (snd r) s).
Proof.
  intros A T If Ifn Eb Hp Hb_ Hfree Hold Hft Hff Hpc r.
  remember (Z.lxor base p) as to eqn:Eto. remember (Z.lxor base_ p) as o eqn:Eqo.
  assert (f0 : 0 <= from) by (destruct (inner_node _ _ _ _ _ T If) as [->|[]]; lia).
  destruct (take_ok R B d to p from A Hfree f0) as (R1 & B1 & A0 & E1 & E2 & E3 & E4 & E5 & E6 & E7).
  pose proof (tree_take ch from d R B to p from A T Hfree f0) as T0.
  assert (t0 : to <> 0) by (destruct Hfree; lia).
  assert (Hr : r = step p nxt fn d) by reflexivity. clearbody r. unfold step in Hr. rewrite pop_enode_eq in Hr.
  replace (base <? 0) with false in Hr by lia. rewrite <- Eto, <- Eqo in Hr.
  remember (take to p from d) as d0 eqn:Ed0.
  destruct (flag && (o =? to_pn)) eqn:C.
  - (* the new child *)
    apply andb_prop in C as [C1 C2]. destruct (Hf1 C1) as (F1 & F2 & F3). pose proof (Hft C1) as ->.
    assert (p = ln). { apply (lxor_inj base_). apply Z.eqb_eq in C2. congruence. } 
    assert (Hn : ch from p = None) by (rewrite H; apply Hpc; congruence).
    clear Ed0. set (d1 := set_sb (fu (sb d0) to nxt) d0) in *. rewrite Hr. cbn [fst snd].
    assert (U0 : used d0 to) by (split; [rewrite E1; destruct Hfree; auto|lia]).
    pose proof (no_kids _ _ _ _ T0 t0) as NK.
    exists R1, B1, (put ch from p to), (fun q => q).
    split; [apply (alloc_ext R1 B1 d0); [exact A0|reflexivity|reflexivity|reflexivity|reflexivity|reflexivity|intros [| |]; reflexivity|reflexivity|auto|intros s [_ U]; exact U]|].
    split; [|split; [apply fu_eq|]].
    + constructor; auto.
      * apply (tree_put ch from to d0 d1); auto; try reflexivity; try lia.
        -- apply (inner_hole _ _ _ _ _ T0); auto.
        -- intros s. apply (tr_cd _ _ _ _ T0).
        -- intros _. rewrite E4. replace (p =? 0) with false by lia. reflexivity.
        -- intros _ P0 G. destruct (tr_big _ _ _ _ T0 from If P0 G). auto.
        -- intros q k t _ E. unfold d1. cbn [sb set_sb]. apply fu_ne. apply (tr_ch _ _ _ _ T0) in E. tauto.
        -- intros _. unfold d1. cbn [sb set_sb]. apply fu_ne. auto.
      * intros q Iq l. destruct (put_cases ch from p to q l) as [(-> & -> & K)|[_ K]]; rewrite K.
        -- rewrite Hn. right. split; [left; congruence|auto].
        -- destruct (ch q l); auto.
      * intros p' [<-|[]]. rewrite <- Eto. apply put_eq.
      * intros r' l q E. change (ab d1 q) with (ab d0 q). apply E6. left. apply (tr_ch _ _ _ _ T) in E. tauto.
      * intros k Hk _. unfold d1. cbn [sb set_sb]. rewrite E2. apply fu_ne. rewrite Eto. intros K. apply lxor_inj in K. apply Hk. left; auto.
      * congruence.
      * intros _. rewrite F3, <- H, <- Eto. split; [apply put_eq|]. split.
        -- intros k. destruct (put_cases ch from p to to k) as [(K & _)|[_ ->]]; auto.
           exfalso. apply (inner_hole _ _ _ _ _ T0 If); auto.
        -- unfold d1. cbn [ab set_sb]. rewrite E4. replace (p =? 0) with false by lia. reflexivity.
    + intros s Fs Hs. destruct (E7 s Fs Hs). split; auto.
  - assert (Hnl : flag && (p =? ln) = false).
    { destruct flag eqn:Ef; auto. destruct (Hf1 eq_refl) as (F1 & F2 & F3). cbn [andb] in *.
      destruct (Z.eqb_spec p ln) as [->|]; auto. exfalso. apply Z.eqb_neq in C. congruence. }
    specialize (Hold Hnl).
    remember (rechild to o p (set_ab (fu (ab d0) to (ab d0 o)) (set_sb (fu (sb d0) to nxt) d0))) as d3 eqn:Ed3.
    destruct (core R B ch d p o nxt A T If Hold to d0 d3 Eto Hfree Ed0 Ed3) as (R3 & B3 & A3 & T3 & G1 & G2 & G3 & G4 & G5 & G6 & G7).
    clear Ed3 Ed0.
    pose proof (tr_ch _ _ _ _ T _ _ _ Hold) as To. pose proof (tr_ch _ _ _ _ T0 _ _ _ Hold) as To0.
    assert (NO : to <> o) by (intros K; symmetry in K; tauto).
    assert (o0 : o <> 0) by (destruct To as ([] & _); lia).
    assert (fo : from <> o) by (intros K; symmetry in K; tauto).
    assert (ft : from <> to) by (apply (inner_hole _ _ _ _ _ T0); auto).
    assert (fnt : fn <> to) by (apply (inner_hole _ _ _ _ _ T0); auto).
    assert (Ut0 : used d0 to) by (split; [rewrite E1; destruct Hfree; auto|lia]).
    pose proof (ren_mv ch from to o p d0 T0 Ut0 If Hold) as RM.
    set (ch1 := mv ch from p o to) in *.
    assert (K1 : ch1 from p = Some to) by (apply mv_xp; auto).
    assert (Ko : forall k, k <> p -> ch from k = Some (Z.lxor base k) -> ch1 from k = Some (Z.lxor base k)).
    { intros k Hk E. unfold ch1. rewrite mv_other; auto. }
    assert (UN : forall r' l q, ch r' l = Some q -> used d3 (sg o to q) /\ sg o to q <> o).
    { intros r' l q E. assert (Ir : inner ch r') by (apply (tr_ch _ _ _ _ T) in E; tauto).
      pose proof (RM r' Ir l) as K. rewrite E in K. cbn in K. apply (tr_ch _ _ _ _ T3) in K. tauto. }
    assert (SB : forall k, k <> p -> sb d3 (Z.lxor base k) = sb d (Z.lxor base k)).
    { intros k Hk. rewrite G3. apply fu_ne. rewrite Eto. intros K. apply lxor_inj in K. auto. }
    assert (EF : (if negb flag && (o =? fn) then to else fn) = sg o to fn).
    { unfold sg. rewrite (Z.eqb_sym fn o). destruct flag eqn:Ef; cbn [negb andb]; auto.
      rewrite (Hft eq_refl). replace (o =? from) with false by (symmetry; apply Z.eqb_neq; auto). auto. }
    rewrite EF in Hr.
    assert (I1 : inner ch1 (sg o to fn)).
    { destruct (Z.eq_dec fn o) as [->|Q].
      - rewrite sg_o. right. exists from, p. split; auto. apply (inner_o ch from to o p d0 T0 Hold Ifn).
      - rewrite sg_ne by auto. apply (inner_mv ch from to o p d0 T0); auto. }
    assert (Nf : flag = false -> sg o to fn <> from).
    { intros Ef. destruct (Hff Ef) as [H _]. unfold sg. destruct (fn =? o); auto. }
    destruct (negb flag && (o =? to_pn)) eqn:C2.
    + (* the cell in conflict becomes the new child *)
      apply andb_prop in C2 as [C2 C3]. apply negb_true_iff in C2. destruct (Hf0 C2) as [F1 F2].
      destruct (Hff C2) as (F3 & F4 & F5).
      assert (Ep : p = pc). { apply (lxor_inj base_). apply Z.eqb_eq in C3. congruence. }
      assert (Eo : o = to_pn) by (apply Z.eqb_eq; exact C3). specialize (Hpc Ep). specialize (Nf C2).
      set (fn1 := sg o to fn) in *.
      assert (fn0 : fn <> 0) by (intros ->; pose proof (tr_root _ _ _ _ T); lia).
      assert (Eb1 : ab d3 fn1 = ab d fn).
      { destruct Ifn as [|(r' & l & _ & E)]; [congruence|]. apply (G2 _ _ _ E). }
      assert (fn1o : fn1 <> o) by (unfold fn1; destruct (Z.eq_dec fn o) as [->|Q]; [rewrite sg_o; auto|rewrite sg_ne; auto]).
      assert (fn10 : fn1 <> 0). { unfold fn1, sg. destruct (fn =? o); auto. }
      assert (N1 : ch1 fn1 ln = None) by (pose proof (RM fn Ifn ln) as K; rewrite Hpc in K; exact K).
      set (dA := set_ac (fu (ac d3) o fn1) (set_ab (fu (ab d3) o (-1)) d3)).
      assert (fn1p : 0 <= fn1) by (destruct (inner_node _ _ _ _ _ T3 I1) as [->|[]]; lia).
      assert (TA : tree ch1 from o dA).
      { apply (tree_ext ch1 from o o d3); auto.
        - unfold dA. cbn [ab ac set_ac set_ab]. rewrite !fu_ne by auto. apply (tr_root _ _ _ _ T3).
        - intros t U Ht. unfold dA, used. cbn [ab ac sb c_size set_ac set_ab]. rewrite !fu_ne by auto.
          split; [exact U|auto].
        - intros t U Ht. unfold dA, used in U. cbn [ab ac sb c_size set_ac set_ab] in U. rewrite fu_ne in U by auto.
          split; [exact U|auto]. }
      assert (AA : ab dA = fu (ab d3) o (-1)) by reflexivity.
      assert (AC : ac dA = fu (ac d3) o fn1) by reflexivity.
      assert (AS : sb dA = sb d3) by reflexivity.
      assert (AZ : c_size dA = c_size d3) by reflexivity. clearbody dA.
      assert (EbA : ab dA fn1 = ab d fn).
      { rewrite AA, fu_ne by auto. auto. }
      assert (EL : Z.lxor to_pn ln = ab dA fn1) by (rewrite EbA, F5; apply lxor_cancel).
      assert (EO : Z.lxor (ab dA fn1) ln = o) by (rewrite EbA, <- F5; auto).
      assert (Hr2 : r = (fn1, let bb := ab dA fn1 in let q := sib_prev 256 (sb d3) bb 0 ln in
         set_ac (fu (ac d3) o fn1) (set_ab (fu (ab d3) o (-1)) (set_cd (fu (cd d3) o 0)
           (set_sb (fu (fu (sb d3) o (sb d3 (Z.lxor bb q))) (Z.lxor bb q) ln) d3))))).
      { rewrite Hr. unfold push_sibling. rewrite (G7 fn1). replace (0 <? ln) with true by lia.
        replace (ln =? 0) with false by lia. cbn [andb negb].
        rewrite EL. rewrite EO. reflexivity. }
      assert (HrA : ab (snd r) = ab dA /\ ac (snd r) = ac dA /\ c_size (snd r) = c_size dA /\ (forall s, cd (snd r) s = 0)).
      { rewrite AA, AC, AZ, Hr2. split; [reflexivity|]. split; [reflexivity|]. split; [reflexivity|]. intros s. cbn [snd cd set_ac set_ab set_cd]. destruct (fu_cases (cd d3) o 0 s) as [[_ ->]|[_ ->]]; auto. }
      destruct HrA as (H1 & H2 & H3 & H4).
      assert (Uo : used dA o).
      { split; [rewrite AZ; apply G5|]. rewrite AC, fu_eq. auto. }
      assert (Efst : fst r = fn1) by (rewrite Hr2; reflexivity).
      destruct (tree_attach ch1 from o dA fn1 ln (snd r)) as [T4 SBo]; auto.
      { intros k. apply mv_o. auto. }
      { rewrite AC. apply fu_eq. }
      { rewrite AA. apply fu_eq. }
      { rewrite EbA. lia. }
      { intros _. rewrite EbA. split; auto.
        destruct (tr_big _ _ _ _ T3 fn1 I1 fn10) as [_ K]; auto. rewrite Eb1. lia. }
      { rewrite Hr2, AS. reflexivity. }
      exists R3, B3, (put ch1 fn1 ln o), (sg o to). split; [|split; [|split]].
      * apply (alloc_ext R3 B3 d3); [exact A3|rewrite Hr2; reflexivity|rewrite Hr2; reflexivity|rewrite Hr2; reflexivity|rewrite Hr2; reflexivity|rewrite Hr2; reflexivity|intros w; rewrite Hr2; destruct w; reflexivity|rewrite Hr2; reflexivity| |].
        -- intros s Fs. rewrite H1, H2, AA, AC.
           rewrite !fu_ne; auto; intros ->; destruct Fs, G5; lia.
        -- intros s [_ Us]. rewrite H2, AC.
           destruct (fu_cases (ac d3) o fn1 s) as [[_ ->]|[_ ->]]; auto.
      * rewrite Efst. constructor; auto.
        -- intros q Iq l. pose proof (RM q Iq l) as K.
           destruct (put_cases ch1 fn1 ln o (sg o to q) l) as [(Q1 & Q2 & Q3)|[_ Q3]]; rewrite Q3.
           ++ rewrite Q1, Q2, N1 in K. destruct (ch q l) as [t|] eqn:E; [subst l; rewrite E in K; discriminate|]. right.
              split; [left; auto|auto].
           ++ destruct (ch q l); auto.
        -- apply sg_ne; auto.
        -- apply sg_ne; auto.
        -- intros q q' Iq Iq' E. apply (sg_inj o to); auto; apply (inner_hole _ _ _ _ _ T0); auto.
        -- rewrite H3, AZ. exact G1.
        -- intros p' [<-|[]]. rewrite <- Eto. destruct (put_cases ch1 fn1 ln o from p) as [(Q1 & _)|[_ ->]]; [congruence|exact K1].
        -- intros r' l q E. rewrite H1, AA. rewrite fu_ne by (apply (UN _ _ _ E)). apply (G2 _ _ _ E).
        -- intros q H. apply sg_ne. intros ->. apply (H p); [left; auto|auto].
        -- intros k Hk E. assert (k <> p) by (intros ->; apply Hk; left; auto).
           rewrite (SBo from k); auto. rewrite AS. apply SB. auto.
        -- intros _. rewrite F2, <- Eo. split; [apply put_eq|]. split.
           ++ intros k. destruct (put_cases ch1 fn1 ln o o k) as [(Q1 & _)|[_ ->]]; [congruence|]. apply mv_o; auto.
           ++ rewrite H1, AA. apply fu_eq.
      * rewrite (SBo from p); auto. rewrite AS, G3. apply fu_eq.
      * intros s Fs Hs. destruct (G4 s Fs Hs) as [S1 S2]. split; [rewrite H3, AZ; exact S1|].
        rewrite H2, AC. rewrite fu_ne; auto. intros ->. destruct To as ([] & _). destruct Fs; lia.
    + (* the old cell is given back *)
      assert (o256 : 256 <= o).
      { destruct (lxor_blk base_ p ltac:(lia) Hp) as [K1' K2']. rewrite <- Eqo in K1', K2'. apply (div256_lt o (base_ / 256)); auto.
        apply Z.div_le_lower_bound; lia. }
      destruct (push_enode_ok R3 B3 d3 o A3 G5 o256) as (R4 & B4 & A4 & P1 & P2 & P3 & P4 & P5 & P6).
      pose proof (tree_push ch1 from d3 R3 B3 o A3 T3 G5 o256) as T4.
      rewrite Hr. cbn [fst snd]. exists R4, B4, ch1, (sg o to). split; [exact A4|]. split; [|split].
      * constructor; auto.
        -- intros q Iq l. pose proof (RM q Iq l) as K. destruct (ch q l); auto.
        -- apply sg_ne; auto.
        -- apply sg_ne; auto.
        -- intros q q' Iq Iq' E. apply (sg_inj o to); auto; apply (inner_hole _ _ _ _ _ T0); auto.
        -- rewrite P1. exact G1.
        -- intros p' [<-|[]]. rewrite <- Eto. exact K1.
        -- intros r' l q E. destruct (UN _ _ _ E) as [U1 U2]. destruct (P5 (sg o to q) ltac:(auto) U2) as [-> _]. apply (G2 _ _ _ E).
        -- intros q H. apply sg_ne. intros ->. apply (H p); [left; auto|auto].
        -- intros k Hk E. assert (k <> p) by (intros ->; apply Hk; left; auto).
           rewrite P2, fu_ne; [apply SB; auto|]. intros Q. rewrite Q in E.
           pose proof (tr_inj _ _ _ _ T _ _ _ _ E Hold). auto.
        -- intros [Q|[]]. exfalso. destruct flag eqn:Ef.
           ++ destruct (Hf1 eq_refl) as (F1 & _). cbn [andb] in Hnl. lia.
           ++ destruct (Hf0 eq_refl) as (F1 & _). cbn [negb andb] in C2. apply Z.eqb_neq in C2. congruence.
      * rewrite P2, fu_ne by auto. rewrite G3. apply fu_eq.
      * intros s Fs Hs. apply P6. auto.
Qed.
End Kids.
