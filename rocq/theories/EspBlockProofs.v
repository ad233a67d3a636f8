(** ESP: every round is cut into blocks of length 2 or 3 covering the string. *)
From Verif Require Import Base BitIO IntCodes Esp.
Local Open Scope N_scope.

(** ** Labels *)
Fixpoint nadj (l : list N) : Prop :=
  match l with
  | a :: ((b :: _) as r) => a <> b /\ nadj r
  | _ => True
  end.

Lemma pos_ctz_bit p : N.testbit (N.pos p) (pos_ctz p) = true.
Proof.
  induction p as [p IH|p IH|]; cbn [pos_ctz]; try reflexivity.
  change (N.pos p~0) with (2 * N.pos p). replace (1 + pos_ctz p) with (N.succ (pos_ctz p)) by lia.
  rewrite N.testbit_even_succ by lia. exact IH.
Qed.
Lemma bit_lt x w k : x < 2 ^ w -> N.testbit x k = true -> k < w.
Proof.
  intros Hx Hb. destruct (N.lt_ge_cases k w) as [L|L]; [auto|].
  rewrite <- (N.mod_small x (2 ^ w) Hx) in Hb. rewrite N.mod_pow2_bits_high in Hb by auto. discriminate.
Qed.
Lemma lxor_lt a b w : a < 2 ^ w -> b < 2 ^ w -> N.lxor a b mod 2 ^ w = N.lxor a b.
Proof.
  intros Ha Hb. apply N.bits_inj. intros k. destruct (N.lt_ge_cases k w) as [L|L].
  - apply N.mod_pow2_bits_low. auto.
  - rewrite N.mod_pow2_bits_high by auto. rewrite N.lxor_spec.
    rewrite <- (N.mod_small a (2 ^ w) Ha), <- (N.mod_small b (2 ^ w) Hb).
    rewrite !N.mod_pow2_bits_high by auto. reflexivity.
Qed.
Lemma ctz_ok a b w : a < 2 ^ w -> b < 2 ^ w -> w <= 32 -> a <> b ->
  exists k, ctz32 (N.lxor a b) = Some k /\ k < w /\ N.testbit a k <> N.testbit b k.
Proof.
  intros Ha Hb Hw Hab.
  assert (Hm : w32 (N.lxor a b) = N.lxor a b).
  { unfold w32. apply lxor_lt; (eapply N.lt_le_trans; [eassumption|apply N.pow_le_mono_r; lia]). }
  unfold ctz32. rewrite Hm. destruct (N.lxor a b) as [|p] eqn:E.
  - apply N.lxor_eq in E. congruence.
  - exists (pos_ctz p). split; [reflexivity|].
    pose proof (pos_ctz_bit p) as Hp. split.
    + apply (bit_lt (N.pos p)); auto. rewrite <- E. rewrite <- (lxor_lt a b w Ha Hb). apply N.mod_lt. lia.
    + rewrite <- E in Hp. rewrite N.lxor_spec in Hp. destruct (N.testbit a (pos_ctz p)), (N.testbit b (pos_ctz p)); cbn in Hp; congruence.
Qed.
Lemma label_ok a b w : a < 2 ^ w -> b < 2 ^ w -> w <= 32 -> a <> b ->
  exists x, label a b = Some x /\ x < 2 * w.
Proof.
  intros Ha Hb Hw Hab. destruct (ctz_ok a b w Ha Hb Hw Hab) as (k & C & Hk & _).
  unfold label. rewrite C. cbn [obind]. eexists; split; [reflexivity|].
  destruct (N.testbit b k); cbn [N.b2n]; lia.
Qed.
Lemma label_ne a b c w x y : a < 2 ^ w -> b < 2 ^ w -> c < 2 ^ w -> w <= 32 -> a <> b -> b <> c ->
  label a b = Some x -> label b c = Some y -> x <> y.
Proof.
  intros Ha Hb Hc Hw Hab Hbc.
  destruct (ctz_ok a b w Ha Hb Hw Hab) as (k & C & Hk & _).
  destruct (ctz_ok b c w Hb Hc Hw Hbc) as (k' & C' & Hk' & Hd).
  unfold label. rewrite C, C'. cbn [obind]. intros Hx Hy. apply Some_inj in Hx. apply Some_inj in Hy. subst x y.
  intros E. assert (k = k') by (destruct (N.testbit b k), (N.testbit c k'); cbn [N.b2n] in E; lia). subst k'.
  destruct (N.testbit b k), (N.testbit c k); cbn [N.b2n] in E; try congruence; lia.
Qed.

Lemma labels_ok w : w <= 32 -> forall buf, buf <> [] -> nadj buf -> Forall (fun x => x < 2 ^ w) buf ->
  exists r, labels buf = Some r /\ length r = (length buf - 1)%nat /\ nadj r /\ Forall (fun x => x < 2 * w) r /\
    (forall a b l x, buf = a :: b :: l -> label a b = Some x -> hd_error r = Some x).
Proof.
  intros Hw. induction buf as [|a buf IH]; intros Hne Hn HF; [congruence|].
  destruct buf as [|b l]; cbn [labels].
  - exists []. split; [reflexivity|]. split; [reflexivity|]. split; [exact I|]. split; [constructor|]. intros; discriminate.
  - inversion HF as [|? ? Ha HF']; subst. inversion HF' as [|? ? Hb HF'']; subst.
    destruct Hn as [Hab Hn]. destruct (label_ok a b w Ha Hb Hw Hab) as (x & Lx & Hx).
    destruct IH as (r & R & Hl & Hnr & HFr & Hhd); [discriminate|auto|auto|].
    cbn [labels] in R. rewrite Lx. cbn [obind]. rewrite R. cbn [obind].
    exists (x :: r). split; [reflexivity|]. split; [cbn [length] in *; lia|]. split; [|split].
    + destruct r as [|y r']; [exact I|]. split; [|exact Hnr].
      destruct l as [|c l']; [cbn [length] in Hl; lia|].
      inversion HF'' as [|? ? Hc _]; subst. destruct Hn as [Hbc _].
      destruct (label_ok b c w Hb Hc Hw Hbc) as (z & Lz & _).
      pose proof (Hhd b c l' z eq_refl Lz) as E. cbn in E. apply Some_inj in E. subst z.
      exact (label_ne a b c w x y Ha Hb Hc Hw Hab Hbc Lx Lz).
    + constructor; auto.
    + intros a' b' l0 x0 E Ex. inversion E; subst. cbn. congruence.
Qed.

Lemma labels_step w w' buf : w <= 32 -> 2 * w <= w' -> (1 < length buf)%nat -> nadj buf -> Forall (fun x => x < 2 ^ w) buf ->
  exists r, labels buf = Some r /\ length r = (length buf - 1)%nat /\ nadj r /\ Forall (fun x => x < w') r.
Proof.
  intros Hw Hw' Hl Hn HF. destruct (labels_ok w Hw buf) as (r & R & L & Hnr & HFr & _); auto.
  { destruct buf; [cbn in Hl; lia|discriminate]. }
  exists r. split; [auto|]. split; [auto|]. split; [auto|]. eapply Forall_impl; [|exact HFr]. cbn. intros; lia.
Qed.

Lemma reduce6_ok A src : (iter_log A < length src)%nat -> A <= 2 ^ 32 -> nadj src -> Forall (fun x => x < A) src ->
  exists buf, reduce_to_6 (iter_log A) src = Some buf /\ length buf = (length src - iter_log A)%nat /\
    nadj buf /\ Forall (fun x => x < 6) buf.
Proof.
  intros Hp HA Hn HF.
  assert (S1 : forall k w w' (src : list N), w <= 32 -> 2 * w <= 2 ^ w' -> (S k < length src)%nat -> nadj src -> Forall (fun x => x < 2 ^ w) src ->
     (forall s, length s = (length src - 1)%nat -> nadj s -> Forall (fun x => x < 2 ^ w') s -> exists buf, reduce_to_6 k s = Some buf /\ length buf = (length s - k)%nat /\ nadj buf /\ Forall (fun x => x < 6) buf) ->
     exists buf, reduce_to_6 (S k) src = Some buf /\ length buf = (length src - S k)%nat /\ nadj buf /\ Forall (fun x => x < 6) buf).
  { intros k w w' s Hw Hw' Hl Hns HFs Hk. destruct (labels_step w (2 ^ w') s) as (r & R & L & Hnr & HFr); auto; [lia|].
    cbn [reduce_to_6]. rewrite R. cbn [obind]. destruct (Hk r L Hnr HFr) as (buf & B1 & B2 & B3).
    exists buf. split; [auto|]. split; [lia|auto]. }
  assert (S0 : forall (src : list N), (1 < length src)%nat -> nadj src -> Forall (fun x => x < 2 ^ 3) src ->
     exists buf, reduce_to_6 1 src = Some buf /\ length buf = (length src - 1)%nat /\ nadj buf /\ Forall (fun x => x < 6) buf).
  { intros s Hl Hns HFs. destruct (labels_step 3 6 s) as (r & R & L & Hnr & HFr); auto; try lia.
    exists r. cbn [reduce_to_6]. rewrite R. cbn [obind]. auto. }
  unfold iter_log in *.
  destruct (N.ltb_spec A 7) as [H7|H7].
  { exists src. split; [reflexivity|]. split; [lia|]. split; [auto|]. eapply Forall_impl; [|exact HF]. cbn; intros; lia. }
  destruct (N.ltb_spec A 9) as [H9|H9].
  { apply S0; auto. eapply Forall_impl; [|exact HF]. cbn; intros; lia. }
  destruct (N.ltb_spec A 17) as [H17|H17].
  { apply (S1 1%nat 4 3); auto; try (cbn; lia).
    - eapply Forall_impl; [|exact HF]. cbn; intros; lia.
    - intros s Ls Hs Fs. apply S0; auto. lia. }
  destruct (N.ltb_spec A 257) as [H257|H257].
  { apply (S1 2%nat 8 4); auto; try (cbn; lia).
    - eapply Forall_impl; [|exact HF]. cbn; intros; lia.
    - intros s Ls Hs Fs. apply (S1 1%nat 4 3); auto; try (cbn; lia).
      intros s' Ls' Hs' Fs'. apply S0; auto. lia. }
  apply (S1 3%nat 32 6); auto; try (cbn; lia).
  - eapply Forall_impl; [|exact HF]. cbn beta; intros; lia.
  - intros s0 Ls0 Hs0 Fs0. apply (S1 2%nat 6 4); auto; try (cbn; lia).
    intros s Ls Hs Fs. apply (S1 1%nat 4 3); auto; try (cbn; lia).
    intros s' Ls' Hs' Fs'. apply S0; auto. lia.
Qed.

(** ** Reduction to three values *)
Lemma pick_ok p l : let ns := neighbors p l in pick ns < 3 /\ forall n, In n ns -> pick ns <> n.
Proof.
  unfold pick, neighbors. destruct p as [p|]; destruct l as [|q l]; cbn [app fold_left]; unfold bump.
  - split; [|intros n [<-|[]]]; destruct (N.eqb_spec p 0); destruct (N.eqb_spec p (0 + 1)); subst;
      repeat (match goal with |- context[?x =? ?y] => destruct (N.eqb_spec x y) end); lia.
  - split; [|intros n [<-|[<-|[]]]];
      repeat (match goal with |- context[?x =? ?y] => destruct (N.eqb_spec x y) end); lia.
  - cbn. split; [lia|intros n []].
  - split; [|intros n [<-|[]]];
      repeat (match goal with |- context[?x =? ?y] => destruct (N.eqb_spec x y) end); lia.
Qed.

Definition pne (p : option N) (l : list N) : Prop := forall a b, p = Some a -> hd_error l = Some b -> a <> b.
Lemma nadj_cons a l : nadj (a :: l) <-> pne (Some a) l /\ nadj l.
Proof.
  destruct l as [|b l]; unfold pne; cbn; split; intros H.
  - split; [intros; discriminate|exact I].
  - exact I.
  - split; [|tauto]. intros x y Hx Hy. apply Some_inj in Hx. apply Some_inj in Hy. subst. tauto.
  - split; [apply (proj1 H); auto|tauto].
Qed.

Lemma replace_ok v : forall l prev, nadj l -> pne prev l ->
  nadj (replace_pass v prev l) /\ pne prev (replace_pass v prev l) /\
  length (replace_pass v prev l) = length l /\
  Forall (fun x => x < 3 \/ (In x l /\ x <> v)) (replace_pass v prev l).
Proof.
  induction l as [|x l IH]; intros prev Hn Hp.
  - cbn. split; [exact I|]. split; [intros a b _ H; discriminate|]. split; [reflexivity|constructor].
  - apply nadj_cons in Hn. destruct Hn as [Hx Hn]. cbn [replace_pass].
    set (e := if x =? v then pick (neighbors prev l) else x).
    pose proof (pick_ok prev l) as [P1 P2].
    assert (He1 : pne prev [e]).
    { intros a b Ha Hb. apply Some_inj in Hb. subst b prev. unfold e. destruct (x =? v).
      - intros E. apply (P2 a); [left; reflexivity|congruence].
      - apply (Hp a x); reflexivity. }
    assert (He2 : pne (Some e) l).
    { intros a b Ha Hb. apply Some_inj in Ha. subst a. unfold e. destruct (x =? v).
      - apply P2. unfold neighbors. apply in_app_iff. right. destruct l; [discriminate|]. cbn in Hb. apply Some_inj in Hb. left; auto.
      - apply (Hx x b); auto. }
    destruct (IH (Some e) Hn He2) as (I1 & I2 & I3 & I4).
    split; [apply nadj_cons; auto|]. split; [exact He1|]. split; [cbn [length]; lia|].
    constructor.
    + unfold e. destruct (N.eqb_spec x v); [left; exact P1|right; split; [left; auto|auto]].
    + eapply Forall_impl; [|exact I4]. cbn. intros y [Hy|[Hy Hv]]; auto.
Qed.

Lemma reduce3_ok buf : nadj buf -> Forall (fun x => x < 6) buf ->
  nadj (reduce_to_3 buf) /\ length (reduce_to_3 buf) = length buf /\ Forall (fun x => x < 3) (reduce_to_3 buf).
Proof.
  intros Hn HF. unfold reduce_to_3.
  assert (HN : forall l, pne None l) by (intros l a b H; discriminate).
  destruct (replace_ok 3 buf None Hn (HN _)) as (A1 & _ & A3 & A4).
  destruct (replace_ok 4 (replace_pass 3 None buf) None A1 (HN _)) as (B1 & _ & B3 & B4).
  destruct (replace_ok 5 (replace_pass 4 None (replace_pass 3 None buf)) None B1 (HN _)) as (C1 & _ & C3 & C4).
  split; [auto|]. split; [congruence|].
  rewrite Forall_forall in *. intros x Hx. destruct (C4 x Hx) as [|[Hx1 H5]]; [auto|].
  destruct (B4 x Hx1) as [|[Hx2 H4]]; [auto|]. destruct (A4 x Hx2) as [|[Hx3 H3]]; [auto|].
  pose proof (HF x Hx3). lia.
Qed.

(** ** Landmarks, position by position *)
Definition bat (l : list N) (i : nat) : N := nth i l 0.
Lemma neighbors_prop (P : N -> bool) prev rest :
  forallb P (neighbors prev rest) = true <->
  (forall p, prev = Some p -> P p = true) /\ (forall n, hd_error rest = Some n -> P n = true).
Proof.
  unfold neighbors. rewrite forallb_app, Bool.andb_true_iff.
  destruct prev as [p|]; destruct rest as [|n rest]; cbn; rewrite ?Bool.andb_true_r; split; intros [H1 H2];
    split; auto; try (intros; discriminate); intros q Hq; apply Some_inj in Hq; subst; auto.
Qed.
Lemma hd_skipn {A} (l : list A) : forall i, hd_error (skipn i l) = nth_error l i.
Proof. induction l as [|x l IH]; intros [|i]; try reflexivity. cbn. apply IH. Qed.

Lemma high_len l : forall prev, length (high_landmarks prev l) = length l.
Proof. induction l; intros; cbn [high_landmarks length]; auto. Qed.
Lemma low_len l : forall prev plm hs, length hs = length l -> length (low_landmarks prev plm l hs) = length l.
Proof.
  induction l as [|x l IH]; intros prev plm [|h hs] H; cbn [low_landmarks length] in *; try lia.
  rewrite IH by lia. reflexivity.
Qed.

Lemma high_nth l : forall prev i, (i < length l)%nat ->
  nth i (high_landmarks prev l) false =
  forallb (fun e => negb (bat l i <? e)) (neighbors (if (i =? 0)%nat then prev else nth_error l (i - 1)) (skipn (S i) l)).
Proof.
  induction l as [|x l IH]; intros prev i Hi; [cbn in Hi; lia|].
  destruct i as [|i]; [reflexivity|]. cbn [high_landmarks nth]. rewrite IH by (cbn in Hi; lia).
  unfold bat. cbn [nth skipn Nat.eqb]. f_equal. destruct i as [|i]; cbn; [reflexivity|]. rewrite Nat.sub_0_r. reflexivity.
Qed.
Lemma low_nth l : forall prev plm hs i, (i < length l)%nat -> length hs = length l ->
  nth i (low_landmarks prev plm l hs) false =
  (if forallb (fun e => negb (e <? bat l i)) (neighbors (if (i =? 0)%nat then prev else nth_error l (i - 1)) (skipn (S i) l))
      && negb (if (i =? 0)%nat then plm else nth (i - 1) (low_landmarks prev plm l hs) false)
      && negb (nth (S i) hs false)
   then true else nth i hs false).
Proof.
  induction l as [|x l IH]; intros prev plm hs i Hi Hl; [cbn in Hi; lia|].
  destruct hs as [|h hs]; [discriminate|]. cbn [low_landmarks].
  destruct i as [|i].
  - cbn [nth Nat.eqb skipn]. unfold bat. cbn [nth]. destruct hs; reflexivity.
  - cbn [nth]. rewrite IH by (cbn in Hi, Hl; lia). unfold bat. cbn [nth skipn Nat.eqb].
    destruct i as [|i]; cbn [Nat.eqb Nat.sub nth]; [reflexivity|]. rewrite !Nat.sub_0_r. reflexivity.
Qed.

Section LM.
  Variable buf : list N.
  Hypothesis Hn : nadj buf.
  Hypothesis H3 : Forall (fun x => x < 3) buf.
  Let n := length buf.
  Let b := bat buf.
  Let hi (i : nat) := nth i (high_landmarks None buf) false.
  Let lm (i : nat) := nth i (landmarks buf) false.

  Lemma lm_distinct i : (S i < n)%nat -> b i <> b (S i).
  Proof.
    unfold b, bat, n. clear H3. revert i Hn. induction buf as [|x l IH]; intros i Hd Hi; [cbn in Hi; lia|].
    apply nadj_cons in Hd. destruct Hd as [Hx Hd]. destruct i as [|i].
    - destruct l as [|y l']; [cbn in Hi; lia|]. cbn. apply (Hx x y); reflexivity.
    - cbn [nth]. apply (IH i Hd). cbn [length] in Hi. lia.
  Qed.
  Lemma lm_small i : b i < 3.
  Proof.
    unfold b, bat. destruct (Nat.lt_ge_cases i (length buf)) as [L|L].
    - rewrite Forall_forall in H3. apply H3, nth_In. auto.
    - rewrite nth_overflow by auto. lia.
  Qed.
  Lemma nbr_prop (P : N -> bool) i : (i < n)%nat ->
    forallb P (neighbors (if (i =? 0)%nat then None else nth_error buf (i - 1)) (skipn (S i) buf)) = true <->
    ((0 < i)%nat -> P (b (i - 1)) = true) /\ ((S i < n)%nat -> P (b (S i)) = true).
  Proof.
    intros Hi. rewrite neighbors_prop. unfold b, bat. rewrite hd_skipn. unfold n in *.
    split; intros [A B]; split.
    - intros L. replace (i =? 0)%nat with false in A by lia. apply A. apply nth_error_nth'. lia.
    - intros L. apply B. apply nth_error_nth'. auto.
    - intros p Hp. destruct (Nat.eqb_spec i 0) as [E|E]; [discriminate|].
      rewrite <- (nth_error_nth _ _ 0 Hp). apply A. lia.
    - intros q Hq. rewrite <- (nth_error_nth _ _ 0 Hq). apply B. apply nth_error_Some. congruence.
  Qed.
  Lemma hi_spec i : (i < n)%nat -> hi i = true <->
    ((0 < i)%nat -> b (i - 1) <= b i) /\ ((S i < n)%nat -> b (S i) <= b i).
  Proof.
    intros Hi. unfold hi. rewrite high_nth by auto. rewrite nbr_prop by auto.
    fold (b i). split; intros [A B]; split; intros L; [apply A in L|apply B in L|apply A in L|apply B in L]; lia.
  Qed.
  Lemma lm_spec i : (i < n)%nat -> lm i = true <->
    hi i = true \/
    (((0 < i)%nat -> b i <= b (i - 1)) /\ ((S i < n)%nat -> b i <= b (S i)) /\
     ((0 < i)%nat -> lm (i - 1) = false) /\ hi (S i) = false).
  Proof.
    intros Hi. unfold lm at 1, landmarks. rewrite low_nth by (auto; apply high_len).
    fold (landmarks buf). fold (hi i). fold (hi (S i)). fold (lm (i - 1)).
    set (X := forallb _ _).
    assert (HX : X = true <-> ((0 < i)%nat -> b i <= b (i - 1)) /\ ((S i < n)%nat -> b i <= b (S i))).
    { unfold X. rewrite nbr_prop by auto. fold (b i). split; intros [A B]; split; intros L; [apply A in L|apply B in L|apply A in L|apply B in L]; lia. }
    assert (HP : (if (i =? 0)%nat then false else lm (i - 1)) = false <-> ((0 < i)%nat -> lm (i - 1) = false)).
    { destruct (Nat.eqb_spec i 0) as [E|E]; split; intros; auto; [lia|]. apply H. lia. }
    destruct X; destruct (if (i =? 0)%nat then false else lm (i - 1)); destruct (hi (S i)); cbn [andb negb];
      split; intros H; try tauto;
      try (destruct H as [H|(Q1 & Q2 & Q3 & Q4)]; [exact H|]; try discriminate;
           try (pose proof (proj2 HP Q3); discriminate); pose proof (proj2 HX (conj Q1 Q2)); discriminate).
  Qed.
  Lemma lm_len : length (landmarks buf) = n.
  Proof. unfold landmarks. apply low_len, high_len. Qed.
  Lemma lm_out i : (n <= i)%nat -> lm i = false.
  Proof. intros H. unfold lm. apply nth_overflow. rewrite lm_len. auto. Qed.
  Lemma hi_lm i : hi i = true -> lm i = true.
  Proof.
    intros H. destruct (Nat.lt_ge_cases i n) as [L|L]; [apply lm_spec; auto|].
    unfold hi in H. rewrite nth_overflow in H by (rewrite high_len; auto). discriminate.
  Qed.

  (** no two landmarks are adjacent *)
  Lemma lm_noadj i : lm i = true -> lm (S i) = true -> False.
  Proof.
    intros A B.
    assert (Li : (S i < n)%nat).
    { destruct (Nat.lt_ge_cases (S i) n); auto. rewrite lm_out in B by auto. discriminate. }
    pose proof (lm_distinct i Li) as D.
    apply lm_spec in B; [|auto]. destruct B as [B|(_ & _ & B & _)].
    - pose proof B as Bh. apply hi_spec in B; [|auto]. destruct B as [B _]. specialize (B ltac:(lia)). replace (S i - 1)%nat with i in B by lia.
      apply lm_spec in A; [|lia]. destruct A as [A|(_ & _ & _ & A)]; [|congruence].
      apply hi_spec in A; [|lia]. destruct A as [_ A]. specialize (A Li). lia.
    - specialize (B ltac:(lia)). replace (S i - 1)%nat with i in B by lia. congruence.
  Qed.
  (** of three consecutive positions one is a landmark *)
  Lemma lm_three i : (S (S i) < n)%nat -> lm i = false -> lm (S i) = false -> lm (S (S i)) = false -> False.
  Proof.
    intros L A B C.
    pose proof (lm_distinct i ltac:(lia)) as D1. pose proof (lm_distinct (S i) ltac:(lia)) as D2.
    assert (hi i = false) by (destruct (hi i) eqn:E; auto; apply hi_lm in E; congruence).
    assert (hi (S i) = false) by (destruct (hi (S i)) eqn:E; auto; apply hi_lm in E; congruence).
    assert (hi (S (S i)) = false) by (destruct (hi (S (S i))) eqn:E; auto; apply hi_lm in E; congruence).
    destruct (N.lt_ge_cases (b i) (b (S i))) as [X|X]; destruct (N.lt_ge_cases (b (S i)) (b (S (S i)))) as [Y|Y].
    - (* increasing: the third is a maximum *)
      assert (hi (S (S i)) = true); [|congruence]. apply hi_spec; [auto|].
      pose proof (lm_small (S (S i))). replace (S (S i) - 1)%nat with (S i) by lia.
      split; [lia|]. intros _. pose proof (lm_small (S (S (S i)))). lia.
    - assert (hi (S i) = true); [|congruence]. apply hi_spec; [lia|]. replace (S i - 1)%nat with i by lia. split; lia.
    - assert (lm (S i) = true); [|congruence]. apply lm_spec; [lia|]. right.
      replace (S i - 1)%nat with i by lia. split; [lia|]. split; [lia|]. split; auto.
    - assert (hi i = true); [|congruence]. apply hi_spec; [lia|]. pose proof (lm_small i).
      split; [|lia]. intros _. pose proof (lm_small (i - 1)%nat). lia.
  Qed.
  Lemma lm_first : (2 <= n)%nat -> lm 0 = false -> lm 1 = false -> False.
  Proof.
    intros L A B. pose proof (lm_distinct 0 ltac:(lia)) as D.
    destruct (N.lt_ge_cases (b 0%nat) (b 1%nat)) as [X|X].
    - assert (lm 0 = true); [|congruence]. apply lm_spec; [lia|]. right. split; [lia|]. split; [lia|]. split; [lia|].
      destruct (hi 1) eqn:E; auto. apply hi_lm in E. congruence.
    - assert (hi 0 = true) as E. { apply hi_spec; [lia|]. split; lia. } apply hi_lm in E. congruence.
  Qed.
  Lemma lm_last i : (S (S i) = n)%nat -> lm i = false -> lm (S i) = false -> False.
  Proof.
    intros L A B. pose proof (lm_distinct i ltac:(lia)) as D.
    destruct (N.lt_ge_cases (b (S i)) (b i)) as [X|X].
    - assert (lm (S i) = true); [|congruence]. apply lm_spec; [lia|]. right. replace (S i - 1)%nat with i by lia.
      split; [lia|]. split; [lia|]. split; [auto|].
      destruct (hi (S (S i))) eqn:E; auto. apply hi_lm in E. rewrite lm_out in E by lia. discriminate.
    - assert (hi (S i) = true) as E. { apply hi_spec; [lia|]. replace (S i - 1)%nat with i by lia. split; lia. }
      apply hi_lm in E. congruence.
  Qed.
  Lemma lm_single : n = 1%nat -> lm 0 = true.
  Proof. intros L. apply hi_lm, hi_spec; [lia|]. split; lia. Qed.
End LM.

(** ** From positions to the spanner *)
(** [k] positions without a landmark since the last one *)
Fixpoint good (k : nat) (l : list bool) : Prop :=
  match l with
  | [] => (k <= 1)%nat
  | true :: l => (1 <= k <= 2)%nat /\ good 0 l
  | false :: l => (k < 2)%nat /\ good (S k) l
  end.
Definition spaced (l : list bool) : Prop :=
  (forall i, nth i l false = true -> nth (S i) l false = true -> False) /\
  (forall i, (S (S i) < length l)%nat -> nth i l false = false -> nth (S i) l false = false -> nth (S (S i)) l false = false -> False) /\
  (forall i, S (S i) = length l -> nth i l false = false -> nth (S i) l false = false -> False).
Lemma spaced_tl x l : spaced (x :: l) -> spaced l.
Proof.
  intros (A & B & C). split; [|split].
  - intros i. exact (A (S i)).
  - intros i Hi. apply (B (S i)). cbn [length]. lia.
  - intros i Hi. apply (C (S i)). cbn [length]. lia.
Qed.
Lemma spaced_good : forall l k, (k <= 2)%nat -> spaced (true :: repeat false k ++ l) -> good k l.
Proof.
  induction l as [|x l IH]; intros k Hk (A & B & C); cbn [good].
  - destruct k as [|[|[|k]]]; try lia. exfalso. apply (C 1%nat); reflexivity.
  - destruct x.
    + split.
      * destruct k as [|k]; [|lia]. exfalso. apply (A 0%nat); reflexivity.
      * apply (IH 0%nat); [lia|]. cbn [repeat app].
        assert (S0 : spaced (true :: repeat false k ++ true :: l)) by (split; [|split]; auto).
        clear -S0. change (true :: repeat false k ++ true :: l) with ((true :: repeat false k) ++ true :: l) in S0.
        revert S0. generalize (true :: repeat false k). intros p. induction p as [|y p IHp]; cbn [app]; intros H; [auto|].
        apply IHp. eapply spaced_tl; eauto.
    + assert (k < 2)%nat.
      { destruct k as [|[|[|k]]]; try lia. exfalso. apply (B 1%nat); try reflexivity. cbn. lia. }
      split; [auto|]. apply IH; [lia|].
      replace (repeat false (S k) ++ l) with (repeat false k ++ false :: l); [split; [|split]; auto|].
      replace (S k) with (k + 1)%nat by lia. rewrite repeat_app, <- app_assoc. reflexivity.
Qed.

Definition sum (l : list nat) : nat := list_sum l.
Lemma span_ok size : forall lms i k l m, (i + length lms = size)%nat -> good k lms -> (i = m + 1 + k)%nat ->
  (m - 1 <= l <= m)%nat ->
  sum (span size i (Some (l, if (m =? size - 1)%nat then m else m + 1)%nat) lms) = (size - l)%nat /\
  Forall (fun x => 1 <= x <= 3)%nat (span size i (Some (l, if (m =? size - 1)%nat then m else m + 1)%nat) lms).
Proof.
  induction lms as [|x lms IH]; intros i k l m Hs Hg Hi Hl; cbn [span].
  - cbn [good length] in *. cbn [sum list_sum fold_right].
    destruct (Nat.eqb_spec m (size - 1)) as [E|E]; (split; [unfold sum, list_sum; cbn; lia|constructor; [lia|constructor]]).
  - cbn [length] in Hs. destruct x; cbn [good] in Hg; destruct Hg as [Hk Hg].
    + replace (i =? 0)%nat with false by lia. replace (m =? size - 1)%nat with false by lia.
      assert (Hr : (if (i - 1 =? m + 1)%nat then m + 1 - 1 else m + 1)%nat = (i - 2)%nat).
      { destruct (Nat.eqb_spec (i - 1) (m + 1)); lia. }
      rewrite Hr. destruct (IH (S i) 0%nat (i - 1)%nat i) as [I1 I2]; auto; try lia.
      split.
      * unfold sum in *. cbn [list_sum fold_right]. unfold list_sum in I1. rewrite I1. lia.
      * constructor; [lia|exact I2].
    + apply (IH (S i) (S k)); auto; lia.
Qed.

Lemma span_start size lms : size = length lms -> spaced lms -> lms <> [] ->
  ((2 <= length lms)%nat -> nth 0 lms false = false -> nth 1 lms false = false -> False) ->
  (length lms = 1%nat -> nth 0 lms false = true) ->
  sum (span size 0 None lms) = size /\ Forall (fun x => 1 <= x <= 3)%nat (span size 0 None lms).
Proof.
  intros Hs Hsp Hne H2 H1. destruct lms as [|[|] lms]; [congruence| |].
  - cbn [span Nat.eqb]. destruct (span_ok size lms 1 0 0 0) as [A B]; auto; try (cbn [length] in Hs; lia).
    { apply (spaced_good lms 0); [lia|exact Hsp]. }
    rewrite Nat.sub_0_r in A. split; [exact A|exact B].
  - destruct lms as [|[|] lms].
    + exfalso. specialize (H1 eq_refl). discriminate.
    + cbn [span Nat.eqb]. destruct (span_ok size lms 2 0 0 1) as [A B]; auto; try (cbn [length] in Hs; lia).
      { apply (spaced_good lms 0); [lia|]. eapply spaced_tl; exact Hsp. }
      rewrite Nat.sub_0_r in A. split; [exact A|exact B].
    + exfalso. apply H2; auto. cbn; lia.
Qed.

(** ** Blocks of a round before adjustment *)
Definition lens (bs : list block) : nat := list_sum (map fst bs).
Definition blk (b : block) : Prop := (1 <= fst b <= 3 /\ 1 <= snd b <= 3)%nat.
(** no type-2 block is followed by a type-3 block *)
Fixpoint ok23 (bs : list block) : Prop :=
  match bs with
  | a :: ((b :: _) as r) => ~ (snd a = 2%nat /\ snd b = 3%nat) /\ ok23 r
  | _ => True
  end.
Lemma lens_app a b : lens (a ++ b) = (lens a + lens b)%nat.
Proof. unfold lens. rewrite map_app, list_sum_app. reflexivity. Qed.
Lemma lens_cons a b : lens (a :: b) = (fst a + lens b)%nat.
Proof. reflexivity. Qed.

Lemma mb13_ok t : (1 <= t <= 3)%nat -> forall n, lens (mb13 t n) = n /\ Forall blk (mb13 t n) /\ Forall (fun b => snd b = t) (mb13 t n).
Proof.
  intros Ht n. induction n as [n IH] using lt_wf_ind.
  assert (K : forall l, In l [1%nat; 2%nat; 3%nat] -> blk (l, t)).
  { intros l Hl. unfold blk. cbn in *. lia. }
  destruct n as [|[|[|[|[|n]]]]]; cbn [mb13].
  1-5: (split; [reflexivity|split; repeat (constructor; [solve [reflexivity | apply K; cbn; auto]|]); constructor]).
  - destruct (IH (S (S n)) ltac:(lia)) as (I1 & I2 & I3).
    change (match n with 0 => [(2, t)] | 1 => [(3, t)] | 2 => [(2, t); (2, t)] | S (S (S n' as m') as m) => _ end)%nat with (mb13 t (S (S n))).
    split; [rewrite lens_cons, I1; reflexivity|]. split; constructor; auto.
    apply K. cbn. auto.
Qed.

Lemma lens_typed t l : lens (map (fun x => (x, t)) l) = sum l.
Proof. unfold lens. rewrite map_map. cbn [fst]. rewrite map_id. reflexivity. Qed.

Lemma mb2_ok A src : src <> [] -> A <= 2 ^ 32 -> nadj src -> Forall (fun x => x < A) src ->
  exists bs3 bs2, mb2 A src = Some (bs3 ++ bs2) /\ lens (bs3 ++ bs2) = length src /\
    Forall blk bs3 /\ Forall blk bs2 /\ Forall (fun b => snd b = 3%nat) bs3 /\ Forall (fun b => snd b = 2%nat) bs2.
Proof.
  intros Hne HA Hn HF. unfold mb2. set (p := Nat.min (iter_log A) (length src)).
  destruct (mb13_ok 3 ltac:(lia) p) as (M1 & M2 & M3).
  destruct (Nat.eqb_spec p (length src)) as [E|E].
  - exists (mb13 3 p), []. rewrite app_nil_r. split; [reflexivity|]. split; [rewrite M1; auto|]. repeat split; auto.
  - assert (p = iter_log A /\ iter_log A < length src)%nat as [-> Hl].
    { unfold p in *. destruct (Nat.min_spec (iter_log A) (length src)) as [[X Y]|[X Y]]; rewrite Y in *; [auto|congruence]. }
    destruct (reduce6_ok A src Hl HA Hn HF) as (buf & R & Lb & Nb & Fb). rewrite R. cbn [obind].
    destruct (reduce3_ok buf Nb Fb) as (N3 & L3 & F3). set (b3 := reduce_to_3 buf) in *.
    assert (Hlen : length (landmarks b3) = length b3) by (apply lm_len).
    destruct (span_start (length (landmarks b3)) (landmarks b3)) as [S1 S2]; auto.
    + split; [|split].
      * intros i. apply lm_noadj; auto.
      * intros i Hi. rewrite Hlen in Hi. apply lm_three; auto.
      * intros i Hi. rewrite Hlen in Hi. apply lm_last; auto.
    + intros E0. apply (f_equal (@length bool)) in E0. rewrite Hlen in E0. cbn [length] in E0. lia.
    + rewrite Hlen. intros L. apply lm_first; auto.
    + rewrite Hlen. intros L. apply lm_single; auto.
    + eexists _, _. split; [reflexivity|]. split; [|split; [|split; [|split]]]; auto.
      * rewrite lens_app, M1, lens_typed, S1, Hlen, L3, Lb. lia.
      * apply Forall_map. eapply Forall_impl; [|exact S2]. unfold blk. cbn. intros; lia.
      * apply Forall_map. apply Forall_forall. reflexivity.
Qed.

Lemma sw_le mx f l : (split_where mx f l <= length l)%nat.
Proof.
  induction l as [|a l IH]; [cbn; lia|]. destruct l as [|b l]; [cbn; lia|].
  cbn [split_where] in *. destruct (f a b); [cbn [length] in *; lia|]. destruct mx; cbn [length]; lia.
Qed.
(** the non-repeating prefix has no equal neighbours *)
Lemma sw_nadj l : nadj (firstn (split_where false (fun a b => negb (a =? b)) l) l).
Proof.
  induction l as [|a l IH]; [exact I|]. destruct l as [|b l]; [exact I|].
  cbn [split_where] in *. destruct (N.eqb_spec a b) as [E|E]; cbn [negb]; [exact I|].
  set (j := match l with [] => 1%nat | b0 :: _ => _ end) in *.
  cbn [firstn] in *. destruct j as [|j]; [exact I|]. cbn [firstn]. split; auto.
Qed.
(** either the string is used up or an equal pair follows *)
Lemma sw_rest l : let r := skipn (split_where false (fun a b => negb (a =? b)) l) l in
  r = [] \/ (1 <= split_where true N.eqb r)%nat.
Proof.
  cbv zeta. generalize (skipn (split_where false (fun a b : N => negb (a =? b)) l) l). intros r.
  destruct r as [|a [|b r]]; cbn [split_where]; [left; auto|right; lia|right].
  destruct (a =? b); lia.
Qed.

Lemma ok23_app_nil a b : ok23 a -> ok23 b -> (forall x y, last a (0, 0)%nat = x -> hd_error b = Some y -> a <> [] -> ~ (snd x = 2%nat /\ snd y = 3%nat)) -> ok23 (a ++ b).
Proof.
  induction a as [|x a IH]; intros Ha Hb Hj; [exact Hb|].
  destruct a as [|y a].
  - cbn [app]. destruct b as [|z b]; [exact I|]. split; [|exact Hb]. apply Hj; auto. discriminate.
  - cbn [app ok23] in *. destruct Ha as [Hxy Ha]. split; [auto|]. apply IH; auto.
    intros u v Hu Hv _. apply Hj; auto. discriminate.
Qed.
Lemma ok23_same t bs : Forall (fun b => snd b = t) bs -> ok23 bs.
Proof.
  induction 1 as [|a bs Ha HF IH]; [exact I|]. destruct bs as [|b bs]; [exact I|].
  split; [|exact IH]. inversion HF; subst. lia.
Qed.
Lemma last_snd t bs : Forall (fun b : block => snd b = t) bs -> bs <> [] -> snd (last bs (0, 0)%nat) = t.
Proof.
  induction 1 as [|a bs Ha HF IH]; intros Hne; [congruence|]. destruct bs as [|b bs]; [auto|].
  cbn [last]. apply IH. discriminate.
Qed.
Lemma hd_snd t bs y : Forall (fun b : block => snd b = t) bs -> hd_error bs = Some y -> snd y = t.
Proof. destruct 1; cbn; [discriminate|]. intros E. apply Some_inj in E. subst; auto. Qed.

Lemma split_ok A : A <= 2 ^ 32 -> forall fuel src, (length src <= fuel)%nat -> Forall (fun x => x < A) src ->
  exists bs, split fuel A src = Some bs /\ lens bs = length src /\ Forall blk bs /\ ok23 bs.
Proof.
  intros HA. induction fuel as [|fuel IH]; intros src Hf HF.
  - destruct src; [|cbn in Hf; lia]. exists []. cbn. repeat split; auto.
  - destruct src as [|x0 src0]; [exists []; cbn; repeat split; auto|].
    cbn [split]. set (src := x0 :: src0) in *.
    set (j := split_where false (fun a b => negb (a =? b)) src).
    set (src1 := skipn j src). set (k := split_where true N.eqb src1).
    pose proof (sw_le false (fun a b => negb (a =? b)) src) as Lj. fold j in Lj.
    pose proof (sw_le true N.eqb src1) as Lk. fold k in Lk.
    assert (L1 : length src1 = (length src - j)%nat) by (unfold src1; apply skipn_length).
    destruct (mb13_ok 1 ltac:(lia) (length (firstn k src1))) as (M1 & M2 & M3).
    set (b1 := if (k =? 0)%nat then [] else mb13 1 (length (firstn k src1))).
    assert (Hb1 : lens b1 = k /\ Forall blk b1 /\ Forall (fun b => snd b = 1%nat) b1).
    { unfold b1. destruct (Nat.eqb_spec k 0) as [E|E]; [rewrite E; repeat split; constructor|].
      rewrite firstn_length in M1 at 2. split; [rewrite M1; lia|auto]. }
    assert (Hjk : src1 = [] \/ (1 <= k)%nat) by apply sw_rest.
    assert (HFs : Forall (fun x => x < A) src1) by (apply Forall_forall; intros y Hy; rewrite Forall_forall in HF; apply HF; rewrite <- (firstn_skipn j src); apply in_app_iff; auto).
    destruct (IH (skipn k src1)) as (r & R & Rl & Rb & R23).
    { rewrite skipn_length, L1. destruct Hjk as [E|E]; [|lia].
      rewrite E in L1. cbn [length] in L1. assert (length src <= S fuel)%nat by exact Hf. cbn [length] in *. unfold src in *. cbn [length] in *. lia. }
    { apply Forall_forall. intros y Hy. rewrite Forall_forall in HFs. apply HFs. rewrite <- (firstn_skipn k src1). apply in_app_iff; auto. }
    assert (H2 : exists b3 b2, (if (j =? 0)%nat then Some [] else mb2 A (firstn j src)) = Some (b3 ++ b2) /\
       lens (b3 ++ b2) = j /\ Forall blk b3 /\ Forall blk b2 /\ Forall (fun b => snd b = 3%nat) b3 /\ Forall (fun b => snd b = 2%nat) b2).
    { destruct (Nat.eqb_spec j 0) as [E|E].
      - exists [], []. rewrite E. repeat split; constructor.
      - destruct (mb2_ok A (firstn j src)) as (b3 & b2 & E1 & E2 & E3); auto.
        + intros E0. apply (f_equal (@length N)) in E0. rewrite firstn_length in E0. cbn [length] in E0. unfold src in *; cbn [length] in *. lia.
        + apply sw_nadj.
        + apply Forall_forall. intros y Hy. rewrite Forall_forall in HF. apply HF. rewrite <- (firstn_skipn j src). apply in_app_iff; auto.
        + exists b3, b2. split; [auto|]. split; [|auto]. rewrite E2, firstn_length. lia. }
    destruct H2 as (b3 & b2 & E1 & E2 & K3 & K2 & T3 & T2). rewrite E1. cbn [obind]. fold b1. rewrite R. cbn [obind].
    destruct Hb1 as (B1 & B2 & B3).
    eexists. split; [reflexivity|]. split; [|split].
    + rewrite lens_app, E2, lens_app, B1, Rl, skipn_length, L1. lia.
    + apply Forall_app; split; [apply Forall_app; auto|]. apply Forall_app; auto.
    + apply ok23_app_nil.
      * apply ok23_app_nil; [eapply ok23_same; eauto|eapply ok23_same; eauto|].
        intros x y Hx Hy Hne. rewrite <- Hx, (last_snd 3 b3 T3 Hne). lia.
      * apply ok23_app_nil; [eapply ok23_same; eauto|exact R23|].
        intros x y Hx Hy Hne. rewrite <- Hx, (last_snd 1 b1 B3 Hne). lia.
      * intros x y Hx Hy Hne.
        assert (Hb : b1 = [] -> r = []).
        { intros E. rewrite E in B1. change (lens []) with 0%nat in B1. destruct Hjk as [E0|E0]; [|lia].
          assert (skipn k src1 = []) as E4 by (rewrite E0; apply skipn_nil). rewrite E4 in R. destruct fuel; cbn in R; congruence. }
        destruct b1 as [|z b1'] eqn:Eb.
        { rewrite (Hb eq_refl) in Hy. discriminate. }
        cbn [app hd_error] in Hy. apply Some_inj in Hy. subst y.
        inversion B3; subst. lia.
Qed.
