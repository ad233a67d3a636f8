(** Proofs about the tree based strategies of LFS. *)
From Coq Require Import Permutation Sorted.
From Verif Require Import Base Strategies HuffmanProofs Lfs LfsSpec LfsEsaProofs LfsTree LfsTreeSpec.
Local Open Scope nat_scope.

(** ** sorted lists *)
Lemma tins_sorted x l : StronglySorted le l -> StronglySorted le (ins x l).
Proof.
  induction 1 as [|y l Hl IH Hy]; cbn [ins]; [repeat constructor|]. rewrite Forall_forall in Hy.
  destruct (Nat.leb_spec x y).
  - constructor; [constructor; auto; apply Forall_forall; auto|]. constructor; auto. apply Forall_forall. intros z Hz. specialize (Hy z Hz). lia.
  - constructor; auto. apply Forall_forall. intros z Hz. apply (Permutation_in _ (Permutation_sym (ins_perm x l))) in Hz.
    destruct Hz as [<-|Hz]; [lia|auto].
Qed.
Lemma tisort_sorted l : StronglySorted le (isort l).
Proof. induction l; cbn [isort]; [constructor|]. apply tins_sorted; auto. Qed.
Lemma in_isort x l : In x (isort l) <-> In x l.
Proof. split; apply Permutation_in; [apply Permutation_sym|]; apply isort_perm. Qed.
Lemma sortedb_true l : StronglySorted le l -> sortedb l = true.
Proof.
  induction 1 as [|x l Hl IH Hx]; auto. destruct l as [|y l]; auto. cbn [sortedb].
  inversion Hx; subst. rewrite (proj2 (Nat.leb_le x y)) by auto. exact IH.
Qed.
Lemma inplace_merge_ok a b : StronglySorted le a -> StronglySorted le b -> inplace_merge a b = Some (isort (a ++ b)).
Proof. intros Ha Hb. unfold inplace_merge. rewrite !sortedb_true; auto. Qed.
Lemma merge_all_ok ps : forall acc, StronglySorted le acc -> Forall (StronglySorted le) ps ->
  exists l, merge_all acc ps = Some l /\ StronglySorted le l /\ forall x, In x l -> In x acc \/ exists p, In p ps /\ In x p.
Proof.
  induction ps as [|p ps IH]; intros acc Ha Hp; cbn [merge_all].
  - exists acc. split; auto.
  - inversion Hp; subst. rewrite inplace_merge_ok by auto. cbn [obind].
    destruct (IH (isort (acc ++ p))) as (l & E & S & I); auto; [apply tisort_sorted|].
    exists l. split; auto. split; auto. intros x Hx. destruct (I x Hx) as [H|(q & Q1 & Q2)].
    + apply (proj1 (in_isort _ _)), in_app_or in H. destruct H; auto. right. exists p. split; auto. left; auto.
    + right. exists q. split; auto. right; auto.
Qed.

(** ** selection *)
Lemma pick_ok (n : nat) dead len : length dead = n -> 1 <= len -> forall l free, Forall (fun p => p + len <= n) l ->
  exists s r, pick dead len free l = Some (s, r) /\ ForallOrdPairs (fun a b => a + len <= b) s /\
    (forall x, In x s -> In x l /\ free <= x /\ nth x dead false = false /\ nth (x + len - 1) dead false = false) /\
    (forall x, In x r -> In x l) /\ (StronglySorted le l -> StronglySorted le r).
Proof.
  intros Hd Hl. induction l as [|c l IH]; intros free Hf; cbn [pick].
  - exists [], []. split; auto. split; [constructor|]. split; [intros x []|]. split; [intros x []|auto].
  - inversion Hf as [|? ? F1 F2]; subst.
    assert (A : exists a, (if free <=? c then alive dead c len else Some false) = Some a /\
      (a = true -> free <= c /\ nth c dead false = false /\ nth (c + len - 1) dead false = false)).
    { destruct (Nat.leb_spec free c) as [L|L]; [|exists false; split; [auto|discriminate]].
      unfold alive. rewrite (nth_error_nth' dead false) by lia. cbn [obind].
      destruct (nth c dead false); [exists false; split; [auto|discriminate]|].
      rewrite (nth_error_nth' dead false) by lia. cbn [obind]. eexists. split; [reflexivity|].
      intros H. apply negb_true_iff in H. auto. }
    destruct A as (a & EA & HA). rewrite EA. cbn [obind].
    destruct (IH (if a then c + len else free) F2) as (s & r & E & S1 & S2 & S3 & S4). rewrite E. cbn [obind].
    destruct a.
    + destruct (HA eq_refl) as (A1 & A2 & A3). exists (c :: s), r. split; auto. split.
      { constructor; auto. apply Forall_forall. intros x Hx. apply S2 in Hx. lia. }
      split. { intros x [<-|Hx]; [split; [left|]; auto|]. apply S2 in Hx. split; [right; tauto|]. split; [lia|tauto]. }
      split. { intros x Hx. right. auto. }
      intros Hs. inversion Hs; subst. auto.
    + exists s, (c :: r). split; auto. split; auto.
      split. { intros x Hx. apply S2 in Hx. split; [right|]; tauto. }
      split. { intros x [<-|Hx]; [left|right]; auto. }
      intros Hs. inversion Hs as [|? ? H1 H2]; subst. constructor; auto. apply Forall_forall. intros x Hx.
      rewrite Forall_forall in H2. auto.
Qed.
Lemma extend_ok dead c : forall fuel k, length dead <= c + k + fuel ->
  exists k', extend fuel dead c k = Some k' /\ k <= k'.
Proof.
  induction fuel as [|f IH]; intros k H; cbn [extend].
  - replace (c + k <? length dead) with false by lia. eauto.
  - destruct (Nat.ltb_spec (c + k) (length dead)) as [L|L]; [|eauto].
    rewrite (nth_error_nth' dead false) by lia. cbn [obind]. destruct (nth (c + k) dead false); [eauto|].
    destruct (IH (k + 1)) as (k' & E & H'); [lia|]. rewrite E. exists k'. split; auto. lia.
Qed.
Lemma min_shorter_ok (n : nat) dead len : length dead = n -> 1 <= len -> forall l k, Forall (fun p => p + len <= n) l ->
  exists k', min_shorter dead len k l = Some k' /\ k <= k'.
Proof.
  intros Hd Hl. induction l as [|c l IH]; intros k Hf; cbn [min_shorter]; [eauto|].
  inversion Hf as [|? ? F1 F2]; subst. replace (c <? length dead) with true by lia.
  rewrite (nth_error_nth' dead false) by lia. cbn [obind].
  assert (A : exists k1, (if nth c dead false then Some k else
    do b <- nth_error dead (c + len - 1); if b then extend (length dead) dead c k else Some k) = Some k1 /\ k <= k1).
  { destruct (nth c dead false); [eauto|]. rewrite (nth_error_nth' dead false) by lia. cbn [obind].
    destruct (nth (c + len - 1) dead false); [|eauto]. apply extend_ok. lia. }
  destruct A as (k1 & E & H1). rewrite E. cbn [obind]. destruct (IH k1 F2) as (k' & E' & H'). exists k'. split; auto. lia.
Qed.
Lemma not_dead_ok dead : forall l, Forall (fun p => p < length dead) l ->
  exists r, not_dead dead l = Some r /\ (forall x, In x r -> In x l) /\ (StronglySorted le l -> StronglySorted le r).
Proof.
  induction l as [|c l IH]; intros Hf; cbn [not_dead]; [exists []; auto|].
  inversion Hf as [|? ? F1 F2]; subst. rewrite (nth_error_nth' dead false) by lia. cbn [obind].
  destruct (IH F2) as (r & E & I1 & S1). rewrite E. cbn [obind]. eexists. split; [reflexivity|].
  destruct (nth c dead false).
  - split. { intros x Hx. right. auto. } intros Hs. inversion Hs; auto.
  - split. { intros x [<-|Hx]; [left|right]; auto. }
    intros Hs. inversion Hs as [|? ? H1 H2]; subst. constructor; auto. apply Forall_forall. intros x Hx.
    rewrite Forall_forall in H2. auto.
Qed.
Lemma ends_in l f b : ends l = Some (f, b) -> In f l /\ In b l.
Proof.
  destruct l as [|x l]; [discriminate|]. unfold ends. intros H. injection H as <- <-. split; [left; auto|].
  assert (G : forall (l : list nat) x d, In (last (x :: l) d) (x :: l)).
  { clear. induction l as [|y l IH]; intros x d; [left; auto|]. right. apply (IH y d). }
  apply G.
Qed.
Lemma ends_some l : l <> [] -> exists f b, ends l = Some (f, b).
Proof. destruct l; [congruence|]. cbn. eauto. Qed.
Lemma upd_some {A} (l : list A) i v : i < length l -> nth_error (upd l i v) i = Some v.
Proof. intros H. rewrite nth_error_upd_eq; auto. Qed.

Section Tree.
  Context (text : list N) (mn : nat) (T : list tnode) (W : nat -> list N).
  Let n := length text.
  Hypothesis Hmn : 1 <= mn.
  Hypothesis HW : spells text T W.

  Notation st_t := (bins_t * list (option (list nat)) * list bool * list rule * list nts)%type.

  Lemma piece_shorter p a b : a <= b -> firstn a (piece text p b) = piece text p a.
  Proof. intros H. unfold piece. rewrite firstn_firstn. f_equal. lia. Qed.

  (** places where the word of node [x] occurs *)
  Definition occ (x : nat) (t : tnode) (p : nat) : Prop :=
    p + td_depth t <= n /\ piece text p (td_depth t) = W x.
  Definition entry (bp : list (option (list nat))) : Prop :=
    length bp = length T /\
    forall x t l, nth_error T x = Some t -> nth_error bp x = Some (Some l) -> Forall (occ x t) l /\ StronglySorted le l.
  Definition good_bins (bins : bins_t) : Prop :=
    forall b x, In x (nth b bins []) -> exists t, nth_error T x = Some t /\ b <= td_depth t.
  Definition good (len : nat) (st : st_t) : Prop :=
    let '(bins, bp, dead, d, ns) := st in good_bins bins /\ entry bp /\ inv text mn 2 len dead d ns.
  Definition sound (len : nat) (rest : list nat) (st : st_t) : Prop :=
    good len st /\ len < length (fst (fst (fst (fst st)))) /\
    Forall (fun x => exists t, nth_error T x = Some t /\ len <= td_depth t) rest.

  Lemma entry_upd bp x t l : entry bp -> nth_error T x = Some t -> Forall (occ x t) l -> StronglySorted le l ->
    entry (upd bp x (Some l)).
  Proof.
    intros [E1 E2] Hx Ho Hs. split; [rewrite upd_length; auto|]. intros y u l' Hy Hl.
    destruct (Nat.eq_dec x y) as [<-|Hne].
    - rewrite nth_error_upd_eq in Hl by (rewrite E1; apply nth_error_Some; congruence).
      apply Some_inj, Some_inj in Hl. subst l'. rewrite Hx in Hy. apply Some_inj in Hy. subst u. auto.
    - rewrite nth_error_upd_ne in Hl by auto. eauto.
  Qed.
  Lemma entry_erase bp x e : entry bp -> (e = None \/ e = Some []) -> entry (upd bp x e).
  Proof.
    intros [E1 E2] He. split; [rewrite upd_length; auto|]. intros y u l' Hy Hl.
    destruct (Nat.eq_dec x y) as [<-|Hne].
    - destruct (le_lt_dec (length bp) x) as [L|L].
      { rewrite (proj2 (nth_error_None _ _)) in Hl; [discriminate|]. rewrite upd_length. auto. }
      rewrite nth_error_upd_eq in Hl by auto. destruct He as [->| ->]; [discriminate|].
      apply Some_inj, Some_inj in Hl. subst l'. split; constructor.
    - rewrite nth_error_upd_ne in Hl by auto. eauto.
  Qed.
  Lemma entry_at bp x t : entry bp -> nth_error T x = Some t -> exists e, nth_error bp x = Some e.
  Proof.
    intros [E1 _] Hx. destruct (nth_error bp x) eqn:E; [eauto|]. apply nth_error_None in E.
    assert (x < length T) by (apply nth_error_Some; congruence). lia.
  Qed.
  (** occurrences of a child are occurrences of the node *)
  Lemma occ_up x t y u p : firstn (td_depth t) (W y) = W x -> td_depth t < td_depth u -> occ y u p -> occ x t p.
  Proof.
    intros H1 H2 [O1 O2]. split; [lia|]. rewrite <- (piece_shorter p (td_depth t) (td_depth u)) by lia.
    rewrite O2. auto.
  Qed.

  Lemma good_push bins k x t : good_bins bins -> k < length bins -> nth_error T x = Some t -> k <= td_depth t ->
    exists bins', bucket_push bins k x = Some bins' /\ good_bins bins' /\ length bins' = length bins.
  Proof.
    intros HB Hk Hx Hl. unfold bucket_push. rewrite (nth_error_nth' bins []) by auto. cbn [obind].
    eexists. split; [reflexivity|]. split; [|apply upd_length].
    intros b y Hy. destruct (Nat.eq_dec k b) as [<-|Hne].
    - rewrite nth_upd_eq in Hy by auto. apply in_app_or in Hy. destruct Hy as [Hy|[<-|[]]]; eauto.
    - rewrite nth_upd_ne in Hy by auto. auto.
  Qed.
  Lemma readd_ok bins x t len k : good_bins bins -> len < length bins -> nth_error T x = Some t -> len <= td_depth t -> 1 <= k ->
    exists bins', readd T mn bins x len k = Some bins' /\ good_bins bins' /\ length bins' = length bins /\
      (bins' = bins \/ (k < len /\ bucket_push bins k x = Some bins' /\
         exists p, nth_error T (td_parent t) = Some p /\ td_depth p < k)).
  Proof.
    intros HB Hl Hx Hd Hk. unfold readd. destruct ((k <? len) && (mn <=? k))%bool eqn:C; [|exists bins; auto].
    rewrite Hx. cbn [obind]. destruct (HW x t Hx) as (_ & _ & Hp & _).
    destruct Hp as (p & Ep & _); [lia|]. rewrite Ep. cbn [obind].
    destruct (Nat.ltb_spec (td_depth p) k) as [L|L]; [|exists bins; auto].
    destruct (good_push bins k x t) as (b' & B1 & B2 & B3); auto; try lia. exists b'. split; auto. split; auto. split; auto.
    right. split; [lia|]. split; auto. exists p. auto.
  Qed.

  (** the selected occurrences make a rule *)
  Lemma emit_ok x t len dead d ns l sel : inv text mn 2 len dead d ns -> nth_error T x = Some t -> mn <= len <= td_depth t ->
    Forall (occ x t) l -> ForallOrdPairs (fun a b => a + len <= b) sel ->
    (forall p, In p sel -> In p l /\ 0 <= p /\ nth p dead false = false /\ nth (p + len - 1) dead false = false) ->
    2 <= length sel ->
    exists dead' d' ns', emit len sel dead d ns = Some (dead', d', ns') /\ inv text mn 2 len dead' d' ns'.
  Proof.
    intros I Hx Hl Ho Hs Hi H2. rewrite Forall_forall in Ho. unfold emit.
    destruct sel as [|o sel']; [cbn in H2; lia|]. cbn [hd_error obind]. set (sel := o :: sel') in *.
    assert (P : forall p, In p sel -> p + len <= n /\ piece text p len = firstn len (W x)).
    { intros p Hp. apply Hi in Hp. destruct Hp as (Hp & _). destruct (Ho p Hp) as [O1 O2]. split; [lia|].
      rewrite <- O2. symmetry. apply piece_shorter. lia. }
    destruct (P o) as [P1 P2]; [left; auto|].
    destruct (add_rule text mn 2 len dead d ns len o sel I) as (dead' & E & I'); auto; try lia.
    - apply Forall_forall. intros p Hp. destruct (P p Hp). destruct (Hi p Hp) as (_ & _ & D1 & D2).
      split; auto. split; [congruence|auto].
    - rewrite E. cbn [obind]. eauto.
  Qed.

  (** the lists of the children *)
  Lemma take_ok erase dead x t : (erase = None \/ erase = Some []) -> length dead = n -> nth_error T x = Some t -> 1 <= td_depth t ->
    forall cs bp, (forall c, In c cs -> In c (td_children t)) -> entry bp ->
    exists lv ps bp', take erase dead cs bp = Some (lv, ps, bp') /\ entry bp' /\
      Forall (occ x t) lv /\ Forall (fun l => Forall (occ x t) l /\ StronglySorted le l) ps.
  Proof.
    intros He Hd Hx H1. destruct (HW x t Hx) as (_ & _ & _ & HC).
    induction cs as [|c cs IH]; intros bp Hcs Hb; cbn [take].
    { exists [], [], bp. auto. }
    assert (Hc := HC c (Hcs c (or_introl eq_refl))).
    assert (Hcs' : forall c, In c cs -> In c (td_children t)) by (intros; apply Hcs; right; auto).
    destruct c as [s|y].
    - destruct Hc as [C1 C2]. fold n in C1. rewrite (nth_error_nth' dead false) by lia. cbn [obind].
      destruct (IH bp Hcs' Hb) as (lv & ps & bp' & E & B & L & P). rewrite E. cbn [obind].
      eexists _, _, _. split; [reflexivity|]. split; auto. split; auto.
      destruct (nth s dead false); auto. constructor; auto. split; auto.
    - destruct Hc as (u & U1 & U2 & U3 & U4). destruct (entry_at bp y u Hb U1) as (e & Ee). rewrite Ee. cbn [obind].
      destruct e as [[|z l0]|].
      + apply IH; auto. apply entry_erase; auto.
      + destruct (proj2 Hb y u (z :: l0) U1 Ee) as [O1 O2].
        destruct (IH (upd bp y erase) Hcs') as (lv & ps & bp' & E & B & L & P); [apply entry_erase; auto|].
        rewrite E. cbn [obind]. eexists _, _, _. split; [reflexivity|]. split; auto. split; auto.
        constructor; auto. split; auto. revert O1. apply Forall_impl. intros p. apply occ_up; auto.
      + apply IH; auto. apply entry_erase; auto.
  Qed.
  Lemma gather_ok erase dead x t bp : (erase = None \/ erase = Some []) -> length dead = n -> nth_error T x = Some t ->
    1 <= td_depth t -> entry bp ->
    exists l bp', gather T erase dead x bp = Some (l, bp') /\ entry bp' /\ Forall (occ x t) l /\ StronglySorted le l.
  Proof.
    intros He Hd Hx H1 Hb. unfold gather. rewrite Hx. cbn [obind].
    destruct (take_ok erase dead x t He Hd Hx H1 (td_children t) bp) as (lv & ps & bp' & E & B & L & P); auto.
    rewrite E. cbn [obind].
    destruct (merge_all_ok (ps ++ [isort lv]) []) as (l & M & S & I).
    { constructor. }
    { apply Forall_app. split; [|constructor; [apply tisort_sorted|constructor]]. revert P. apply Forall_impl. tauto. }
    rewrite M. cbn [obind].
    assert (O : Forall (occ x t) l).
    { apply Forall_forall. intros p Hp. destruct (I p Hp) as [[]|(q & Q1 & Q2)]. apply in_app_or in Q1.
      rewrite Forall_forall in L, P. destruct Q1 as [Q1|[<-|[]]].
      - destruct (P q Q1) as [P1 _]. rewrite Forall_forall in P1. auto.
      - apply (proj1 (in_isort _ _)) in Q2. auto. }
    eexists _, _. split; [reflexivity|]. split; [apply (entry_upd bp' x t); auto|]. auto.
  Qed.

  Lemma occ_len x t len l : len <= td_depth t -> Forall (occ x t) l -> Forall (fun p => p + len <= n) l.
  Proof. intros H. apply Forall_impl. intros p [O _]. lia. Qed.

  Lemma bst_step_ok len x rest st : mn <= len -> sound len (x :: rest) st ->
    exists st', bst_step T len x st = Some st' /\ sound len rest st'.
  Proof.
    intros Hl [G [Hlen Hr]]. destruct st as [[[[bins bp] dead] d] ns]. destruct G as (G1 & G2 & G3). cbn [fst] in Hlen.
    inversion Hr as [|? ? (t & Hx & Hd) Hr']; subst. pose proof (i_len _ _ _ _ _ _ _ G3) as HD. fold n in HD.
    assert (X : forall bp' dead' d' ns', entry bp' -> inv text mn 2 len dead' d' ns' -> sound len rest (bins, bp', dead', d', ns')).
    { intros. refine (conj (conj _ (conj _ _)) (conj _ _)); auto. }
    unfold bst_step. destruct (entry_at bp x t G2 Hx) as (e & Ee). rewrite Ee. cbn [obind].
    assert (Y : exists l bp', match e with Some l => Some (l, bp) | None => gather T None dead x bp end = Some (l, bp') /\
      entry bp' /\ Forall (occ x t) l /\ StronglySorted le l).
    { destruct e as [l|].
      - exists l, bp. destruct (proj2 G2 x t l Hx Ee). auto.
      - apply (gather_ok None dead x t bp); auto. lia. }
    destruct Y as (l & bp' & Ey & Y1 & Y2 & Y3). rewrite Ey. cbn [obind].
    destruct (Nat.leb_spec 2 (length l)) as [L2|L2]; [|eauto].
    destruct (ends_some l) as (f & b & Ef); [intros ->; cbn in L2; lia|]. rewrite Ef. cbn [obind].
    destruct (len <=? b - f); [|eauto]. destruct (ends_in l f b Ef) as [I1 I2].
    pose proof (occ_len x t len l Hd Y2) as Y4. rewrite Forall_forall in Y4. pose proof (Y4 f I1). pose proof (Y4 b I2).
    rewrite (nth_error_nth' dead false) by lia. cbn [obind]. rewrite (nth_error_nth' dead false) by lia. cbn [obind].
    destruct (_ || _)%bool; [eauto|].
    destruct (pick_ok n dead len HD ltac:(lia) l 0) as (sel & oth & E & S1 & S2 & S3 & S4); [apply Forall_forall; auto|].
    rewrite E. cbn [obind].
    destruct (not_dead_ok dead oth) as (oth' & N1 & N2 & N3).
    { apply Forall_forall. intros p Hp. apply S3 in Hp. specialize (Y4 p Hp). cbn in Y4. lia. }
    rewrite N1. cbn [obind].
    destruct (Nat.leb_spec 2 (length sel)) as [L3|L3]; [|eauto].
    destruct (emit_ok x t len dead d ns l sel G3 Hx) as (dead' & d' & ns' & M1 & M2); auto. rewrite M1. cbn [obind].
    eexists. split; [reflexivity|]. apply X; auto. apply (entry_upd bp' x t); auto.
    apply Forall_forall. intros p Hp. rewrite Forall_forall in Y2. auto.
  Qed.

  Lemma sim_step_ok len x rest st : mn <= len -> sound len (x :: rest) st ->
    exists st', sim_step T mn len x st = Some st' /\ sound len rest st'.
  Proof.
    intros Hl [G [Hlen Hr]]. destruct st as [[[[bins bp] dead] d] ns]. destruct G as (G1 & G2 & G3). cbn [fst] in Hlen.
    inversion Hr as [|? ? (t & Hx & Hd) Hr']; subst. pose proof (i_len _ _ _ _ _ _ _ G3) as HD. fold n in HD.
    assert (X : forall bins' bp' dead' d' ns', good_bins bins' -> length bins' = length bins -> entry bp' ->
      inv text mn 2 len dead' d' ns' -> sound len rest (bins', bp', dead', d', ns')).
    { intros. refine (conj (conj _ (conj _ _)) (conj _ _)); auto. cbn [fst]. lia. }
    unfold sim_step. destruct (entry_at bp x t G2 Hx) as (e & Ee). rewrite Ee. cbn [obind].
    assert (Y : exists l bp', match e with Some (y :: l) => Some (y :: l, bp) | _ => gather T (Some []) dead x bp end = Some (l, bp') /\
      entry bp' /\ Forall (occ x t) l /\ StronglySorted le l).
    { destruct e as [[|y l]|].
      - apply (gather_ok (Some []) dead x t bp); auto. lia.
      - exists (y :: l), bp. destruct (proj2 G2 x t (y :: l) Hx Ee). auto.
      - apply (gather_ok (Some []) dead x t bp); auto. lia. }
    destruct Y as (l & bp' & Ey & Y1 & Y2 & Y3). rewrite Ey. cbn [obind].
    destruct (ends l) as [[f b]|] eqn:Ef; [|eauto].
    destruct (_ && _)%bool; [eauto|].
    pose proof (occ_len x t len l Hd Y2) as Y4.
    destruct (pick_ok n dead len HD ltac:(lia) l 0) as (sel & oth & E & S1 & S2 & S3 & S4); auto.
    rewrite E. cbn [obind].
    destruct (min_shorter_ok n dead len HD ltac:(lia) l 1 Y4) as (k & K1 & K2). rewrite K1. cbn [obind].
    destruct (readd_ok bins x t len k) as (bins' & R1 & R2 & R3 & _); auto. rewrite R1. cbn [obind].
    destruct (Nat.leb_spec 2 (length sel)) as [L3|L3]; [|eauto].
    destruct (emit_ok x t len dead d ns l sel G3 Hx) as (dead' & d' & ns' & M1 & M2); auto. rewrite M1. cbn [obind].
    eexists. split; [reflexivity|]. apply X; auto. apply (entry_upd bp' x t); auto.
    apply Forall_forall. intros p Hp. rewrite Forall_forall in Y2. auto.
  Qed.

  (** ** the loop over the bins, for any invariant *)
  Lemma run_levels_ok (step : nat -> nat -> st_t -> option st_t) (I : nat -> list nat -> st_t -> Prop) :
    (forall len x rest st, mn <= len -> I len (x :: rest) st -> exists st', step len x st = Some st' /\ I len rest st') ->
    (forall len st, mn <= S len -> I (S len) [] st -> I len (nth len (fst (fst (fst (fst st)))) []) st) ->
    (forall len rest st, I len rest st -> len < length (fst (fst (fst (fst st))))) ->
    forall len st, I len (nth len (fst (fst (fst (fst st)))) []) st ->
    exists st' len' rest', run_levels step mn len st = Some st' /\ I len' rest' st'.
  Proof.
    intros Hs Hd Hb.
    assert (RN : forall len rest st, mn <= len -> I len rest st -> exists st', run_nodes step len rest st = Some st' /\ I len [] st').
    { intros len. induction rest as [|x rest IH]; intros st Hl Hi; cbn [run_nodes]; [eauto|].
      destruct (Hs len x rest st Hl Hi) as (st' & E & Hi'). rewrite E. cbn [obind]. auto. }
    induction len as [|len IH]; intros st Hi; cbn [run_levels].
    - replace (0 <? mn) with true by lia. eauto.
    - destruct (Nat.ltb_spec (S len) mn) as [L|L]; [eauto|].
      rewrite (nth_error_nth' _ []) by (eapply Hb; eauto). cbn [obind].
      destruct (RN (S len) _ st L Hi) as (st' & E & Hi'). rewrite E. cbn [obind]. apply IH. apply Hd; auto.
  Qed.

  Lemma sound_down len st : mn <= S len -> sound (S len) [] st -> sound len (nth len (fst (fst (fst (fst st)))) []) st.
  Proof.
    intros _ [G [Hl _]]. destruct st as [[[[bins bp] dead] d] ns]. destruct G as (G1 & G2 & G3). cbn [fst] in *.
    refine (conj (conj G1 (conj G2 _)) (conj _ _)); [apply (inv_weaken text mn 2 (S len)); auto|cbn [fst]; lia|].
    apply Forall_forall. intros x Hx. apply G1; auto.
  Qed.
  Lemma sound_len len rest st : sound len rest st -> len < length (fst (fst (fst (fst st)))).
  Proof. intros [_ [H _]]. auto. Qed.
  Lemma inv_up cur dead d ns : inv text mn 2 cur dead d ns -> inv text mn 2 mn dead d ns.
  Proof.
    intros I. destruct I as [i_len0 i_dead0 i_cur0 i_apart0 i_use0 i_rule0 i_ord0 i_dcur0 i_few0 i_twice0]. constructor; auto.
    - rewrite Forall_forall in *. intros u Hu. destruct (i_use0 u Hu) as (_ & p & E & _).
      apply nth_error_In in E. destruct (i_dcur0 _ E). auto.
    - revert i_dcur0. apply Forall_impl. tauto.
  Qed.
  Definition valid (d : list rule) (ns : list nts) : Prop :=
    rules_ok text d /\ uses_ok text d 0 ns /\ length d <= n /\ Forall (fun r : rule => mn <= snd r) d /\
    forall sym, sym < length d -> 2 <= count sym ns.
  Lemma sound_finish len rest st : sound len rest st -> exists d ns, finish (Some st) = Some (d, ns) /\ valid d ns.
  Proof.
    intros [G _]. destruct st as [[[[bins bp] dead] d] ns]. destruct G as (_ & _ & G). unfold finish. cbn [obind].
    exists d, (nts_sort ns). split; auto. apply (inv_final text mn 2 mn dead); auto. apply (inv_up len); auto.
  Qed.

  (** ** filling the bins *)
  Lemma nth_grow (bins : bins_t) k b : nth b (bins ++ repeat [] k) [] = nth b bins [].
  Proof.
    destruct (le_lt_dec (length bins) b) as [L|L].
    - rewrite app_nth2 by auto. rewrite nth_repeat, nth_overflow; auto.
    - rewrite app_nth1; auto.
  Qed.
  Lemma grow_all_ok dep : forall fuel bins, 1 <= length bins -> dep < length bins + fuel ->
    exists bins', grow_all fuel bins dep = Some bins' /\ dep < length bins' /\ length bins <= length bins' /\ forall b, nth b bins' [] = nth b bins [].
  Proof.
    induction fuel as [|f IH]; intros bins H1 H2; cbn [grow_all].
    - replace (length bins <=? dep) with false by lia. exists bins. repeat split; auto. lia.
    - destruct (Nat.leb_spec (length bins) dep) as [L|L]; [|exists bins; auto].
      destruct (IH (bins ++ repeat [] (length bins))) as (b' & E & E1 & E2 & E3).
      + rewrite app_length. lia.
      + rewrite app_length, repeat_length. lia.
      + exists b'. rewrite app_length, repeat_length in E2. split; auto. split; auto. split; [lia|].
        intros b. rewrite E3. apply nth_grow.
  Qed.
  Lemma good_same bins bins' : (forall b, nth b bins' [] = nth b bins []) -> good_bins bins -> good_bins bins'.
  Proof. intros E H b x Hx. rewrite E in Hx. eauto. Qed.

  Lemma bst_fill_ok order : Forall (fun x => x < length T) order -> forall bins mx, good_bins bins -> mx < length bins ->
    exists bins' mx', bst_fill T order bins mx = Some (bins', mx') /\ good_bins bins' /\ mx' < length bins'.
  Proof.
    induction 1 as [|x order Hx Ho IH]; intros bins mx G L; cbn [bst_fill]; [eauto|].
    destruct (nth_error T x) as [t|] eqn:Et; [|apply nth_error_None in Et; lia]. cbn [obind].
    destruct (grow_all_ok (td_depth t) (td_depth t) bins) as (b1 & E1 & E2 & E3 & E4); try lia. rewrite E1. cbn [obind].
    assert (G1 : good_bins b1) by (apply (good_same bins); auto).
    assert (A : exists b2, (if 0 <? td_depth t then bucket_push b1 (td_depth t) x else Some b1) = Some b2 /\ good_bins b2 /\ length b2 = length b1).
    { destruct (0 <? td_depth t); [|eauto]. apply (good_push b1 (td_depth t) x t); auto. }
    destruct A as (b2 & A1 & A2 & A3). rewrite A1. cbn [obind]. apply IH; auto. lia.
  Qed.
  Lemma sim_fill_ok order : Forall (fun x => x < length T) order -> forall bins, good_bins bins -> 1 <= length bins ->
    exists bins', sim_fill T order bins = Some bins' /\ good_bins bins' /\ 1 <= length bins'.
  Proof.
    induction 1 as [|x order Hx Ho IH]; intros bins G L; cbn [sim_fill]; [eauto|].
    destruct (nth_error T x) as [t|] eqn:Et; [|apply nth_error_None in Et; lia]. cbn [obind].
    destruct (grow_all_ok (td_depth t) (td_depth t) bins) as (b1 & E1 & E2 & E3 & E4); try lia. rewrite E1. cbn [obind].
    assert (G1 : good_bins b1) by (apply (good_same bins); auto).
    destruct (good_push b1 (td_depth t) x t) as (b2 & A1 & A2 & A3); auto. rewrite A1. cbn [obind]. apply IH; auto. lia.
  Qed.
  Lemma good_bins0 : good_bins bins0.
  Proof. intros b x Hx. unfold bins0 in Hx. rewrite nth_repeat in Hx. destruct Hx. Qed.
  Lemma order_lt order : traversal T order -> Forall (fun x => x < length T) order.
  Proof. intros P. apply Forall_forall. intros x Hx. apply (Permutation_in _ P), in_seq in Hx. lia. Qed.
  Lemma entry0 e : (e = None \/ e = Some []) -> entry (repeat e (length T)).
  Proof.
    intros He. split; [apply repeat_length|]. intros x t l Hx Hl. apply nth_error_In, repeat_spec in Hl.
    destruct He as [->| ->]; [discriminate|]. apply Some_inj in Hl. subst l. split; constructor.
  Qed.
  Lemma sound0 bins e len : (e = None \/ e = Some []) -> good_bins bins -> len < length bins ->
    sound len (nth len bins []) (bins, repeat e (length T), repeat false n, [], []).
  Proof.
    intros He G L. refine (conj (conj G (conj (entry0 e He) (inv_init text mn 2 len))) (conj L _)).
    apply Forall_forall. intros x Hx. apply G; auto.
  Qed.

  Lemma bst_ok order : traversal T order -> exists d ns, bst_rules T mn order n = Some (d, ns) /\ valid d ns.
  Proof.
    intros P. unfold bst_rules. destruct (bst_fill_ok order (order_lt order P) bins0 0) as (bins & mx & E & G & L); auto.
    { apply good_bins0. }
    { unfold bins0. rewrite repeat_length. lia. }
    rewrite E. cbn [obind].
    assert (L' : mx < length (firstn (mx + 1) bins)) by (rewrite firstn_length; lia).
    assert (G' : good_bins (firstn (mx + 1) bins)).
    { intros b x Hx. apply G. destruct (le_lt_dec (mx + 1) b) as [Lb|Lb].
      - rewrite nth_overflow in Hx; [destruct Hx|]. rewrite firstn_length. lia.
      - rewrite <- (firstn_skipn (mx + 1) bins). rewrite app_nth1; auto. rewrite firstn_length. lia. }
    destruct (run_levels_ok (bst_step T) sound) with (len := mx) (st := (firstn (mx + 1) bins, repeat (@None (list nat)) (length T), repeat false n, @nil rule, @nil nts))
      as (st & len' & rest' & R & S).
    - intros. apply bst_step_ok; auto.
    - exact sound_down.
    - exact sound_len.
    - apply sound0; auto.
    - rewrite R. apply (sound_finish len' rest'); auto.
  Qed.
  Lemma sim_ok (m : N) order : short m = mn -> traversal T order -> exists d ns, sim_rules T m order n = Some (d, ns) /\ valid d ns.
  Proof.
    intros Hm P. unfold sim_rules. rewrite Hm. destruct (sim_fill_ok order (order_lt order P) bins0) as (bins & E & G & L).
    { apply good_bins0. }
    { unfold bins0. rewrite repeat_length. lia. }
    rewrite E. cbn [obind].
    destruct (run_levels_ok (sim_step T mn) sound) with (len := length bins - 1) (st := (bins, repeat (Some (@nil nat)) (length T), repeat false n, @nil rule, @nil nts))
      as (st & len' & rest' & R & S).
    - intros. apply sim_step_ok; auto.
    - exact sound_down.
    - exact sound_len.
    - apply sound0; auto. cbn [fst]. lia.
    - rewrite R. apply (sound_finish len' rest'); auto.
  Qed.

  (** ** STStrategy *)
  Lemma st_take_ok x t : nth_error T x = Some t -> 1 <= td_depth t ->
    forall cs bp, (forall c, In c cs -> In c (td_children t)) -> entry bp ->
    exists l bp', st_take cs bp = Some (l, bp') /\ entry bp' /\ Forall (occ x t) l /\
      (forall y, nth_error bp y = Some None -> nth_error bp' y = Some None) /\
      (forall y, ~ In (CInner y) cs -> nth_error bp' y = nth_error bp y) /\
      ((exists s, In (CLeaf s) cs) \/ (exists y z l0, In (CInner y) cs /\ nth_error bp y = Some (Some (z :: l0))) -> l <> []).
  Proof.
    intros Hx H1. destruct (HW x t Hx) as (_ & _ & _ & HC).
    induction cs as [|c cs IH]; intros bp Hcs Hb; cbn [st_take].
    { exists [], bp. split; auto. split; auto. split; [constructor|]. split; auto. split; auto.
      intros [(s & [])|(y & z & l0 & [] & _)]. }
    assert (Hc := HC c (Hcs c (or_introl eq_refl))).
    assert (Hcs' : forall c, In c cs -> In c (td_children t)) by (intros; apply Hcs; right; auto).
    destruct c as [s|y].
    - destruct (IH bp Hcs' Hb) as (l & bp' & E & B & O & N1 & N2 & N3). rewrite E. cbn [obind].
      eexists _, _. split; [reflexivity|]. split; auto. split; [constructor; auto|]. split; auto.
      split; [|intros _; discriminate]. intros z Hz. apply N2. intros H. apply Hz. right; auto.
    - destruct Hc as (u & U1 & U2 & U3 & U4). destruct (entry_at bp y u Hb U1) as (e & Ee). rewrite Ee. cbn [obind].
      destruct e as [l0|].
      + destruct (proj2 Hb y u l0 U1 Ee) as [O1 O2].
        destruct (IH (upd bp y None) Hcs') as (l & bp' & E & B & O & N1 & N2 & N3); [apply entry_erase; auto|].
        rewrite E. cbn [obind]. eexists _, _. split; [reflexivity|]. split; auto. split; [|split; [|split]].
        * apply Forall_app. split; auto. revert O1. apply Forall_impl. intros p. apply occ_up; auto.
        * intros z Hz. apply N1. destruct (Nat.eq_dec y z) as [<-|Hne]; [congruence|]. rewrite nth_error_upd_ne; auto.
        * intros z Hz. rewrite N2 by (intros H; apply Hz; right; auto). apply nth_error_upd_ne.
          intros ->. apply Hz. left; auto.
        * intros H. destruct l0 as [|a l0]; [|discriminate]. cbn [app]. apply N3.
          destruct H as [(s & [H|H])|(z & w & l1 & [H|H] & H')]; [discriminate|eauto| |].
          -- injection H as <-. congruence.
          -- right. exists z, w, l1. split; auto. rewrite nth_error_upd_ne; auto. intros ->. congruence.
      + destruct (IH bp Hcs' Hb) as (l & bp' & E & B & O & N1 & N2 & N3).
        exists l, bp'. split; auto. split; auto. split; auto. split; auto. split.
        * intros z Hz. apply N2. intros H. apply Hz. right; auto.
        * intros H. apply N3. destruct H as [(s & [H|H])|(z & w & l1 & [H|H] & H')]; [discriminate|eauto| |].
          -- injection H as <-. congruence.
          -- right. exists z, w, l1. auto.
  Qed.

  (** the nodes are collected from the deepest to the shallowest *)
  Record sched (len : nat) (rest : list nat) (bins : bins_t) (bp : list (option (list nat))) (done : nat -> bool) : Prop := {
    s_low : forall j y t p, In y (nth j bins []) -> j < len -> nth_error T y = Some t -> nth_error T (td_parent t) = Some p -> td_depth p < j;
    s_rest : forall y t p, In y rest -> nth_error T y = Some t -> nth_error T (td_parent t) = Some p -> td_depth p < len;
    s_pend : forall y t, nth_error T y = Some t -> 0 < td_depth t -> done y = false ->
      (td_depth t < len /\ In y (nth (td_depth t) bins [])) \/ (td_depth t = len /\ In y rest);
    s_none : forall y t, nth_error T y = Some t -> done y = false -> nth_error bp y = Some None;
    s_deep : forall y t, nth_error T y = Some t -> done y = true -> len <= td_depth t;
    s_some : forall y t, nth_error T y = Some t -> done y = true -> done (td_parent t) = false ->
      exists z l, nth_error bp y = Some (Some (z :: l)) }.
  Definition stinv (len : nat) (rest : list nat) (st : st_t) : Prop :=
    sound len rest st /\ exists done, sched len rest (fst (fst (fst (fst st)))) (snd (fst (fst (fst st)))) done.

  Lemma sched_rest len x rest bins bp done : done x = true -> sched len (x :: rest) bins bp done -> sched len rest bins bp done.
  Proof.
    intros Hx S. destruct S. constructor; auto.
    - intros y t p Hy. apply s_rest0. right; auto.
    - intros y t Hy Hd Hf. destruct (s_pend0 y t Hy Hd Hf) as [H|[H1 [<-|H2]]]; auto. congruence.
  Qed.
  Lemma sched_push len rest bins bp done x t k p bins' : sched len rest bins bp done ->
    nth_error T x = Some t -> nth_error T (td_parent t) = Some p -> td_depth p < k -> bucket_push bins k x = Some bins' ->
    sched len rest bins' bp done.
  Proof.
    intros S Hx Hp Hk E. unfold bucket_push in E. destruct (nth_error bins k) as [b|] eqn:Eb; [|discriminate].
    cbn [obind] in E. apply Some_inj in E. subst bins'. assert (Lk : k < length bins) by (apply nth_error_Some; congruence).
    apply (nth_error_nth _ _ []) in Eb. destruct S. constructor; auto.
    - intros j y u q Hy Hj Hu Hq. destruct (Nat.eq_dec k j) as [<-|Hne].
      + rewrite nth_upd_eq in Hy by auto. apply in_app_or in Hy. destruct Hy as [Hy|[<-|[]]]; [rewrite <- Eb in Hy; eauto|].
        congruence.
      + rewrite nth_upd_ne in Hy by auto. eauto.
    - intros y u Hy Hd Hf. destruct (s_pend0 y u Hy Hd Hf) as [[H1 H2]|H]; auto. left. split; auto.
      destruct (Nat.eq_dec k (td_depth u)) as [->|Hne].
      + rewrite nth_upd_eq by auto. apply in_or_app. left. congruence.
      + rewrite nth_upd_ne by auto. auto.
  Qed.

  Lemma st_positions_ok len x t rest bins bp done : mn <= len -> nth_error T x = Some t -> len <= td_depth t -> entry bp ->
    sched len (x :: rest) bins bp done ->
    exists l bp' done', st_positions T x bp = Some (l, bp') /\ entry bp' /\ Forall (occ x t) l /\ StronglySorted le l /\
      sched len rest bins bp' done'.
  Proof.
    intros Hl Hx Hd Hb S. destruct (HW x t Hx) as (_ & Hne & Hp & HC). destruct Hp as (p & Ep & Dp); [lia|].
    assert (Pl : td_depth p < len) by (apply (s_rest _ _ _ _ _ S x t p); auto; left; auto).
    assert (Np : done (td_parent t) = false).
    { destruct (done (td_parent t)) eqn:E; auto. pose proof (s_deep _ _ _ _ _ S _ p Ep E). lia. }
    unfold st_positions. destruct (entry_at bp x t Hb Hx) as (e & Ee). rewrite Ee. cbn [obind].
    destruct e as [l|].
    { exists l, bp, done. destruct (proj2 Hb x t l Hx Ee). split; auto. split; auto. split; auto. split; auto.
      apply (sched_rest len x); auto. destruct (done x) eqn:E; auto. pose proof (s_none _ _ _ _ _ S x t Hx E). congruence. }
    rewrite Hx. cbn [obind].
    assert (Dx : done x = false).
    { destruct (done x) eqn:E; auto. destruct (s_some _ _ _ _ _ S x t Hx E Np) as (z & l & H). congruence. }
    assert (Dl : td_depth t = len).
    { destruct (s_pend _ _ _ _ _ S x t Hx ltac:(lia) Dx) as [[H _]|[H _]]; lia. }
    destruct (st_take_ok x t Hx ltac:(lia) (td_children t) bp) as (l & bp1 & E & B & O & N1 & N2 & N3); auto.
    rewrite E. cbn [obind].
    assert (Ln : l <> []).
    { apply N3. destruct (td_children t) as [|[s|y] cs] eqn:Ec; [congruence| |].
      - left. exists s. left; auto.
      - right. destruct (HC (CInner y)) as (u & U1 & U2 & U3 & U4); [left; auto|].
        assert (Dy : done y = true).
        { destruct (done y) eqn:Ey; auto. destruct (s_pend _ _ _ _ _ S y u U1 ltac:(lia) Ey) as [[H _]|[H _]]; lia. }
        destruct (s_some _ _ _ _ _ S y u U1 Dy) as (z & l1 & H); [congruence|]. exists y, z, l1. split; [left|]; auto. }
    assert (Li : isort l <> []).
    { intros H. apply Ln. apply Permutation_nil. rewrite <- H. apply Permutation_sym, isort_perm. }
    destruct (ends_some (isort l) Li) as (f & b & Ef). rewrite Ef. cbn [obind].
    assert (Lx : x < length bp1) by (rewrite (proj1 B); apply nth_error_Some; congruence).
    exists (isort l), (upd bp1 x (Some (isort l))), (fun y => if y =? x then true else done y).
    assert (O' : Forall (occ x t) (isort l)).
    { apply Forall_forall. intros q Hq. apply (proj1 (in_isort _ _)) in Hq. rewrite Forall_forall in O. auto. }
    split; auto. split; [apply (entry_upd bp1 x t); auto; apply tisort_sorted|]. split; auto. split; [apply tisort_sorted|].
    constructor.
    - exact (s_low _ _ _ _ _ S).
    - intros y u q Hy. apply (s_rest _ _ _ _ _ S). right; auto.
    - intros y u Hy Hu. cbn beta. destruct (Nat.eqb_spec y x) as [->|Hyx]; [discriminate|]. intros Hf.
      destruct (s_pend _ _ _ _ _ S y u Hy Hu Hf) as [H|[H1 [H2|H2]]]; auto. congruence.
    - intros y u Hy. cbn beta. destruct (Nat.eqb_spec y x) as [->|Hyx]; [discriminate|]. intros Hf.
      rewrite nth_error_upd_ne by auto. apply N1. apply (s_none _ _ _ _ _ S y u); auto.
    - intros y u Hy. cbn beta. destruct (Nat.eqb_spec y x) as [->|Hyx]; [|apply (s_deep _ _ _ _ _ S); auto].
      intros _. replace u with t by congruence. lia.
    - intros y u Hy. cbn beta. destruct (Nat.eqb_spec y x) as [->|Hyx].
      + intros _ _. rewrite nth_error_upd_eq by auto. destruct (isort l) as [|z l1]; [congruence|eauto].
      + intros Hdy. destruct (Nat.eqb_spec (td_parent u) x) as [|Hpx]; [discriminate|]. intros Hf.
        rewrite nth_error_upd_ne by auto. rewrite N2; [apply (s_some _ _ _ _ _ S y u); auto|].
        intros Hin. destruct (HC (CInner y) Hin) as (u' & V1 & _ & V3 & _). congruence.
  Qed.

  Lemma st_step_ok len x rest st : mn <= len -> stinv len (x :: rest) st ->
    exists st', st_step T mn len x st = Some st' /\ stinv len rest st'.
  Proof.
    intros Hl [[G [Hlen Hr]] (done & S)]. destruct st as [[[[bins bp] dead] d] ns]. destruct G as (G1 & G2 & G3). cbn [fst snd] in Hlen, S.
    inversion Hr as [|? ? (t & Hx & Hd) Hr']; subst. pose proof (i_len _ _ _ _ _ _ _ G3) as HD. fold n in HD.
    unfold st_step.
    destruct (st_positions_ok len x t rest bins bp done Hl Hx Hd G2 S) as (l & bp' & done' & Ey & Y1 & Y2 & Y3 & S').
    rewrite Ey. cbn [obind].
    assert (X : forall bins' dead' d' ns', good_bins bins' -> length bins' = length bins -> inv text mn 2 len dead' d' ns' ->
      sched len rest bins' bp' done' -> stinv len rest (bins', bp', dead', d', ns')).
    { intros. split; [|exists done'; auto]. refine (conj (conj _ (conj _ _)) (conj _ _)); auto. cbn [fst]. lia. }
    destruct (Nat.leb_spec 2 (length l)) as [L2|L2]; [|eauto].
    destruct (ends_some l) as (f & b & Ef); [intros ->; cbn in L2; lia|]. rewrite Ef. cbn [obind].
    destruct (len <=? b - f); [|eauto]. destruct (ends_in l f b Ef) as [I1 I2].
    pose proof (occ_len x t len l Hd Y2) as Y4. pose proof Y4 as Y5. rewrite Forall_forall in Y5. pose proof (Y5 f I1). pose proof (Y5 b I2).
    rewrite (nth_error_nth' dead false) by lia. cbn [obind]. rewrite (nth_error_nth' dead false) by lia. cbn [obind].
    destruct (_ || _)%bool; [eauto|].
    destruct (pick_ok n dead len HD ltac:(lia) l 0 Y4) as (sel & oth & E & S1 & S2 & S3 & S4).
    rewrite E. cbn [obind].
    destruct (min_shorter_ok n dead len HD ltac:(lia) l 1 Y4) as (k & K1 & K2). rewrite K1. cbn [obind].
    destruct (readd_ok bins x t len k) as (bins' & R1 & R2 & R3 & R4); auto. rewrite R1. cbn [obind].
    assert (S'' : sched len rest bins' bp' done').
    { destruct R4 as [->|(R5 & R6 & p & R7 & R8)]; auto. apply (sched_push len rest bins bp' done' x t k p); auto. }
    destruct (Nat.leb_spec 2 (length sel)) as [L3|L3]; [|eauto].
    destruct (emit_ok x t len dead d ns l sel G3 Hx) as (dead' & d' & ns' & M1 & M2); auto. rewrite M1. cbn [obind]. eauto.
  Qed.
  Lemma stinv_down len st : mn <= Datatypes.S len -> stinv (Datatypes.S len) [] st -> stinv len (nth len (fst (fst (fst (fst st)))) []) st.
  Proof.
    intros Hm [S (done & D)]. split; [apply sound_down; auto|]. exists done. destruct D. constructor; auto.
    - intros j y t p Hy Hj. apply (s_low0 j y t p); auto.
    - intros y t p Hy. apply (s_low0 len y t p); auto.
    - intros y t Hy Hd Hf. destruct (s_pend0 y t Hy Hd Hf) as [[H1 H2]|[_ []]].
      destruct (Nat.eq_dec (td_depth t) len) as [<-|]; [right; auto|left; split; auto; lia].
    - intros y t Hy Hd. pose proof (s_deep0 y t Hy Hd). lia.
  Qed.

  Definition filled (bins : bins_t) : Prop :=
    forall b x, In x (nth b bins []) -> 0 < b /\ exists t, nth_error T x = Some t /\ b = td_depth t.
  Lemma st_fill_ok order : Forall (fun x => exists t, nth_error T x = Some t /\ td_depth t < 400) order ->
    forall bins, filled bins -> length bins = 200 \/ length bins = 400 ->
    exists bins', st_fill T order bins = Some bins' /\ filled bins' /\ (length bins' = 200 \/ length bins' = 400) /\
      (forall b x, In x (nth b bins []) -> In x (nth b bins' [])) /\
      forall x t, In x order -> nth_error T x = Some t -> 0 < td_depth t -> In x (nth (td_depth t) bins' []).
  Proof.
    induction 1 as [|x order (t & Et & Ht) Ho IH]; intros bins F L; cbn [st_fill].
    { exists bins. split; auto. split; auto. split; auto. split; auto. intros x t []. }
    rewrite Et. cbn [obind].
    assert (A : (length (grow_once bins (td_depth t)) = 200 \/ length (grow_once bins (td_depth t)) = 400) /\
      td_depth t < length (grow_once bins (td_depth t)) /\ forall b, nth b (grow_once bins (td_depth t)) [] = nth b bins []).
    { unfold grow_once. destruct (Nat.leb_spec (length bins) (td_depth t)) as [L1|L1].
      - rewrite app_length, repeat_length. split; [lia|]. split; [lia|]. intros b. apply nth_grow.
      - auto. }
    destruct A as (A1 & A2 & A3). set (b1 := grow_once bins (td_depth t)) in *. clearbody b1.
    assert (F1 : filled b1) by (intros b y Hy; rewrite A3 in Hy; auto).
    assert (B : exists b2, (if 0 <? td_depth t then bucket_push b1 (td_depth t) x else Some b1) = Some b2 /\ filled b2 /\ length b2 = length b1 /\
      (forall b y, In y (nth b b1 []) -> In y (nth b b2 [])) /\ (0 < td_depth t -> In x (nth (td_depth t) b2 []))).
    { destruct (Nat.ltb_spec 0 (td_depth t)) as [L0|L0].
      - unfold bucket_push. rewrite (nth_error_nth' b1 []) by auto. cbn [obind]. eexists. split; [reflexivity|].
        split; [|split; [apply upd_length|split]].
        + intros b y Hy. destruct (Nat.eq_dec (td_depth t) b) as [<-|Hne].
          * rewrite nth_upd_eq in Hy by auto. apply in_app_or in Hy. destruct Hy as [Hy|[<-|[]]]; auto. split; eauto.
          * rewrite nth_upd_ne in Hy by auto. auto.
        + intros b y Hy. destruct (Nat.eq_dec (td_depth t) b) as [<-|Hne].
          * rewrite nth_upd_eq by auto. apply in_or_app; auto.
          * rewrite nth_upd_ne by auto. auto.
        + intros _. rewrite nth_upd_eq by auto. apply in_or_app. right. left; auto.
      - exists b1. split; auto. split; auto. split; auto. split; auto. lia. }
    destruct B as (b2 & B1 & B2 & B3 & B4 & B5). rewrite B1. cbn [obind].
    destruct (IH b2 B2) as (b3 & C1 & C2 & C3 & C4 & C5); [lia|]. exists b3. split; auto. split; auto. split; auto. split.
    - intros b y Hy. apply C4, B4. rewrite A3. auto.
    - intros y u [<-|Hy] Hu Hd; [|eauto]. rewrite Et in Hu. apply Some_inj in Hu. subst u. apply C4, B5. auto.
  Qed.

  Lemma st_ok order : traversal T order -> Forall (fun t => td_depth t < 400) T ->
    exists d ns, st_rules T mn order n = Some (d, ns) /\ valid d ns.
  Proof.
    intros P H4. unfold st_rules. rewrite Forall_forall in H4.
    destruct (st_fill_ok order) with (bins := bins0) as (bins & E & F & L & _ & C).
    - apply Forall_forall. intros x Hx. apply (Permutation_in _ P), in_seq in Hx.
      destruct (nth_error T x) as [t|] eqn:Et; [|apply nth_error_None in Et; lia]. exists t. split; auto.
      apply H4. apply nth_error_In in Et. auto.
    - intros b x Hx. unfold bins0 in Hx. rewrite nth_repeat in Hx. destruct Hx.
    - left. apply repeat_length.
    - rewrite E. cbn [obind].
      assert (G : good_bins bins).
      { intros b x Hx. destruct (F b x Hx) as (_ & t & Ht & Hb). exists t. split; auto. lia. }
      assert (In_order : forall x t, nth_error T x = Some t -> In x order).
      { intros x t Hx. apply (Permutation_in _ (Permutation_sym P)), in_seq. split; [lia|]. apply nth_error_Some. congruence. }
      assert (Dl : forall x t, nth_error T x = Some t -> 0 < td_depth t -> td_depth t < length bins).
      { intros x t Hx Hd. destruct (le_lt_dec (length bins) (td_depth t)) as [Lb|]; auto.
        pose proof (C x t (In_order x t Hx) Hx Hd) as Hin. rewrite nth_overflow in Hin by auto. destruct Hin. }
      destruct (run_levels_ok (st_step T mn) stinv) with (len := length bins - 1) (st := (bins, repeat (@None (list nat)) (length T), repeat false n, @nil rule, @nil nts))
        as (st & len' & rest' & R & S').
      + intros. apply st_step_ok; auto.
      + exact stinv_down.
      + intros len rest st [S' _]. apply (sound_len len rest st S').
      + split; [apply sound0; auto; cbn [fst]; lia|]. exists (fun _ => false). cbn [fst snd]. constructor; try discriminate.
        * intros j y t p Hy Hj Ht Hp. destruct (F j y Hy) as (F0 & u & Hu & ->). rewrite Ht in Hu. apply Some_inj in Hu. subst u.
          destruct (HW y t Ht) as (_ & _ & Hq & _). destruct (Hq F0) as (q & Q1 & Q2). congruence.
        * intros y t p Hy Ht Hp. destruct (F _ y Hy) as (F0 & u & Hu & Hb). rewrite Ht in Hu. apply Some_inj in Hu. subst u.
          destruct (HW y t Ht) as (_ & _ & Hq & _). destruct Hq as (q & Q1 & Q2); [lia|]. replace p with q by congruence. lia.
        * intros y t Hy Hd _. pose proof (Dl y t Hy Hd). pose proof (C y t (In_order y t Hy) Hy Hd) as Hin.
          destruct (Nat.eq_dec (td_depth t) (length bins - 1)) as [<-|]; [right; auto|left; split; auto; lia].
        * intros y t Hy _. rewrite nth_error_repeat; auto. apply nth_error_Some. congruence.
      + rewrite R. destruct S' as [S' _]. apply (sound_finish len' rest'); auto.
  Qed.
End Tree.

(** the bins are only doubled once *)
Lemma st_fill_none T pre x post t : forall bins, 1 <= length bins ->
  Forall (fun y => exists u, nth_error T y = Some u /\ td_depth u < length bins) pre ->
  nth_error T x = Some t -> 2 * length bins <= td_depth t -> st_fill T (pre ++ x :: post) bins = None.
Proof.
  induction pre as [|y pre IH]; intros bins H1 Hp Ht Hd; cbn [app st_fill].
  - rewrite Ht. cbn [obind]. assert (L : length (grow_once bins (td_depth t)) <= td_depth t).
    { unfold grow_once. destruct (Nat.leb_spec (length bins) (td_depth t)); [rewrite app_length, repeat_length; lia|lia]. }
    replace (0 <? td_depth t) with true by lia.
    unfold bucket_push. rewrite (proj2 (nth_error_None _ _)) by auto. auto.
  - inversion Hp as [|? ? (u & U1 & U2) Hp']; subst. rewrite U1. cbn [obind].
    unfold grow_once. replace (length bins <=? td_depth u) with false by lia.
    destruct (0 <? td_depth u).
    + unfold bucket_push. rewrite (nth_error_nth' bins []) by auto. cbn [obind]. apply IH; auto.
      * rewrite upd_length. auto.
      * revert Hp'. apply Forall_impl. intros z. rewrite upd_length. auto.
      * rewrite upd_length. auto.
    + cbn [obind]. apply IH; auto.
Qed.
(** min_lrf = 0 *)
Lemma run_levels_zero step : forall len (st : bins_t * list (option (list nat)) * list bool * list rule * list nts),
  run_levels step 0 len st = None.
Proof.
  intros len. induction len as [|len IH]; intros st; cbn [run_levels]; change (_ <? 0) with false; cbv iota;
    (destruct (nth_error _ _); [|reflexivity]); cbn [obind]; destruct (run_nodes _ _ _ _) as [st'|]; auto. apply IH.
Qed.
