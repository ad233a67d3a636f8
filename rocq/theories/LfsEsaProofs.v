(** Proofs about the rules found by the ESA strategy of LFS. *)
From Coq Require Import Sorted.
From Verif Require Import Base Strategies SASpec StrategySpec SACompProofs HuffmanProofs Lfs LfsSpec.
Local Open Scope nat_scope.

Lemma lcp_len_firstn k : forall a b, k <= lcp_len a b -> firstn k a = firstn k b /\ k <= length a /\ k <= length b.
Proof.
  induction k as [|k IH]; intros a b H; [cbn; split; auto; lia|].
  destruct a as [|x a], b as [|y b]; cbn [lcp_len] in H; try lia.
  destruct (x =? y)%N eqn:E; [|lia]. apply N.eqb_eq in E. subst y.
  destruct (IH a b) as (H1 & H2 & H3); [lia|]. cbn [firstn length]. rewrite H1. split; auto; lia.
Qed.

Lemma mark_spec l : forall m p, p + l <= length m -> exists m', mark m p l = Some m' /\ length m' = length m /\
  forall x, x < length m -> nth x m' false = (((p <=? x) && (x <? p + l)) || nth x m false)%bool.
Proof.
  induction l as [|l IH]; intros m p H; cbn [mark].
  - exists m. split; auto. split; auto. intros x Hx.
    replace ((p <=? x) && (x <? p + 0))%bool with false by lia. auto.
  - replace (p <? length m) with true by lia.
    destruct (IH (upd m p true) (p + 1)) as (m' & E1 & E2 & E3); [rewrite upd_length; lia|].
    rewrite upd_length in E2, E3. exists m'. split; auto. split; auto. intros x Hx. rewrite E3 by auto.
    destruct (Nat.eq_dec p x) as [->|Hne].
    + rewrite nth_upd_eq by auto. rewrite orb_true_r. lia.
    + rewrite nth_upd_ne by auto. f_equal. lia.
Qed.

(** occurrences selected greedily keep their distance *)
Lemma greedy_in len l : forall free x, In x (greedy len free l) -> In x l /\ free <= x.
Proof.
  induction l as [|c l IH]; intros free x H; cbn [greedy] in H; [destruct H|].
  destruct (Nat.leb_spec free c).
  - destruct H as [<-|H]; [split; auto; left; auto|]. apply IH in H. split; [right; tauto|lia].
  - apply IH in H. split; [right; tauto|lia].
Qed.
Lemma greedy_spaced len l : forall free, ForallOrdPairs (fun a b => a + len <= b) (greedy len free l).
Proof.
  induction l as [|c l IH]; intros free; cbn [greedy]; [constructor|].
  destruct (free <=? c); auto. constructor; auto. apply Forall_forall. intros x Hx. apply greedy_in in Hx. lia.
Qed.
Lemma ins_perm x l : Permutation (x :: l) (ins x l).
Proof.
  induction l as [|y l IH]; cbn [ins]; auto. destruct (x <=? y); auto.
  rewrite perm_swap. constructor. auto.
Qed.
Lemma isort_perm l : Permutation l (isort l).
Proof. induction l as [|x l IH]; cbn [isort]; auto. rewrite <- ins_perm. constructor. auto. Qed.

Section Text.
  Context (text : list N) (mn tw : nat).
  Let n := length text.

  Definition cov (u : nts) (x : nat) : Prop := fst (fst u) <= x < fst (fst u) + snd u.
  Definition apart (u v : nts) : Prop := forall x, ~ (cov u x /\ cov v x).
  Definition use_ok (d : list rule) (u : nts) : Prop :=
    fst (fst u) + snd u <= n /\
    exists p, nth_error d (snd (fst u)) = Some (p, snd u) /\ piece text p (snd u) = piece text (fst (fst u)) (snd u).
  Definition count (sym : nat) (ns : list nts) : nat := length (filter (fun u => snd (fst u) =? sym) ns).

  (** the state between two rules; every rule so far has length at least [cur] *)
  Record inv (cur : nat) (dead : list bool) (d : list rule) (ns : list nts) : Prop := {
    i_len : length dead = n;
    i_dead : forall x, x < n -> nth x dead false = true <-> exists u, In u ns /\ cov u x;
    i_cur : Forall (fun u : nts => cur <= snd u) ns;
    i_apart : ForallOrdPairs apart ns;
    i_use : Forall (use_ok d) ns;
    i_rule : Forall (fun r : rule => 1 <= snd r /\ fst r + snd r <= n) d;
    i_ord : ForallOrdPairs (fun a b : rule => snd b <= snd a) d;
    i_dcur : Forall (fun r : rule => cur <= snd r /\ mn <= snd r) d;
    i_few : length d <= length ns;
    i_twice : forall sym, sym < length d -> tw <= count sym ns }.

  Lemma inv_weaken cur cur' dead d ns : cur' <= cur -> inv cur dead d ns -> inv cur' dead d ns.
  Proof.
    intros H I. destruct I. constructor; auto.
    - revert i_cur0. apply Forall_impl. intros; lia.
    - revert i_dcur0. apply Forall_impl. intros; lia.
  Qed.

  Lemma fop_app {A} (R : A -> A -> Prop) l1 l2 : ForallOrdPairs R l1 -> ForallOrdPairs R l2 ->
    (forall x y, In x l1 -> In y l2 -> R x y) -> ForallOrdPairs R (l1 ++ l2).
  Proof.
    induction 1 as [|a l1 Ha H1 IH]; intros H2 H; cbn [app]; auto. constructor.
    - apply Forall_app. split; auto. apply Forall_forall. intros y Hy. apply H; auto. left; auto.
    - apply IH; auto. intros; apply H; auto. right; auto.
  Qed.
  Lemma fop_map {A B} (f : A -> B) (R : A -> A -> Prop) (S : B -> B -> Prop) l :
    (forall x y, R x y -> S (f x) (f y)) -> ForallOrdPairs R l -> ForallOrdPairs S (map f l).
  Proof.
    intros H. induction 1 as [|a l Ha Hl IH]; cbn [map]; constructor; auto.
    apply Forall_forall. intros y Hy. apply in_map_iff in Hy. destruct Hy as (z & <- & Hz).
    apply H. rewrite Forall_forall in Ha. auto.
  Qed.

  Lemma mark_all_ok len sel : forall dead, length dead = n -> Forall (fun p => p + len <= n) sel ->
    exists dead', mark_all dead len sel = Some dead' /\ length dead' = n /\
      forall x, x < n -> nth x dead' false = true <-> nth x dead false = true \/ exists p, In p sel /\ p <= x < p + len.
  Proof.
    induction sel as [|p sel IH]; intros dead Hl Hs; cbn [mark_all].
    - exists dead. split; auto. split; auto. intros x Hx. split; auto. intros [?|(p & [] & _)]; auto.
    - inversion Hs as [|? ? H1 H2]; subst.
      destruct (mark_spec len dead p) as (m & E1 & E2 & E3); [lia|]. rewrite E1. cbn [obind].
      destruct (IH m) as (dead' & F1 & F2 & F3); auto; [lia|]. exists dead'. split; auto. split; auto.
      intros x Hx. rewrite F3, E3 by lia. split.
      + intros [H|(q & Hq & H)].
        * apply orb_true_iff in H. destruct H as [H|H]; auto. right. exists p. split; [left; auto|lia].
        * right. exists q. split; auto. right; auto.
      + intros [H|(q & [<-|Hq] & H)].
        * left. rewrite H. apply orb_true_r.
        * left. apply orb_true_iff. left. lia.
        * right. exists q. auto.
  Qed.

  Lemma count_app sym a b : count sym (a ++ b) = count sym a + count sym b.
  Proof. unfold count. rewrite filter_app, app_length. auto. Qed.
  Lemma count_new k sel len : count k (map (fun p => (p, k, len)) sel) = length sel.
  Proof.
    unfold count. induction sel as [|p sel IH]; auto. cbn [map filter fst snd]. rewrite Nat.eqb_refl. cbn [length]. auto.
  Qed.

  Lemma add_rule cur dead d ns len off sel : inv cur dead d ns -> 1 <= len <= cur -> mn <= len -> off + len <= n ->
    Forall (fun p => p + len <= n /\ piece text off len = piece text p len /\
                     nth p dead false = false /\ nth (p + len - 1) dead false = false) sel ->
    ForallOrdPairs (fun a b => a + len <= b) sel -> 1 <= length sel -> tw <= length sel ->
    exists dead', mark_all dead len sel = Some dead' /\
      inv len dead' (d ++ [(off, len)]) (ns ++ map (fun p => (p, length d, len)) sel).
  Proof.
    intros I Hlen Hmn Hoff Hsel Hsp H2 Htw. destruct I.
    destruct (mark_all_ok len sel dead i_len0) as (dead' & E1 & E2 & E3).
    { revert Hsel. apply Forall_impl. tauto. }
    exists dead'. split; auto. rewrite Forall_forall in Hsel.
    assert (Hnew : forall u, In u (map (fun p => (p, length d, len)) sel) -> exists p, In p sel /\ u = (p, length d, len)).
    { intros u Hu. apply in_map_iff in Hu. destruct Hu as (p & <- & Hp). eauto. }
    constructor; auto.
    - intros x Hx. rewrite E3, i_dead0 by auto. split.
      + intros [(u & Hu & Hc)|(p & Hp & Hc)].
        * exists u. split; auto. apply in_or_app; auto.
        * exists (p, length d, len). split; [apply in_or_app; right; apply in_map_iff; eauto|exact Hc].
      + intros (u & Hu & Hc). apply in_app_or in Hu. destruct Hu as [Hu|Hu].
        * left. eauto.
        * right. apply Hnew in Hu. destruct Hu as (p & Hp & ->). exists p. split; auto.
    - apply Forall_app. split.
      + revert i_cur0. apply Forall_impl. intros; lia.
      + apply Forall_forall. intros u Hu. apply Hnew in Hu. destruct Hu as (p & _ & ->). cbn; lia.
    - apply fop_app; auto.
      + apply (fop_map _ (fun a b => a + len <= b)); auto. intros a b H x. unfold cov. cbn. lia.
      + intros u v Hu Hv x [C1 C2]. apply Hnew in Hv. destruct Hv as (p & Hp & ->). unfold cov in C1, C2; cbn [fst snd] in C1, C2.
        destruct (Hsel p Hp) as (S1 & S2 & S3 & S4).
        rewrite Forall_forall in i_cur0. pose proof (i_cur0 u Hu) as Hcu. cbn in Hcu.
        destruct (le_lt_dec (fst (fst u)) p) as [L|L].
        * assert (X : nth p dead false = true) by (apply i_dead0; [lia|]; exists u; split; auto; unfold cov; lia). congruence.
        * assert (X : nth (p + len - 1) dead false = true) by (apply i_dead0; [lia|]; exists u; split; auto; unfold cov; lia). congruence.
    - apply Forall_app. split.
      + revert i_use0. apply Forall_impl. intros u (U1 & p & U2 & U3). split; auto. exists p. split; auto.
        rewrite nth_error_app1; auto. apply nth_error_Some. congruence.
      + apply Forall_forall. intros u Hu. apply Hnew in Hu. destruct Hu as (p & Hp & ->).
        destruct (Hsel p Hp) as (S1 & S2 & _). split; [exact S1|]. exists off. cbn [fst snd].
        split; auto. rewrite nth_error_app2 by lia. rewrite Nat.sub_diag. auto.
    - apply Forall_app. split; auto. constructor; auto. cbn. lia.
    - apply fop_app; auto.
      + constructor; constructor.
      + intros x y Hx [<-|[]]. rewrite Forall_forall in i_dcur0. apply i_dcur0 in Hx. cbn. lia.
    - apply Forall_app. split.
      + revert i_dcur0. apply Forall_impl. intros; lia.
      + constructor; [cbn; lia|constructor].
    - rewrite !app_length, map_length. cbn. lia.
    - intros sym Hs. rewrite app_length in Hs. cbn in Hs. rewrite count_app.
      destruct (Nat.eq_dec sym (length d)) as [->|]; [rewrite count_new; lia|].
      specialize (i_twice0 sym ltac:(lia)). lia.
  Qed.

  (** ** the final sort *)
  Lemma nts_ins_perm x l : Permutation (x :: l) (nts_ins x l).
  Proof.
    induction l as [|y l IH]; cbn [nts_ins]; auto. destruct (_ <=? _); auto.
    rewrite perm_swap. constructor. auto.
  Qed.
  Lemma nts_sort_perm l : Permutation l (nts_sort l).
  Proof. induction l as [|x l IH]; cbn [nts_sort]; auto. rewrite <- nts_ins_perm. constructor. auto. Qed.
  Definition before_eq (a b : nts) : Prop := fst (fst a) <= fst (fst b).
  Lemma nts_ins_sorted x l : StronglySorted before_eq l -> StronglySorted before_eq (nts_ins x l).
  Proof.
    induction 1 as [|y l Hl IH Hy]; cbn [nts_ins]; [repeat constructor|].
    destruct (Nat.leb_spec (fst (fst x)) (fst (fst y))).
    - constructor; [constructor; auto|]. constructor; auto. revert Hy. apply Forall_impl. unfold before_eq. intros; lia.
    - constructor; auto. apply Forall_forall. intros z Hz.
      apply (Permutation_in _ (Permutation_sym (nts_ins_perm x l))) in Hz.
      destruct Hz as [<-|Hz]; [unfold before_eq; lia|]. rewrite Forall_forall in Hy. auto.
  Qed.
  Lemma nts_sort_sorted l : StronglySorted before_eq (nts_sort l).
  Proof. induction l; cbn [nts_sort]; [constructor|]. apply nts_ins_sorted; auto. Qed.

  Lemma apart_sym u v : apart u v -> apart v u.
  Proof. unfold apart. intros H x [A B]. apply (H x). auto. Qed.
  Lemma fop_perm {A} (R : A -> A -> Prop) (Hs : forall x y, R x y -> R y x) l l' :
    Permutation l l' -> ForallOrdPairs R l -> ForallOrdPairs R l'.
  Proof.
    induction 1 as [|x l l' P IH|x y l|l l' l'' P1 IH1 P2 IH2]; intros H; auto.
    - inversion H; subst. constructor; auto. rewrite <- P. auto.
    - inversion H as [|? ? H1 H2]; subst. inversion H1; subst. inversion H2; subst.
      constructor; [constructor; auto|constructor; auto].
  Qed.
  Lemma sorted_uses d : forall ns pos, StronglySorted before_eq ns -> ForallOrdPairs apart ns ->
    Forall (use_ok d) ns -> Forall (fun u : nts => 1 <= snd u) ns -> Forall (fun u : nts => pos <= fst (fst u)) ns ->
    uses_ok text d pos ns.
  Proof.
    induction ns as [|[[st sym] l] ns IH]; intros pos Hs Ha Hu Hl Hp; cbn [uses_ok]; auto.
    inversion Hs as [|? ? S1 S2]; subst. inversion Ha as [|? ? A1 A2]; subst. inversion Hu as [|? ? U1 U2]; subst.
    inversion Hl as [|? ? L1 L2]; subst. inversion Hp as [|? ? P1 P2]; subst. cbn [fst snd] in *.
    destruct U1 as [U3 (p & U4 & U5)]. cbn [fst snd] in *. split; auto. split; auto. split; [eauto|].
    apply IH; auto. apply Forall_forall. intros u Hin. rewrite Forall_forall in A1, S2, L2.
    specialize (A1 u Hin). specialize (S2 u Hin). specialize (L2 u Hin). unfold before_eq in S2; cbn [fst snd] in S2.
    destruct (le_lt_dec (st + l) (fst (fst u))) as [|Lt]; auto. exfalso. apply (A1 (fst (fst u))).
    unfold cov; cbn [fst snd]. lia.
  Qed.
  Lemma inv_few cur dead d ns : 1 <= cur -> inv cur dead d ns -> length ns <= n.
  Proof.
    intros Hc I. destruct I. rewrite <- (map_length (fun u : nts => fst (fst u))).
    apply nodup_bound.
    - clear - i_apart0 i_cur0 Hc. induction i_apart0 as [|u ns Hu Hns IH]; cbn [map]; constructor.
      + inversion i_cur0 as [|? ? C1 C2]; subst. intros Hin. apply in_map_iff in Hin. destruct Hin as (v & E & Hv).
        rewrite Forall_forall in Hu, C2. apply (Hu v Hv (fst (fst u))). specialize (C2 v Hv). cbn in C2. unfold cov. lia.
      + inversion i_cur0; subst. auto.
    - intros x Hx. apply in_map_iff in Hx. destruct Hx as (u & <- & Hu).
      rewrite Forall_forall in i_use0, i_cur0. specialize (i_cur0 u Hu). destruct (i_use0 u Hu) as [U1 _]. cbn in i_cur0. lia.
  Qed.

  Lemma inv_final cur dead d ns : 1 <= cur -> inv cur dead d ns ->
    rules_ok text d /\ uses_ok text d 0 (nts_sort ns) /\ length d <= n /\ Forall (fun r : rule => mn <= snd r) d /\
    forall sym, sym < length d -> tw <= count sym (nts_sort ns).
  Proof.
    intros Hm I1. pose proof (nts_sort_perm ns) as P. pose proof (inv_few _ _ _ _ Hm I1) as Hf. destruct I1.
    split; [split; auto|]. split.
    { apply sorted_uses.
      - apply nts_sort_sorted.
      - apply (fop_perm _ apart_sym ns); auto.
      - rewrite <- P. auto.
      - rewrite <- P. revert i_cur0. apply Forall_impl. intros a Ha. lia.
      - apply Forall_forall. intros; lia. }
    split; [lia|]. split; [revert i_dcur0; apply Forall_impl; tauto|].
    intros sym H. specialize (i_twice0 sym H). unfold count in *.
    assert (PF : Permutation (filter (fun u : nts => snd (fst u) =? sym) ns) (filter (fun u : nts => snd (fst u) =? sym) (nts_sort ns))).
    { clear - P. induction P as [|x a b P IH|x y a|a b c P1 IH1 P2 IH2]; cbn [filter]; auto.
      - destruct (_ =? _); auto.
      - destruct (snd (fst y) =? sym), (snd (fst x) =? sym); auto. apply perm_swap.
      - eapply Permutation_trans; eauto. }
    rewrite <- (Permutation_length PF). auto.
  Qed.
  Lemma inv_init cur : inv cur (repeat false n) [] [].
  Proof.
    constructor; auto; try constructor.
    - apply repeat_length.
    - intros Hx. rewrite nth_repeat in Hx. discriminate.
    - intros (u & [] & _).
    - intros; cbn in *; lia.
  Qed.
End Text.

(** ** the suffix array *)
Section Esa.
  Context (text : list N).
  Let n := length text.
  Notation inv := (inv text 2 2).
  Context (sa lcp : list nat).
  Hypothesis Hs : is_sa text sa.
  Hypothesis Hll : length lcp = n.
  Hypothesis H0 : n = 0 \/ nth_error lcp 0 = Some 0.
  Hypothesis HL : forall i, 1 <= i < n -> nth_error lcp i = Some (lcp_at text (nth (i - 1) sa 0) (nth i sa 0)).

  Lemma sa_at i : i < n -> nth_error sa i = Some (nth i sa 0).
  Proof. intros H. apply nth_error_nth'. destruct Hs as [P _]. rewrite (Permutation_length P), seq_length. exact H. Qed.
  Lemma sa_lt i : i < n -> nth i sa 0 < n.
  Proof.
    intros H. destruct Hs as [P _]. assert (X : In (nth i sa 0) sa).
    { apply nth_In. rewrite (Permutation_length P), seq_length. exact H. }
    apply (Permutation_in _ P), in_seq in X. fold n in X. lia.
  Qed.
  Lemma lcp_at_i i : i < n -> nth_error lcp i = Some (nth i lcp 0).
  Proof. intros H. apply nth_error_nth'. lia. Qed.
  Lemma adj i len : i < n -> 1 <= len <= nth i lcp 0 ->
    exists i', i = S i' /\ piece text (nth i' sa 0) len = piece text (nth i sa 0) len /\
      nth i' sa 0 + len <= n /\ nth i sa 0 + len <= n.
  Proof.
    intros Hi Hlen. destruct i as [|i'].
    { destruct H0 as [|H0']; [lia|]. rewrite lcp_at_i in H0' by auto. injection H0' as H0'. lia. }
    exists i'. split; auto. pose proof (HL (S i') ltac:(lia)) as E. rewrite lcp_at_i in E by auto.
    apply Some_inj in E. replace (S i' - 1) with i' in E by lia.
    unfold lcp_at in E. destruct (lcp_len_firstn len (suffix text (nth i' sa 0)) (suffix text (nth (S i') sa 0))) as (E1 & E2 & E3); [lia|].
    unfold suffix in E2, E3. rewrite skipn_length in E2, E3. fold n in E2, E3. pose proof (sa_lt i' ltac:(lia)). pose proof (sa_lt (S i') Hi).
    split; [exact E1|]. lia.
  Qed.

  Lemma alive_ok dead p len : length dead = n -> 1 <= len -> p + len <= n ->
    exists b, alive dead p len = Some b /\
      (b = true -> nth p dead false = false /\ nth (p + len - 1) dead false = false).
  Proof.
    intros Hd Hl Hp. unfold alive. rewrite (nth_error_nth' dead false) by lia. cbn [obind].
    destruct (nth p dead false); [eexists; split; [reflexivity|discriminate]|].
    rewrite (nth_error_nth' dead false) by lia. cbn [obind]. eexists. split; [reflexivity|].
    intros H. split; auto. destruct (nth (p + len - 1) dead false); auto; discriminate.
  Qed.
  Lemma shorter_ok dead p len : length dead = n -> p + len <= n -> nth (p + len - 1) dead false = true ->
    forall k, 1 <= k <= len -> exists k', shorter dead p len k = Some k' /\ 1 <= k' <= len.
  Proof.
    intros Hd Hp He. induction k as [|k IH]; intros Hk; [lia|]. cbn [shorter].
    rewrite (nth_error_nth' dead false) by lia. cbn [obind].
    destruct (nth (p + len - S k) dead false) eqn:E; [exists (S k); split; auto; lia|].
    destruct k as [|k]; [congruence|]. apply IH. lia.
  Qed.
  Lemma shorter_step_ok dead p len k : length dead = n -> p + len <= n -> 1 <= k <= len ->
    exists k', shorter_step dead p len k = Some k' /\ 1 <= k' <= len.
  Proof.
    intros Hd Hp Hk. unfold shorter_step. rewrite (nth_error_nth' dead false) by lia. cbn [obind].
    destruct (nth p dead false); [eauto|]. rewrite (nth_error_nth' dead false) by lia. cbn [obind].
    destruct (nth (p + len - 1) dead false) eqn:E; [|eauto]. apply shorter_ok; auto.
  Qed.

  Definition cand (dead : list bool) (len : nat) (w : list N) (p : nat) : Prop :=
    p + len <= n /\ w = piece text p len /\ nth p dead false = false /\ nth (p + len - 1) dead false = false.

  Lemma collect_down_ok dead len w : length dead = n -> 1 <= len ->
    forall i k, i < n -> 1 <= k <= len -> piece text (nth i sa 0) len = w ->
    exists ps k', collect_down sa lcp dead len i k = Some (ps, k') /\ 1 <= k' <= len /\ Forall (cand dead len w) ps.
  Proof.
    intros Hd Hlen. induction i as [|i IH]; intros k Hi Hk Hw; cbn [collect_down]; rewrite lcp_at_i by auto; cbn [obind].
    - destruct (Nat.ltb_spec (nth 0 lcp 0) len); [exists [], k; repeat split; auto; lia|].
      destruct (adj 0 len Hi) as (i' & E & _); [lia|discriminate].
    - destruct (Nat.ltb_spec (nth (S i) lcp 0) len); [exists [], k; repeat split; auto; lia|].
      destruct (adj (S i) len Hi) as (i' & E & E1 & E2 & E3); [lia|]. injection E as <-.
      rewrite sa_at by lia. cbn [obind].
      destruct (alive_ok dead (nth i sa 0) len) as (b & B1 & B2); auto. rewrite B1. cbn [obind].
      destruct (shorter_step_ok dead (nth i sa 0) len k) as (k1 & K1 & K2); auto. rewrite K1. cbn [obind].
      destruct (IH k1) as (ps & k' & F1 & F2 & F3); auto; try lia; [congruence|]. rewrite F1. cbn [obind].
      eexists _, k'. split; [reflexivity|]. split; auto. apply Forall_app. split; auto.
      destruct b; constructor; auto. destruct (B2 eq_refl). split; auto. split; [congruence|auto].
  Qed.
  Lemma collect_up_ok dead len w : length dead = n -> 1 <= len ->
    forall m i k, i + m = n -> 1 <= i -> 1 <= k <= len -> piece text (nth (i - 1) sa 0) len = w ->
    exists ps k', collect_up sa lcp dead len i m k = Some (ps, k') /\ 1 <= k' <= len /\ Forall (cand dead len w) ps.
  Proof.
    intros Hd Hlen. induction m as [|m IH]; intros i k Hi Hi1 Hk Hw; cbn [collect_up].
    - exists [], k. repeat split; auto; lia.
    - rewrite lcp_at_i by lia. cbn [obind].
      destruct (Nat.ltb_spec (nth i lcp 0) len); [exists [], k; repeat split; auto; lia|].
      destruct (adj i len) as (i' & E & E1 & E2 & E3); try lia. subst i. replace (S i' - 1) with i' in Hw by lia.
      rewrite sa_at by lia. cbn [obind].
      destruct (alive_ok dead (nth (S i') sa 0) len) as (b & B1 & B2); auto. rewrite B1. cbn [obind].
      destruct (shorter_step_ok dead (nth (S i') sa 0) len k) as (k1 & K1 & K2); auto. rewrite K1. cbn [obind].
      destruct (IH (S i' + 1) k1) as (ps & k' & F1 & F2 & F3); auto; try lia.
      { replace (S i' + 1 - 1) with (S i') by lia. congruence. }
      rewrite F1. cbn [obind].
      eexists _, k'. split; [reflexivity|]. split; auto. apply Forall_app. split; auto.
      destruct b; constructor; auto. destruct (B2 eq_refl). split; auto. split; [congruence|auto].
  Qed.

  Lemma run_bin_ok len bin : forall cur dead d ns, 2 <= len <= cur -> inv cur dead d ns ->
    Forall (fun i => 1 <= i < n /\ len <= nth i lcp 0) bin ->
    exists dead' d' ns', run_bin sa lcp len bin (dead, d, ns) = Some (dead', d', ns') /\ inv len dead' d' ns'.
  Proof.
    induction bin as [|i bin IH]; intros cur dead d ns Hlen I Hb; cbn [run_bin].
    { exists dead, d, ns. split; auto. apply (inv_weaken text 2 2 cur); auto; lia. }
    inversion Hb as [|? ? [B1 B2] B3]; subst.
    destruct (adj i len) as (i' & E & E1 & E2 & E3); try lia. pose proof (i_len _ _ _ _ _ _ _ I) as Hd.
    destruct (collect_down_ok dead len (piece text (nth i sa 0) len) Hd ltac:(lia) i len) as (p1 & k1 & C1 & C2 & C3); auto; try lia.
    rewrite C1. cbn [obind].
    destruct (collect_up_ok dead len (piece text (nth i sa 0) len) Hd ltac:(lia) (length lcp - i) i k1) as (p2 & k2 & D1 & D2 & D3); auto; try lia.
    { subst i. replace (S i' - 1) with i' by lia. auto. }
    rewrite D1. cbn [obind].
    destruct ((2 <=? length (p1 ++ p2)) && (2 <=? length (select_positions len (p1 ++ p2))))%bool eqn:C; [|eapply IH; eauto].
    rewrite sa_at by lia. cbn [obind].
    destruct (add_rule text 2 2 cur dead d ns len (nth i sa 0) (select_positions len (p1 ++ p2)) I ltac:(lia) ltac:(lia) E3) as (dead' & M1 & M2).
    - apply Forall_forall. intros p Hp. unfold select_positions in Hp. apply greedy_in in Hp. destruct Hp as [Hp _].
      apply (Permutation_in _ (Permutation_sym (isort_perm _))) in Hp. apply in_app_or in Hp.
      rewrite Forall_forall in C3, D3. destruct Hp as [Hp|Hp]; [apply C3 in Hp|apply D3 in Hp]; exact Hp.
    - apply greedy_spaced.
    - lia.
    - lia.
    - rewrite M1. cbn [obind]. apply (IH len); auto. lia.
  Qed.

  Definition bins_ok (bins : list (list nat)) : Prop :=
    forall b i, b < length bins -> In i (nth b bins []) -> 1 <= i < n /\ b <= nth i lcp 0.
  Lemma run_bins_ok bins : bins_ok bins -> forall len cur dead d ns, len < length bins -> len <= cur -> inv cur dead d ns ->
    exists dead' d' ns', run_bins sa lcp bins len (dead, d, ns) = Some (dead', d', ns') /\ inv (Nat.min 2 cur) dead' d' ns'.
  Proof.
    intros HB. induction len as [|len IH]; intros cur dead d ns Hl Hc I.
    - exists dead, d, ns. split; auto. apply (inv_weaken text 2 2 cur); auto. lia.
    - destruct len as [|len'].
      + exists dead, d, ns. split; auto. apply (inv_weaken text 2 2 cur); auto. lia.
      + assert (U : forall st, run_bins sa lcp bins (S (S len')) st =
          do bin <- nth_error bins (S (S len')); do st <- run_bin sa lcp (S (S len')) bin st; run_bins sa lcp bins (S len') st) by reflexivity.
        rewrite U. clear U. rewrite (nth_error_nth' bins []) by lia. cbn [obind].
        destruct (run_bin_ok (S (S len')) (nth (S (S len')) bins []) cur dead d ns) as (dead1 & d1 & ns1 & E1 & I1); auto; try lia.
        { apply Forall_forall. intros i Hi. apply (HB _ _ Hl Hi). }
        rewrite E1. cbn [obind]. destruct (IH (S (S len')) dead1 d1 ns1) as (dead2 & d2 & ns2 & E2 & I2); auto; try lia.
        rewrite E2. exists dead2, d2, ns2. split; auto. revert I2. apply inv_weaken. lia.
  Qed.

  Lemma alt_dif_ok i fl : i < n -> forall j dif, j < n -> exists dif', alt_dif sa lcp i fl j dif = Some dif'.
  Proof.
    intros Hi. induction j as [|j IH]; intros dif Hj; cbn [alt_dif]; [eauto|].
    rewrite lcp_at_i by auto. cbn [obind]. destruct (fl <? _); eauto.
    rewrite !sa_at by lia. cbn [obind]. apply IH. lia.
  Qed.
  Lemma bins_push bins b i : bins_ok bins -> b < length bins -> 1 <= i < n -> b <= nth i lcp 0 ->
    exists bins', bucket_push bins b i = Some bins' /\ bins_ok bins' /\ length bins' = length bins.
  Proof.
    intros HB Hb Hi Hl. unfold bucket_push. rewrite (nth_error_nth' bins []) by auto. cbn [obind].
    eexists. split; [reflexivity|]. split; [|apply upd_length].
    intros c j Hc Hj. rewrite upd_length in Hc. destruct (Nat.eq_dec b c) as [->|Hne].
    - rewrite nth_upd_eq in Hj by auto. apply in_app_or in Hj. destruct Hj as [Hj|[<-|[]]]; auto.
    - rewrite nth_upd_ne in Hj by auto. auto.
  Qed.
  Lemma fill_bins_ok m : forall i mx bins, 1 <= i -> i + m = n \/ m = 0 -> bins_ok bins ->
    length bins = (if mx =? 0 then 0 else mx + 1) ->
    exists bins', fill_bins sa lcp i m mx bins = Some bins' /\ bins_ok bins'.
  Proof.
    induction m as [|m IH]; intros i mx bins Hi1 Hi HB Hlb; cbn [fill_bins]; [eauto|].
    rewrite lcp_at_i by lia. cbn [obind].
    destruct (Nat.ltb_spec (nth i lcp 0) 2) as [L|L]; [apply IH; auto; lia|].
    destruct i as [|i']; [lia|]. cbn [pred_of]. rewrite !sa_at by lia. cbn [obind].
    destruct (alt_dif_ok (S i') (Nat.min (nth (S i') lcp 0) (absdiff (nth i' sa 0) (nth (S i') sa 0))) ltac:(lia) (S i' - 1)
      (absdiff (nth i' sa 0) (nth (S i') sa 0)) ltac:(lia)) as (dif & E). rewrite E. cbn [obind].
    set (bins1 := bins ++ _).
    assert (L1 : length bins1 = Nat.max mx (nth (S i') lcp 0) + 1).
    { unfold bins1. rewrite app_length, repeat_length. destruct (Nat.ltb_spec mx (nth (S i') lcp 0)), (Nat.eqb_spec mx 0); lia. }
    assert (HB1 : bins_ok bins1).
    { intros b j Hb Hj. unfold bins1 in Hj. destruct (le_lt_dec (length bins) b) as [Lb|Lb].
      - rewrite app_nth2 in Hj by lia. rewrite nth_repeat in Hj. destruct Hj.
      - rewrite app_nth1 in Hj by lia. auto. }
    destruct (bins_push bins1 (Nat.min (nth (S i') lcp 0) dif) (S i')) as (bins2 & P1 & P2 & P3); auto; try lia.
    rewrite P1. cbn [obind]. apply IH; auto; try lia.
    rewrite P3, L1. destruct (Nat.eqb_spec (Nat.max mx (nth (S i') lcp 0)) 0); lia.
  Qed.

  Lemma esa_ok : exists d ns, esa_rules sa lcp n = Some (d, ns) /\ rules_ok text d /\ uses_ok text d 0 ns /\
    length d <= n /\ Forall (fun r : rule => 2 <= snd r) d /\ forall sym, sym < length d -> 2 <= count sym ns.
  Proof.
    unfold esa_rules. destruct (fill_bins_ok (length lcp - 1) 1 0 []) as (bins & E & HB); try lia; auto.
    { intros b i Hb. cbn in Hb. lia. }
    rewrite E. cbn [obind]. destruct (Nat.ltb_spec (length bins) 2) as [L|L].
    { exists [], []. split; auto. split; [split; constructor|]. split; [exact I|]. cbn. split; [lia|]. split; [constructor|]. intros; lia. }
    destruct (run_bins_ok bins HB (length bins - 1) (length bins - 1) (repeat false n) [] []) as (dead & d & ns & E1 & I1); try lia.
    { constructor; auto; try constructor.
      - apply repeat_length.
      - intros Hx. rewrite nth_repeat in Hx. discriminate.
      - intros (u & [] & _).
      - intros; cbn in *; lia. }
    rewrite E1. cbn [obind]. exists d, (nts_sort ns). split; auto.
    apply (inv_final text 2 2 (Nat.min 2 (length bins - 1)) dead); [lia|exact I1].
  Qed.
End Esa.
