(** Huffman: the tree construction of gen_codelengths. *)
From Coq Require Import Permutation Sorted.
From Verif Require Import Base Huffman HuffmanSpec.
Local Open Scope nat_scope.

Lemma hset_some {A} (a : list A) i x : i < length a -> hset a i x = Some (upd a i x).
Proof. intros H. unfold hset. destruct (Nat.ltb_spec i (length a)); [auto|lia]. Qed.

Lemma NoDup_app_remove_l {A} (a b : list A) : NoDup (a ++ b) -> NoDup b.
Proof. induction a; cbn; auto. intros H. inversion H; auto. Qed.
Lemma NoDup_app_remove_r {A} (a b : list A) : NoDup (a ++ b) -> NoDup a.
Proof.
  intros H. apply (NoDup_app_remove_l b a). eapply Permutation_NoDup; [apply Permutation_app_comm|auto].
Qed.

Inductive tree := Lf (i w : nat) | Nd (i : nat) (l r : tree).
Definition tid (t : tree) : nat := match t with Lf i _ => i | Nd i _ _ => i end.
Fixpoint wt (t : tree) : nat := match t with Lf _ w => w | Nd _ l r => wt l + wt r end.
Fixpoint nodes (t : tree) : list nat :=
  match t with Lf i _ => [i] | Nd i l r => i :: nodes l ++ nodes r end.
Fixpoint leaves (t : tree) : list (nat * nat) :=
  match t with Lf i w => [(i, w)] | Nd _ l r => leaves l ++ leaves r end.
(** parent pointers stored in A, ids increasing away from the root *)
Fixpoint tin (A : list nat) (t : tree) : Prop :=
  match t with
  | Lf _ _ => True
  | Nd i l r => key A (tid l) = i /\ key A (tid r) = i /\ i < tid l /\ i < tid r /\ tin A l /\ tin A r
  end.
Definition child_le (t : tree) (w : nat) : Prop :=
  match t with Lf _ _ => True | Nd _ l r => wt l <= w /\ wt r <= w end.
(** sibling property *)
Fixpoint good (t : tree) : Prop :=
  match t with
  | Lf _ w => 1 <= w
  | Nd _ l r => good l /\ good r /\ child_le l (wt r) /\ child_le r (wt l)
  end.
Fixpoint height (t : tree) : nat :=
  match t with Lf _ _ => 0 | Nd _ l r => S (Nat.max (height l) (height r)) end.

(** minimal weight of a tree with the sibling property, by height *)
Fixpoint mfib (h : nat) : N * N := (* (M h, M (h+1)) *)
  match h with O => (1, 2)%N | S h => let (a, b) := mfib h in (b, a + b)%N end.
Lemma mfib_mono h : (fst (mfib h) <= snd (mfib h))%N /\ (1 <= fst (mfib h))%N.
Proof. induction h as [|h IH]; cbn [mfib fst snd]; [lia|]. destruct (mfib h); cbn [fst snd] in *; lia. Qed.
Lemma mfib_S h : fst (mfib (S h)) = snd (mfib h).
Proof. cbn [mfib]. destruct (mfib h); auto. Qed.
Lemma mfib_le a b : a <= b -> (fst (mfib a) <= fst (mfib b))%N.
Proof.
  induction 1 as [|b H IH]; [lia|]. rewrite mfib_S. pose proof (mfib_mono b). lia.
Qed.
Lemma good_weight t : good t ->
  (fst (mfib (height t)) <= N.of_nat (wt t))%N /\
  (forall h, height t = S h -> exists c, child_le t c /\ True) /\
  (forall h, height t = S h -> forall w, child_le t w -> (fst (mfib h) <= N.of_nat w)%N).
Proof.
  induction t as [i w|i l IHl r IHr]; intros G.
  - cbn in *. split; [lia|]. split; intros h E; lia.
  - cbn [good] in G. destruct G as (Gl & Gr & Cl & Cr).
    destruct (IHl Gl) as (L1 & _ & L2). destruct (IHr Gr) as (R1 & _ & R2).
    split; [|split].
    + cbn [height]. rewrite mfib_S. cbn [wt].
      destruct (Nat.le_ge_cases (height l) (height r)) as [H|H].
      * rewrite Nat.max_r by auto. destruct (height r) as [|h] eqn:E.
        -- assert (height l = 0) by lia. rewrite H0 in L1. cbn in *. lia.
        -- pose proof (R2 h eq_refl _ Cr) as Q. cbn [mfib] in *. destruct (mfib h); cbn [fst snd] in *. lia.
      * rewrite Nat.max_l by auto. destruct (height l) as [|h] eqn:E.
        -- assert (height r = 0) by lia. rewrite H0 in R1. cbn in *. lia.
        -- pose proof (L2 h eq_refl _ Cl) as Q. cbn [mfib] in *. destruct (mfib h); cbn [fst snd] in *. lia.
    + intros h E. exists (wt l + wt r). cbn [child_le]. lia.
    + intros h E w [W1 W2]. cbn [height] in E. injection E as E.
      destruct (Nat.le_ge_cases (height l) (height r)) as [H|H].
      * rewrite Nat.max_r in E by auto. subst h. lia.
      * rewrite Nat.max_l in E by auto. subst h. lia.
Qed.
Lemma good_height t : good t -> (N.of_nat (wt t) < 2 ^ 32)%N -> height t <= 45.
Proof.
  intros G W. destruct (good_weight t G) as (H & _). destruct (Nat.le_gt_cases (height t) 45); auto.
  pose proof (mfib_le 46 (height t) ltac:(lia)) as Q.
  assert (E : (2 ^ 32 <= fst (mfib 46))%N) by (vm_compute; discriminate).
  generalize dependent (fst (mfib 46)). intros x Q E. lia.
Qed.

Lemma tid_nodes t : In (tid t) (nodes t).
Proof. destruct t; cbn; auto. Qed.
Lemma tin_min A t : tin A t -> forall x, In x (nodes t) -> tid t <= x.
Proof.
  induction t as [i w|i l IHl r IHr]; cbn [tin nodes tid]; intros H x Hx.
  - destruct Hx as [->|[]]; lia.
  - destruct H as (_ & _ & H1 & H2 & Hl & Hr). destruct Hx as [->|Hx]; [lia|].
    apply in_app_or in Hx. destruct Hx as [Hx|Hx]; [specialize (IHl Hl x Hx)|specialize (IHr Hr x Hx)]; lia.
Qed.
Lemma tin_ext A A' t : (forall x, In x (nodes t) -> x <> tid t -> key A x = key A' x) -> NoDup (nodes t) ->
  tin A t -> tin A' t.
Proof.
  induction t as [i w|i l IHl r IHr]; cbn [tin nodes tid]; intros He Hnd H; auto.
  destruct H as (H1 & H2 & H3 & H4 & Hl & Hr).
  inversion Hnd as [|? ? N1 N2]; subst.
  assert (Gl : forall x, In x (nodes l) -> key A x = key A' x).
  { intros x Hx. apply He; [right; apply in_or_app; auto|]. intros ->. apply N1, in_or_app; auto. }
  assert (Gr : forall x, In x (nodes r) -> key A x = key A' x).
  { intros x Hx. apply He; [right; apply in_or_app; auto|]. intros ->. apply N1, in_or_app; auto. }
  apply NoDup_app_remove_r in N2 as N3. apply NoDup_app_remove_l in N2 as N4.
  repeat apply conj; auto.
  - rewrite <- Gl; auto using tid_nodes.
  - rewrite <- Gr; auto using tid_nodes.
Qed.

(** ** The forest invariant: heap size k *)
Section Forest.
  Variables (L : stdlib) (is_heap : (nat -> nat) -> list nat -> Prop) (LOK : stdlib_ok L is_heap).
  Variable n : nat.

  Record forest (k : nat) (A : list nat) (F : list tree) : Prop := {
    f_len : length A = 2 * n;
    f_heap : is_heap (key A) (firstn k A);
    f_roots : Permutation (firstn k A) (map tid F);
    f_nodes : Permutation (flat_map nodes F) (seq k (2 * n - k));
    f_wt : forall t, In t F -> key A (tid t) = wt t;
    f_tin : forall t, In t F -> tin A t;
    f_good : forall t, In t F -> good t;
    f_sib : forall t s, In t F -> In s F -> child_le s (wt t) }.

  Lemma forest_perm k A F F' : Permutation F F' -> forest k A F -> forest k A F'.
  Proof.
    intros P [H1 H2 H3 H4 H5 H6 H7 H8].
    assert (Q : forall t, In t F' -> In t F) by (intros t; apply Permutation_in, Permutation_sym; auto).
    split; auto.
    - rewrite H3. apply Permutation_map; auto.
    - rewrite <- H4. apply Permutation_flat_map, Permutation_sym; auto.
  Qed.

  Lemma forest_nodup k A F : forest k A F -> NoDup (flat_map nodes F).
  Proof. intros H. eapply Permutation_NoDup; [apply Permutation_sym, (f_nodes _ _ _ H)|apply seq_NoDup]. Qed.
  Lemma forest_range k A F t x : forest k A F -> In t F -> In x (nodes t) -> k <= x < 2 * n.
  Proof.
    intros H Ht Hx. assert (In x (flat_map nodes F)) by (apply in_flat_map; eauto).
    apply (Permutation_in _ (f_nodes _ _ _ H)) in H0. apply in_seq in H0. lia.
  Qed.

  Lemma forest_k k A F : forest k A F -> k <= 2 * n -> length F = k.
  Proof.
    intros H Hk. pose proof (Permutation_length (f_roots _ _ _ H)) as E.
    rewrite map_length, firstn_length, (f_len _ _ _ H) in E. lia.
  Qed.

  Lemma nth_on (p s : list nat) j : length p <= j -> nth j (p ++ s) 0 = nth (j - length p) s 0.
  Proof. intros. rewrite app_nth2; auto. Qed.

  Lemma step_forest h A F : 1 <= h -> h + 1 <= n -> forest (h + 1) A F ->
    exists A' F', tree_step L h A = Some A' /\ forest h A' F' /\
      Permutation (flat_map leaves F) (flat_map leaves F') /\
      exists t1 t2 F2, Permutation F (t1 :: t2 :: F2) /\ F' = Nd h t1 t2 :: F2 /\ wt t1 <= wt t2 /\
        (forall s, In s F2 -> wt t1 <= wt s) /\ (forall s, In s F2 -> wt t2 <= wt s).
  Proof.
    intros Hh Hn HF. pose proof (f_len _ _ _ HF) as Hl.
    set (S1 := skipn (h + 1) A).
    assert (HS1 : length S1 = 2 * n - (h + 1)) by (unfold S1; rewrite skipn_length; lia).
    pose proof (firstn_skipn (h + 1) A) as HA. fold S1 in HA.
    assert (Hf : length (firstn (h + 1) A) = h + 1) by (rewrite firstn_length; lia).
    destruct (pop_heap_ok _ _ LOK (key A) (firstn (h + 1) A)) as (l1 & m1 & E1 & P1 & Min1 & Hp1).
    { intros E. rewrite E in Hf. cbn in Hf. lia. } { apply (f_heap _ _ _ HF). }
    assert (Hl1 : length l1 = h).
    { apply Permutation_length in P1. rewrite app_length in P1. cbn in P1. lia. }
    assert (Pr : Permutation (l1 ++ [m1]) (map tid F)).
    { etransitivity; [apply Permutation_sym; eauto|apply (f_roots _ _ _ HF)]. }
    apply Permutation_map_inv in Pr. destruct Pr as (F1 & EF1 & PF1).
    assert (exists F1' t1, F1 = F1' ++ [t1]).
    { destruct F1 as [|a F1] using rev_ind; [|eauto]. destruct l1; discriminate. }
    destruct H as (F1' & t1 & ->). rewrite map_app in EF1. cbn [map] in EF1.
    apply app_inj_tail in EF1. destruct EF1 as [EF1 Et1].
    apply (forest_perm _ _ _ _ PF1) in HF. pose proof PF1 as PF0.
    assert (Pl : Permutation (flat_map leaves F) (flat_map leaves (F1' ++ [t1]))) by (apply Permutation_flat_map; auto).
    clear PF1. 
    (* A1 *)
    set (A1 := (l1 ++ [m1]) ++ S1).
    assert (EA1 : on_prefix (h + 1) (pop_heap L (key A)) A = A1).
    { unfold on_prefix. rewrite E1. reflexivity. }
    unfold tree_step. rewrite EA1. cbv zeta.
    assert (Hm1 : nth_error A1 h = Some m1).
    { unfold A1. rewrite nth_error_app1 by (rewrite app_length; cbn; lia).
      rewrite nth_error_app2 by lia. replace (h - length l1) with 0 by lia. reflexivity. }
    rewrite Hm1. cbn [obind].
    assert (HA1l : length A1 = 2 * n) by (unfold A1; rewrite !app_length, HS1; cbn; lia).
    assert (HA1k : forall x, h + 1 <= x -> key A1 x = key A x).
    { intros x Hx. unfold key, A1. rewrite app_nth2 by (rewrite app_length; cbn; lia).
      rewrite <- HA at 1. rewrite app_nth2 by lia. rewrite app_length, Hf; cbn [length]. f_equal; lia. }
    (* second pop *)
    replace (h - 1 + 1) with h by lia.
    assert (Ef1 : firstn h A1 = l1).
    { unfold A1. rewrite <- app_assoc, firstn_app, Hl1, Nat.sub_diag, firstn_O, app_nil_r.
      apply firstn_all2; lia. }
    assert (Es1 : skipn h A1 = m1 :: S1).
    { unfold A1. rewrite <- app_assoc, skipn_app, Hl1, Nat.sub_diag.
      rewrite skipn_all2 by lia. reflexivity. }
    assert (Rl1 : forall x, In x l1 -> h + 1 <= x < 2 * n).
    { intros x Hx. rewrite EF1 in Hx. apply in_map_iff in Hx. destruct Hx as (t & <- & Ht).
      eapply (forest_range (h + 1) A _ t); eauto using tid_nodes. apply in_or_app; auto. }
    assert (Rm1 : h + 1 <= m1 < 2 * n).
    { rewrite Et1. eapply (forest_range (h + 1) A _ t1); eauto using tid_nodes. apply in_or_app; cbn; auto. }
    destruct (pop_heap_ok _ _ LOK (key A1) l1) as (l2 & m2 & E2 & P2 & Min2 & Hp2).
    { intros E. rewrite E in Hl1. cbn in Hl1. lia. }
    { eapply (heap_ext _ _ LOK); [|exact Hp1]. intros x Hx. symmetry. apply HA1k. apply Rl1; auto. }
    assert (Hl2 : length l2 = h - 1).
    { apply Permutation_length in P2. rewrite app_length in P2. cbn in P2. lia. }
    assert (Pr : Permutation (l2 ++ [m2]) (map tid F1')).
    { rewrite <- EF1. apply Permutation_sym; auto. }
    apply Permutation_map_inv in Pr. destruct Pr as (F2 & EF2 & PF2).
    assert (exists F2' t2, F2 = F2' ++ [t2]).
    { destruct F2 as [|a F2] using rev_ind; [|eauto]. destruct l2; discriminate. }
    destruct H as (F2' & t2 & ->). rewrite map_app in EF2. cbn [map] in EF2.
    apply app_inj_tail in EF2. destruct EF2 as [EF2 Et2].
    assert (PP : Permutation (F1' ++ [t1]) (t1 :: t2 :: F2')).
    { rewrite PF2. rewrite <- app_assoc. cbn [app]. 
      transitivity ([t2; t1] ++ F2'); [apply Permutation_app_comm|]. cbn. constructor. }
    apply (forest_perm _ _ _ _ PP) in HF.
    assert (Pl' : Permutation (flat_map leaves F) (flat_map leaves (t1 :: t2 :: F2'))).
    { rewrite Pl. apply Permutation_flat_map; auto. }
    set (A2 := (l2 ++ [m2]) ++ m1 :: S1).
    assert (EA2 : on_prefix h (pop_heap L (key A1)) A1 = A2).
    { unfold on_prefix. rewrite Ef1, Es1, E2. reflexivity. }
    rewrite EA2.
    assert (Hm2 : nth_error A2 (h - 1) = Some m2).
    { unfold A2. rewrite nth_error_app1 by (rewrite app_length; cbn; lia).
      rewrite nth_error_app2 by lia. replace (h - 1 - length l2) with 0 by lia. reflexivity. }
    rewrite Hm2. cbn [obind].
    assert (Rm2 : h + 1 <= m2 < 2 * n).
    { apply Rl1. eapply Permutation_in; [apply Permutation_sym, P2|]. apply in_or_app; cbn; auto. }
    assert (HA2l : length A2 = 2 * n) by (unfold A2; rewrite !app_length; cbn [length]; rewrite HS1; lia).
    assert (HA2k : forall x, h + 1 <= x -> key A2 x = key A x).
    { intros x Hx. unfold key, A2. rewrite app_nth2 by (rewrite app_length; cbn; lia).
      rewrite app_length, Hl2; cbn [length].
      replace (x - (h - 1 + 1)) with (S (x - (h + 1))) by lia. cbn [nth].
      rewrite <- HA at 1. rewrite app_nth2 by lia. rewrite Hf. f_equal; lia. }
    assert (W1 : key A m1 = wt t1) by (rewrite Et1; apply (f_wt _ _ _ HF); cbn; auto).
    assert (W2 : key A m2 = wt t2) by (rewrite Et2; apply (f_wt _ _ _ HF); cbn; auto).
    rewrite (nth_error_nth' A2 0) by lia. fold (key A2 m1). rewrite HA2k, W1 by lia. cbn [obind].
    rewrite (nth_error_nth' A2 0) by lia. fold (key A2 m2). rewrite HA2k, W2 by lia. cbn [obind].
    rewrite hset_some by lia. cbn [obind]. rewrite hset_some by (rewrite upd_length; lia). cbn [obind].
    rewrite hset_some by (rewrite !upd_length; lia). cbn [obind].
    rewrite hset_some by (rewrite !upd_length; lia). cbn [obind].
    set (A6 := upd (upd (upd (upd A2 h (wt t1 + wt t2)) (h - 1) h) m2 h) m1 h).
    assert (HA6l : length A6 = 2 * n) by (unfold A6; rewrite !upd_length; lia).
    assert (Hne : m1 <> m2).
    { pose proof (forest_nodup _ _ _ HF) as ND. cbn [flat_map] in ND.
      intros E. rewrite Et1, Et2 in E.
      assert (In (tid t1) (nodes t2 ++ flat_map nodes F2')) by (rewrite E; apply in_or_app; left; apply tid_nodes).
      pose proof (tid_nodes t1) as I1. apply in_split in I1. destruct I1 as (u & v & Eu).
      rewrite Eu in ND. rewrite <- app_assoc in ND. apply NoDup_app_remove_l in ND. cbn in ND.
      inversion ND as [|? ? Q1 Q2]. apply Q1, in_or_app. right; auto. }
    assert (K1 : key A6 m1 = h) by (unfold key, A6; rewrite nth_upd_eq; auto; rewrite !upd_length; lia).
    assert (K2 : key A6 m2 = h).
    { unfold key, A6; rewrite nth_upd_ne by lia. rewrite nth_upd_eq; auto; rewrite !upd_length; lia. }
    assert (Kh : key A6 h = wt t1 + wt t2).
    { unfold key, A6; rewrite !nth_upd_ne by lia. apply nth_upd_eq. lia. }
    assert (Kx : forall x, h + 1 <= x -> x <> m1 -> x <> m2 -> key A6 x = key A x).
    { intros x Hx N1 N2. unfold key, A6. rewrite !nth_upd_ne by lia. apply HA2k; auto. }
    assert (Ef6 : firstn h A6 = l2 ++ [h]).
    { apply (nth_ext _ _ 0 0). { rewrite firstn_length, HA6l, app_length. cbn. lia. }
      intros j Hj. rewrite firstn_length, HA6l in Hj.
      assert (Q : nth j (firstn h A6) 0 = nth j A6 0).
      { rewrite <- (firstn_skipn h A6) at 2. rewrite app_nth1; auto. rewrite firstn_length. lia. }
      rewrite Q. unfold A6. rewrite (nth_upd_ne _ m1) by lia. rewrite (nth_upd_ne _ m2) by lia.
      destruct (Nat.eq_dec j (h - 1)) as [->|Hj'].
      - rewrite nth_upd_eq by (rewrite upd_length; lia). rewrite app_nth2 by lia.
        replace (h - 1 - length l2) with 0 by lia. reflexivity.
      - rewrite !nth_upd_ne by lia. unfold A2. rewrite <- app_assoc. rewrite !app_nth1 by lia. reflexivity. }
    unfold on_prefix. rewrite Ef6.
    assert (Hp6 : is_heap (key A6) l2).
    { eapply (heap_ext _ _ LOK); [|exact Hp2]. intros x Hx.
      assert (Rx : h + 1 <= x < 2 * n).
      { apply Rl1. eapply Permutation_in; [apply Permutation_sym, P2|]. apply in_or_app; auto. }
      rewrite HA1k by lia. symmetry. rewrite EF2 in Hx. apply in_map_iff in Hx. destruct Hx as (t & <- & Ht).
      pose proof (forest_nodup _ _ _ HF) as ND. cbn [flat_map] in ND.
      assert (It : In (tid t) (flat_map nodes F2')) by (apply in_flat_map; eauto using tid_nodes).
      apply Kx; [lia| |]; intros E.
      - rewrite E, Et1 in It. pose proof (tid_nodes t1) as I1. apply in_split in I1. destruct I1 as (u & v & Eu).
        rewrite Eu in ND. rewrite <- app_assoc in ND. apply NoDup_app_remove_l in ND. cbn in ND.
        inversion ND as [|? ? Q1 Q2]. apply Q1, in_or_app; right; apply in_or_app; auto.
      - apply NoDup_app_remove_l in ND.
        rewrite E, Et2 in It. pose proof (tid_nodes t2) as I1. apply in_split in I1. destruct I1 as (u & v & Eu).
        rewrite Eu in ND. rewrite <- app_assoc in ND. apply NoDup_app_remove_l in ND. cbn in ND.
        inversion ND as [|? ? Q1 Q2]. apply Q1, in_or_app; auto. }
    destruct (push_heap_ok _ _ LOK (key A6) l2 h Hp6) as [P6 H6].
    set (q := push_heap L (key A6) (l2 ++ [h])) in *.
    assert (Hq : length q = h).
    { apply Permutation_length in P6. rewrite app_length in P6. cbn in P6. lia. }
    exists (q ++ skipn h A6), (Nd h t1 t2 :: F2'). split; [reflexivity|].
    assert (KA : forall x, h <= x -> key (q ++ skipn h A6) x = key A6 x).
    { intros x Hx. unfold key. rewrite app_nth2 by lia. rewrite <- (firstn_skipn h A6) at 2.
      rewrite app_nth2 by (rewrite firstn_length; lia). rewrite firstn_length. f_equal; lia. }
    assert (Sub : forall t x, In t (t1 :: t2 :: F2') -> In x (nodes t) -> h + 1 <= x < 2 * n).
    { intros t x Ht Hx. eapply forest_range; eauto. }
    pose proof (forest_nodup _ _ _ HF) as ND.
    assert (NDt : forall t, In t (t1 :: t2 :: F2') -> NoDup (nodes t)).
    { intros t Ht. apply in_split in Ht. destruct Ht as (u & v & Eu). rewrite Eu in ND.
      rewrite flat_map_app in ND. cbn [flat_map] in ND. apply NoDup_app_remove_l, NoDup_app_remove_r in ND. auto. }
    assert (KT : forall t, In t (t1 :: t2 :: F2') -> forall x, In x (nodes t) -> x <> tid t ->
                 key A x = key (q ++ skipn h A6) x).
    { intros t Ht x Hx Nx. rewrite KA by (specialize (Sub t x Ht Hx); lia).
      symmetry. apply Kx; [specialize (Sub t x Ht Hx); lia| |].
      - intros E. (* x = m1 = tid t1, so t = t1 *)
        rewrite E, Et1 in Hx. destruct Ht as [<-|Ht]; [congruence|].
        assert (In (tid t1) (flat_map nodes (t2 :: F2'))) by (apply in_flat_map; eauto).
        cbn [flat_map] in ND. pose proof (tid_nodes t1) as I1. apply in_split in I1. destruct I1 as (u & v & Eu).
        rewrite Eu in ND. rewrite <- app_assoc in ND. apply NoDup_app_remove_l in ND. cbn in ND.
        inversion ND as [|? ? Q1 Q2]. apply Q1, in_or_app; right; auto.
      - intros E. rewrite E, Et2 in Hx. destruct Ht as [<-|[<-|Ht]]; [|congruence|].
        + cbn [flat_map] in ND. apply in_split in Hx. destruct Hx as (u & v & Eu).
          rewrite Eu in ND. rewrite <- app_assoc in ND. apply NoDup_app_remove_l in ND. cbn in ND.
          inversion ND as [|? ? Q1 Q2]. apply Q1, in_or_app; right. apply in_or_app; left. apply tid_nodes.
        + assert (In (tid t2) (flat_map nodes F2')) by (apply in_flat_map; eauto).
          cbn [flat_map] in ND. apply NoDup_app_remove_l in ND.
          pose proof (tid_nodes t2) as I1. apply in_split in I1. destruct I1 as (u & v & Eu).
          rewrite Eu in ND. rewrite <- app_assoc in ND. apply NoDup_app_remove_l in ND. cbn in ND.
          inversion ND as [|? ? Q1 Q2]. apply Q1, in_or_app; right; auto. }
    assert (Min1' : forall t, In t (t2 :: F2') -> wt t1 <= wt t).
    { intros t Ht. rewrite <- W1. rewrite <- (f_wt _ _ _ HF t) by (right; auto). apply Min1.
      eapply Permutation_in; [apply Permutation_sym, P1|].
      apply in_or_app; left. rewrite EF1. apply in_map.
      apply (Permutation_in _ (Permutation_sym PF2)). apply in_or_app. destruct Ht; cbn; auto. }
    assert (Min2' : forall t, In t F2' -> wt t2 <= wt t).
    { intros t Ht. rewrite <- W2. rewrite <- (f_wt _ _ _ HF t) by (right; right; auto).
      rewrite <- !HA1k by (try lia; specialize (Sub t (tid t) ltac:(right; right; auto) (tid_nodes t)); lia).
      apply Min2. rewrite EF1. apply in_map.
      apply (Permutation_in _ (Permutation_sym PF2)). apply in_or_app; auto. }
    split; [split|split].
    - rewrite app_length, skipn_length. lia.
    - rewrite firstn_app, Hq, Nat.sub_diag, firstn_O, app_nil_r, firstn_all2 by lia.
      eapply (heap_ext _ _ LOK); [|exact H6]. intros x Hx. symmetry. apply KA.
      apply (Permutation_in _ (Permutation_sym P6)) in Hx. apply in_app_or in Hx.
      destruct Hx as [Hx|[<-|[]]]; [|lia].
      assert (h + 1 <= x < 2 * n); [|lia].
      apply Rl1. eapply Permutation_in; [apply Permutation_sym, P2|]. apply in_or_app; auto.
    - rewrite firstn_app, Hq, Nat.sub_diag, firstn_O, app_nil_r, firstn_all2 by lia.
      rewrite <- P6. cbn [map tid]. rewrite EF2. apply Permutation_sym. apply Permutation_cons_append.
    - cbn [flat_map nodes]. rewrite <- app_comm_cons.
      replace (2 * n - h) with (S (2 * n - (h + 1))) by lia. cbn [seq]. constructor.
      rewrite <- app_assoc. replace (S h) with (h + 1) by lia. apply (f_nodes _ _ _ HF).
    - intros t [<-|Ht]; cbn [tid wt].
      + rewrite KA by lia. apply Kh.
      + assert (Rx : h + 1 <= tid t < 2 * n) by (apply (Sub t); [right; right; auto|apply tid_nodes]).
        rewrite KA by lia. rewrite Kx; [apply (f_wt _ _ _ HF); right; right; auto|lia| |]; intros E.
        * assert (It : In (tid t1) (flat_map nodes (t2 :: F2'))).
          { apply in_flat_map. exists t. split; [right; auto|]. rewrite <- Et1, <- E. apply tid_nodes. }
          cbn [flat_map] in ND. pose proof (tid_nodes t1) as I1. apply in_split in I1. destruct I1 as (u & v & Eu).
          rewrite Eu in ND. rewrite <- app_assoc in ND. apply NoDup_app_remove_l in ND. cbn in ND.
          inversion ND as [|? ? Q1 Q2]. apply Q1, in_or_app; right; auto.
        * assert (It : In (tid t2) (flat_map nodes F2')).
          { apply in_flat_map. exists t. split; [auto|]. rewrite <- Et2, <- E. apply tid_nodes. }
          cbn [flat_map] in ND. apply NoDup_app_remove_l in ND.
          pose proof (tid_nodes t2) as I1. apply in_split in I1. destruct I1 as (u & v & Eu).
          rewrite Eu in ND. rewrite <- app_assoc in ND. apply NoDup_app_remove_l in ND. cbn in ND.
          inversion ND as [|? ? Q1 Q2]. apply Q1, in_or_app; right; auto.
    - intros t [<-|Ht].
      + cbn [tin].
        assert (Rx1 : h + 1 <= tid t1) by (rewrite <- Et1; lia).
        assert (Rx2 : h + 1 <= tid t2) by (rewrite <- Et2; lia).
        assert (T1 : tin (q ++ skipn h A6) t1).
        { apply (tin_ext A); [apply KT; left; auto|apply NDt; left; auto|apply (f_tin _ _ _ HF); left; auto]. }
        assert (T2 : tin (q ++ skipn h A6) t2).
        { apply (tin_ext A); [apply KT; right; left; auto|apply NDt; right; left; auto|apply (f_tin _ _ _ HF); right; left; auto]. }
        rewrite !KA by lia. rewrite <- Et1 at 1. rewrite <- Et2 at 1.
        repeat apply conj; auto; lia.
      + apply (tin_ext A); [apply KT; right; right; auto|apply NDt; right; right; auto|apply (f_tin _ _ _ HF); right; right; auto].
    - intros t [<-|Ht]; [|apply (f_good _ _ _ HF); right; right; auto].
      cbn [good]. repeat apply conj; try (apply (f_good _ _ _ HF); cbn; auto); apply (f_sib _ _ _ HF); cbn; auto.
    - assert (G : forall s, In s (Nd h t1 t2 :: F2') -> forall w, wt t1 <= w -> wt t2 <= w -> child_le s w).
      { intros s [<-|Hs] w H1 H2; [cbn; auto|].
        pose proof (f_sib _ _ _ HF t1 s ltac:(cbn; auto) ltac:(cbn; auto)) as Q.
        destruct s; cbn [child_le] in *; lia. }
      intros t s [<-|Ht] Hs; cbn [wt].
      + apply G; auto; lia.
      + apply G; auto. apply Min1'; right; auto.
    - cbn [flat_map leaves] in *. rewrite Pl'. rewrite <- app_assoc. reflexivity.
    - exists t1, t2, F2'. split; [rewrite PF0; auto|]. split; auto. split; [apply Min1'; left; auto|].
      split; [intros s Hs; apply Min1'; right; auto|auto].
  Qed.

  Lemma loop_forest h : forall A F, h + 1 <= n -> forest (h + 1) A F ->
    exists A' t, tree_loop L h A = Some A' /\ forest 1 A' [t] /\ Permutation (flat_map leaves F) (leaves t).
  Proof.
    induction h as [|h IH]; intros A F Hn HF; cbn [tree_loop].
    - pose proof (forest_k _ _ _ HF ltac:(lia)) as E. destruct F as [|t [|]]; try discriminate.
      exists A, t. split; auto. split; auto. cbn [flat_map]. rewrite app_nil_r. reflexivity.
    - destruct (step_forest (S h) A F ltac:(lia) ltac:(lia) HF) as (A' & F' & -> & HF' & P & _). cbn [obind].
      replace (S h) with (h + 1) in HF' by lia.
      destruct (IH A' F' ltac:(lia) HF') as (A'' & t & -> & H1 & H2). exists A'', t. split; auto. split; auto.
      rewrite P. auto.
  Qed.
End Forest.

(** ** Depths *)
Fixpoint dnodes (d : nat) (t : tree) : list (nat * nat) :=
  match t with Lf i _ => [(i, d)] | Nd i l r => (i, d) :: dnodes (S d) l ++ dnodes (S d) r end.
(** leaf index, weight, depth *)
Fixpoint dleaves (d : nat) (t : tree) : list (nat * nat * nat) :=
  match t with Lf i w => [(i, w, d)] | Nd _ l r => dleaves (S d) l ++ dleaves (S d) r end.

Lemma dnodes_root d t : In (tid t, d) (dnodes d t).
Proof. destruct t; cbn; auto. Qed.
Lemma dnodes_nodes t : forall d, map fst (dnodes d t) = nodes t.
Proof. induction t; intros d; cbn; auto. rewrite map_app, IHt1, IHt2. auto. Qed.
Lemma dleaves_leaves t : forall d, map fst (dleaves d t) = leaves t.
Proof. induction t; intros d; cbn; auto. rewrite map_app, IHt1, IHt2. auto. Qed.
Lemma dleaves_dnodes t : forall d i w e, In (i, w, e) (dleaves d t) -> In (i, e) (dnodes d t).
Proof.
  induction t as [j w|j l IHl r IHr]; intros d i w' e; cbn.
  - intros [E|[]]. injection E as -> -> ->. auto.
  - intros H. right. apply in_app_or in H. apply in_or_app. destruct H; eauto.
Qed.
Lemma dleaves_depth t : forall d i w e, In (i, w, e) (dleaves d t) -> d <= e <= d + height t.
Proof.
  induction t as [j w|j l IHl r IHr]; intros d i w' e; cbn [dleaves height].
  - intros [E|[]]. injection E as -> -> ->. lia.
  - intros H. apply in_app_or in H. destruct H as [H|H]; [apply IHl in H|apply IHr in H]; lia.
Qed.
(** every non-root node has a parent one level up, with a smaller id *)
Lemma dnodes_parent A t : tin A t -> forall d i e, In (i, e) (dnodes d t) -> (i, e) = (tid t, d) \/
  exists p e', e = S e' /\ key A i = p /\ p < i /\ In (p, e') (dnodes d t).
Proof.
  induction t as [j w|j l IHl r IHr]; intros T d i e; cbn [dnodes tid tin] in *.
  - intros [E|[]]; auto.
  - destruct T as (K1 & K2 & K3 & K4 & Tl & Tr). intros [E|H]; auto. right.
    apply in_app_or in H. destruct H as [H|H].
    + destruct (IHl Tl _ _ _ H) as [E|(p & e' & H1 & H2 & H3 & H4)].
      * injection E as -> ->. exists j, d. cbn; auto.
      * exists p, e'. split; auto. split; auto. split; auto. right. apply in_or_app; auto.
    + destruct (IHr Tr _ _ _ H) as [E|(p & e' & H1 & H2 & H3 & H4)].
      * injection E as -> ->. exists j, d. cbn; auto.
      * exists p, e'. split; auto. split; auto. split; auto. right. apply in_or_app; auto.
Qed.

(** Kraft equality *)
Definition kraft (H : nat) (ls : list nat) : N :=
  fold_right (fun l a => (2 ^ N.of_nat (H - l) + a)%N) 0%N ls.
Lemma kraft_app H a b : kraft H (a ++ b) = (kraft H a + kraft H b)%N.
Proof. induction a; cbn [kraft app fold_right]; auto. unfold kraft in *. rewrite IHa. lia. Qed.
Lemma kraft_perm H a b : Permutation a b -> kraft H a = kraft H b.
Proof. unfold kraft. induction 1; cbn [fold_right]; lia. Qed.
Lemma pow_S n : (2 ^ N.of_nat (S n) = 2 * 2 ^ N.of_nat n)%N.
Proof. rewrite Nat2N.inj_succ, N.pow_succ_r'. reflexivity. Qed.
Lemma kraft_tree t : forall d H, d + height t <= H ->
  kraft H (map snd (dleaves d t)) = (2 ^ N.of_nat (H - d))%N.
Proof.
  induction t as [i w|i l IHl r IHr]; intros d H Hd; cbn [dleaves height] in *.
  - cbn [map kraft fold_right snd]. lia.
  - rewrite map_app, kraft_app, IHl, IHr by lia. replace (H - d) with (S (H - S d)) by lia.
    rewrite pow_S. lia.
Qed.

Section Depth.
  Variables (n : nat) (t : tree) (A0 : list nat).
  Hypothesis (Hlen : length A0 = 2 * n) (Hn : 1 <= n).
  Hypothesis (Hnodes : Permutation (nodes t) (seq 1 (2 * n - 1))) (Htin : tin A0 t).

  Lemma root_1 : tid t = 1.
  Proof.
    assert (I1 : In 1 (nodes t)) by (apply (Permutation_in _ (Permutation_sym Hnodes)), in_seq; lia).
    pose proof (tin_min _ _ Htin 1 I1).
    pose proof (Permutation_in _ Hnodes (tid_nodes t)) as Q. apply in_seq in Q. lia.
  Qed.
  Lemma dnodes_fun i a b : In (i, a) (dnodes 0 t) -> In (i, b) (dnodes 0 t) -> a = b.
  Proof.
    assert (ND : NoDup (map fst (dnodes 0 t))).
    { rewrite dnodes_nodes. eapply Permutation_NoDup; [apply Permutation_sym, Hnodes|apply seq_NoDup]. }
    revert ND. generalize (dnodes 0 t). induction l as [|[j c] l IH]; cbn; [tauto|].
    intros ND [E1|E1] [E2|E2]; inversion ND as [|? ? N1 N2]; subst.
    - congruence.
    - injection E1 as -> ->. exfalso. apply N1. apply (in_map fst) in E2. auto.
    - injection E2 as -> ->. exfalso. apply N1. apply (in_map fst) in E1. auto.
    - auto.
  Qed.
  Lemma depth_loop_ok m : forall i A, 2 <= i -> i + m = 2 * n -> length A = 2 * n ->
    (forall j e, In (j, e) (dnodes 0 t) -> j < i -> key A j = e) ->
    (forall j, i <= j -> key A j = key A0 j) ->
    exists A', depth_loop (seq i m) A = Some A' /\ length A' = 2 * n /\
      forall j e, In (j, e) (dnodes 0 t) -> key A' j = e.
  Proof.
    induction m as [|m IH]; intros i A Hi Hm Hl H1 H2; cbn [seq depth_loop].
    - exists A. split; auto. split; auto. intros j e Hj. apply H1; auto.
      assert (In j (nodes t)) by (rewrite <- (dnodes_nodes t 0); apply (in_map fst) in Hj; auto).
      apply (Permutation_in _ Hnodes) in H. apply in_seq in H. lia.
    - assert (Ii : In i (nodes t)) by (apply (Permutation_in _ (Permutation_sym Hnodes)), in_seq; lia).
      rewrite <- (dnodes_nodes t 0) in Ii. apply in_map_iff in Ii. destruct Ii as ([i' e] & E & Ii).
      cbn in E. subst i'. destruct (dnodes_parent _ _ Htin _ _ _ Ii) as [E|(p & e' & E1 & E2 & E3 & E4)].
      { injection E as E _. rewrite root_1 in E. lia. }
      rewrite (nth_error_nth' A 0) by lia. fold (key A i). rewrite H2 by lia. rewrite E2. cbn [obind].
      rewrite (nth_error_nth' A 0) by lia. fold (key A p). rewrite (H1 p e') by auto. cbn [obind].
      rewrite hset_some by lia. cbn [obind]. apply IH; try lia.
      + rewrite upd_length; auto.
      + intros j ej Hj Lj. unfold key. destruct (Nat.eq_dec j i) as [->|Nj].
        * rewrite nth_upd_eq by lia. pose proof (dnodes_fun _ _ _ Ii Hj). lia.
        * rewrite nth_upd_ne by lia. apply H1; auto. lia.
      + intros j Lj. unfold key. rewrite nth_upd_ne by lia. apply H2. lia.
  Qed.
  Lemma depths_ok : exists A1 A', hset A0 1 0 = Some A1 /\
    depth_loop (seq 2 (2 * n - 2)) A1 = Some A' /\ length A' = 2 * n /\
      forall j e, In (j, e) (dnodes 0 t) -> key A' j = e.
  Proof.
    rewrite hset_some by lia. eexists. 
    destruct (depth_loop_ok (2 * n - 2) 2 (upd A0 1 0)) as (A' & E1 & E2 & E3); try lia.
    - rewrite upd_length; auto.
    - intros j e Hj Lj.
      assert (Q : In j (nodes t)) by (rewrite <- (dnodes_nodes t 0); apply (in_map fst) in Hj; auto).
      apply (Permutation_in _ Hnodes) in Q. apply in_seq in Q. assert (j = 1) by lia. subst j.
      unfold key. rewrite nth_upd_eq by lia.
      pose proof (dnodes_root 0 t) as R. rewrite root_1 in R. apply (dnodes_fun 1); auto.
    - intros j Lj. unfold key. rewrite nth_upd_ne by lia. auto.
    - exists A'. auto.
  Qed.
End Depth.

(** ** gen_codelengths *)
Section Codelengths.
  Variables (L : stdlib) (is_heap : (nat -> nat) -> list nat -> Prop) (LOK : stdlib_ok L is_heap).

  Definition init_forest (n : nat) (ws : list nat) : list tree :=
    map (fun p => Lf (fst p) (snd p)) (combine (seq n n) ws).

  Lemma init_ok n ws : length ws = n -> Forall (fun w => 1 <= w) ws ->
    let A0 := seq n n ++ ws in
    forest is_heap n n (on_prefix n (make_heap L (key A0)) A0) (init_forest n ws) /\
    flat_map leaves (init_forest n ws) = combine (seq n n) ws.
  Proof.
    intros Hw Hp A0.
    assert (Ef : firstn n A0 = seq n n).
    { unfold A0. rewrite firstn_app, seq_length, Nat.sub_diag, firstn_O, app_nil_r. apply firstn_all2. rewrite seq_length; lia. }
    assert (Es : skipn n A0 = ws).
    { unfold A0. rewrite skipn_app, seq_length, Nat.sub_diag. rewrite skipn_all2 by (rewrite seq_length; lia). reflexivity. }
    assert (Hc : length (combine (seq n n) ws) = n) by (rewrite combine_length, seq_length; lia).
    assert (Hfst : map fst (combine (seq n n) ws) = seq n n).
    { rewrite <- (seq_length n n) in Hw at 1. revert Hw. clear. generalize (seq n n). intros l. revert ws.
      induction l; destruct ws; cbn; intros; try discriminate; auto. f_equal; auto. }
    unfold on_prefix. rewrite Ef, Es.
    destruct (make_heap_ok _ _ LOK (key A0) (seq n n)) as [P1 P2].
    set (q := make_heap L (key A0) (seq n n)) in *.
    assert (Hq : length q = n) by (apply Permutation_length in P1; rewrite seq_length in P1; lia).
    assert (KA : forall x, n <= x -> key (q ++ ws) x = key A0 x).
    { intros x Hx. unfold key, A0. rewrite !app_nth2 by (rewrite ?seq_length; lia). rewrite seq_length, Hq. auto. }
    assert (Hin : forall t, In t (init_forest n ws) -> exists i w, t = Lf i w /\ In (i, w) (combine (seq n n) ws)).
    { intros t Ht. apply in_map_iff in Ht. destruct Ht as ([i w] & <- & H). eauto. }
    assert (Ek : forall i w, In (i, w) (combine (seq n n) ws) -> n <= i < 2 * n /\ key A0 i = w /\ 1 <= w).
    { intros i w H. apply (In_nth _ _ (0, 0)) in H. destruct H as (j & Hj & E).
      rewrite combine_nth in E by (rewrite seq_length; lia). injection E as E1 E2.
      rewrite seq_nth in E1 by lia. split; [lia|]. split.
      - unfold key, A0. rewrite app_nth2 by (rewrite seq_length; lia). rewrite seq_length.
        rewrite <- E2. f_equal. lia.
      - rewrite Forall_forall in Hp. apply Hp. rewrite <- E2. apply nth_In. lia. }
    split.
    - split.
      + rewrite app_length. lia.
      + rewrite firstn_app, Hq, Nat.sub_diag, firstn_O, app_nil_r, firstn_all2 by lia.
        eapply (heap_ext _ _ LOK); [|exact P2]. intros x Hx. symmetry. apply KA.
        apply (Permutation_in _ (Permutation_sym P1)) in Hx. apply in_seq in Hx. lia.
      + rewrite firstn_app, Hq, Nat.sub_diag, firstn_O, app_nil_r, firstn_all2 by lia.
        rewrite <- P1. unfold init_forest. rewrite map_map. cbn [tid]. 
        rewrite <- Hfst at 1. reflexivity.
      + replace (2 * n - n) with n by lia. rewrite <- Hfst. unfold init_forest.
        generalize (combine (seq n n) ws). intros l. induction l as [|[a b] l IH]; cbn; auto.
      + intros t Ht. destruct (Hin t Ht) as (i & w & -> & H). apply Ek in H. cbn. rewrite KA by lia. apply H.
      + intros t Ht. destruct (Hin t Ht) as (i & w & -> & H). exact I.
      + intros t Ht. destruct (Hin t Ht) as (i & w & -> & H). cbn. apply Ek in H. apply H.
      + intros t s Ht Hs. destruct (Hin s Hs) as (i & w & -> & H). exact I.
    - unfold init_forest. generalize (combine (seq n n) ws). intros l. induction l as [|[a b] l IH]; cbn; auto.
      f_equal. auto.
  Qed.

  Lemma wt_leaves t : wt t = list_sum (map snd (leaves t)).
  Proof. induction t; cbn; [lia|]. rewrite map_app, list_sum_app. lia. Qed.
  Lemma list_sum_perm a b : Permutation a b -> list_sum a = list_sum b.
  Proof. unfold list_sum. induction 1; cbn [fold_right] in *; lia. Qed.
  Lemma combine_snd {A B} (a : list A) (b : list B) : length a = length b -> map snd (combine a b) = b.
  Proof. revert b; induction a; destruct b; cbn; intros; try discriminate; auto. f_equal; auto. Qed.
  Lemma combine_fst {A B} (a : list A) (b : list B) : length a = length b -> map fst (combine a b) = a.
  Proof. revert b; induction a; destruct b; cbn; intros; try discriminate; auto. f_equal; auto. Qed.

  (** the raw depths, with the tree that produced them *)
  Lemma codelengths_tree n ws : 1 <= n -> length ws = n -> Forall (fun w => 1 <= w) ws ->
    let A0 := seq n n ++ ws in
    exists A2 A3 A4 t,
      tree_loop L (n - 1) (on_prefix n (make_heap L (key A0)) A0) = Some A2 /\
      hset A2 1 0 = Some A3 /\ depth_loop (seq 2 (2 * n - 2)) A3 = Some A4 /\
      length A4 = 2 * n /\ good t /\
      Permutation (leaves t) (combine (seq n n) ws) /\
      (forall i w d, In (i, w, d) (dleaves 0 t) -> key A4 i = d).
  Proof.
    intros Hn Hw Hp A0. destruct (init_ok n ws Hw Hp) as [HF HL]. fold A0 in HF.
    replace n with (n - 1 + 1) in HF at 2 by lia.
    destruct (loop_forest L is_heap LOK n (n - 1) _ _ ltac:(lia) HF) as (A2 & t & E2 & HF2 & HP).
    pose proof (f_nodes _ _ _ _ _ HF2) as Hnd. cbn [flat_map] in Hnd. rewrite app_nil_r in Hnd.
    destruct (depths_ok n t A2) as (A3 & A4 & E3 & E4 & E5 & E6); auto.
    { apply (f_len _ _ _ _ _ HF2). }
    { apply (f_tin _ _ _ _ _ HF2). cbn; auto. }
    exists A2, A3, A4, t. repeat apply conj; auto.
    - apply (f_good _ _ _ _ _ HF2); cbn; auto.
    - rewrite <- HP, HL. reflexivity.
    - intros i w d H. apply dleaves_dnodes in H. auto.
  Qed.
End Codelengths.
