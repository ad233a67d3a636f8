(** Proofs about Ukkonen's construction: the tree that LFS gets. *)
From Coq Require Import Permutation.
From Verif Require Import Base LfsSpec LfsTree LfsTreeSpec Ukk UkkSpec UkkProofs UkkStepProofs UkkLoopProofs UkkTreeProofs.
Local Open Scope nat_scope.

Lemma index_some : forall vs z, In z (map vnode vs) -> exists k dz pz, index_of z vs = Some k /\ nth_error vs k = Some (z, dz, pz).
Proof.
  induction vs as [|[[y dy] py] vs IH]; intros z; cbn [map vnode fst index_of]; [intros []|]. intros [E|H].
  - cbn in E. subst y. rewrite Nat.eqb_refl. exists 0, dy, py. auto.
  - destruct (Nat.eqb_spec z y) as [->|]; [exists 0, dy, py; auto|]. destruct (IH z H) as (k & dz & pz & E1 & E2). rewrite E1. cbn [obind].
    exists (S k), dz, pz. auto.
Qed.
Lemma index_nth : forall vs k z dz pz, NoDup (map vnode vs) -> nth_error vs k = Some (z, dz, pz) -> index_of z vs = Some k.
Proof.
  induction vs as [|[[y dy] py] vs IH]; intros [|k] z dz pz Hd H; cbn in H; try discriminate; cbn [index_of].
  - injection H as -> -> ->. rewrite Nat.eqb_refl. auto.
  - cbn in Hd. inversion Hd as [|? ? D1 D2]; subst. destruct (Nat.eqb_spec z y) as [->|].
    + exfalso. apply D1. apply in_map_iff. exists (y, dz, pz). split; auto. eapply nth_error_In; eauto.
    + rewrite (IH k z dz pz D2 H). auto.
Qed.
Lemma tree_kids_ok nodes vs : forall l, (forall c y, In (c, y) l -> exists v, nth_error nodes y = Some v /\ (u_leaf v = None -> In y (map vnode vs))) ->
  exists cs, tree_kids nodes vs l = Some cs /\ length cs = length l /\
    forall c, In c cs -> exists k y v, In (k, y) l /\ nth_error nodes y = Some v /\
      match c with CLeaf s => u_leaf v = Some s | CInner j => u_leaf v = None /\ index_of y vs = Some j end.
Proof.
  induction l as [|[k y] l IH]; intros H; cbn [tree_kids]; [exists []; split; [auto|split; [auto|intros c []]]|].
  destruct (H k y (or_introl eq_refl)) as (v & V1 & V2). rewrite V1. cbn [obind].
  destruct IH as (cs & E & L & C); [intros c z Hz; apply (H c z); right; auto|]. rewrite E.
  assert (C' : forall c, In c cs -> exists k0 y0 v0, In (k0, y0) ((k, y) :: l) /\ nth_error nodes y0 = Some v0 /\
      match c with CLeaf s => u_leaf v0 = Some s | CInner j => u_leaf v0 = None /\ index_of y0 vs = Some j end).
  { intros c Hc. destruct (C c Hc) as (k0 & y0 & v0 & A & B). exists k0, y0, v0. split; auto. right. auto. }
  destruct (u_leaf v) as [i|] eqn:Ev.
  - cbn [obind]. exists (CLeaf i :: cs). split; auto. split; [cbn; lia|]. intros c [<-|Hc]; [|auto].
    exists k, y, v. split; [left; auto|auto].
  - destruct (index_some vs y (V2 eq_refl)) as (j & dz & pz & J1 & J2). rewrite J1. cbn [obind]. exists (CInner j :: cs). split; auto. split; [cbn; lia|].
    intros c [<-|Hc]; [|auto]. exists k, y, v. split; [left; auto|auto].
Qed.
Lemma tree_nodes_ok ord nodes all : forall vs,
  (forall x dep par, In (x, dep, par) vs -> In par (map vnode all) /\ exists a, nth_error nodes x = Some a /\
     forall c y, In (c, y) (ord x (u_kids a)) -> exists v, nth_error nodes y = Some v /\ (u_leaf v = None -> In y (map vnode all))) ->
  exists T, tree_nodes ord nodes all vs = Some T /\ length T = length vs /\
    forall k x dep par, nth_error vs k = Some (x, dep, par) -> exists t a, nth_error T k = Some t /\ nth_error nodes x = Some a /\ td_depth t = dep /\
      index_of par all = Some (td_parent t) /\ length (td_children t) = length (ord x (u_kids a)) /\
      forall c, In c (td_children t) -> exists k y v, In (k, y) (ord x (u_kids a)) /\ nth_error nodes y = Some v /\
        match c with CLeaf s => u_leaf v = Some s | CInner j => u_leaf v = None /\ index_of y all = Some j end.
Proof.
  induction vs as [|[[x dep] par] vs IH]; intros H; cbn [tree_nodes]; [exists []; split; [auto|split; [auto|intros [|k] x dep par E; discriminate]]|].
  destruct (H x dep par (or_introl eq_refl)) as (P & a & A1 & A2). rewrite A1. cbn [obind].
  destruct (tree_kids_ok nodes all _ A2) as (cs & C1 & C2 & C3). rewrite C1. cbn [obind].
  destruct (index_some all par P) as (j & dz & pz & J1 & _). rewrite J1. cbn [obind].
  destruct IH as (T & T1 & T2 & T3); [intros y dy py Hy; apply (H y dy py); right; auto|]. rewrite T1. cbn [obind].
  eexists. split; [reflexivity|]. split; [cbn; lia|]. intros [|k] z dz' pz' E; cbn in E.
  - injection E as <- <- <-. eexists; exists a. split; [reflexivity|]. cbn [td_depth td_parent td_children]. auto.
  - apply (T3 k z dz' pz' E).
Qed.

Section Tree.
  Context (text : list N).
  Let n := length text.
  Context (suf : nat) (nodes : list unode) (p d : nat -> nat).
  Hypothesis I : tinv text n suf nodes p d.
  Hypothesis Hsuf : suf <= n.
  Hypothesis Hs0 : 0 < suf.
  Context (ord : nat -> list (N * nat) -> list (N * nat)).
  Hypothesis Hperm : forall x l, Permutation (ord x l) l.

  Lemma ord_in x l e : In e (ord x l) <-> In e l.
  Proof. split; intros H; [apply (Permutation_in _ (Hperm x l))|apply (Permutation_in _ (Permutation_sym (Hperm x l)))]; auto. Qed.
  Lemma tree_built : exists vs T, visit ord nodes n (S n) 0 0 0 = Some vs /\ tree_nodes ord nodes vs vs = Some T /\ tree_of text T /\
    (no_repeat text 400 -> Forall (fun t => td_depth t < 400) T).
  Proof.
    destruct (t_root _ _ _ _ _ _ I) as (r & R1 & R2). pose proof (t_d0 _ _ _ _ _ _ I) as D0.
    pose proof (visit_ok text suf nodes p d I Hsuf ord ord_in (fun x l H => Permutation_NoDup (Permutation_sym (Hperm x l)) H) (S n) 0 0 0) as V.
    rewrite R1, R2 in V. destruct V as (vs & V1 & V2 & V3 & V4 & (rest & V5)); [auto|fold n; lia|lia|]. fold n in V1.
    exists vs.
    assert (Iall : forall z, inner nodes z -> In z (map vnode vs)).
    { intros z Iz. apply V3; auto. apply (root_inner_below text _ _ _ _ _ I (d z)); auto. }
    destruct (tree_nodes_ok ord nodes vs vs) as (T & T1 & T2 & T3).
    { intros x dep par Hin. destruct (V2 _ Hin) as ((a & A1 & A2) & E & _ & Q). split.
      - apply Iall. destruct Q as [[-> ->]|(_ & b & c & B1 & B2)]; [exists r; auto|]. exists b. split; auto. apply (t_kid _ _ _ _ _ _ I _ _ _ _ B1 B2).
      - exists a. split; auto. intros c y Hy. apply ord_in in Hy. destruct (t_kid _ _ _ _ _ _ I _ _ _ _ A1 Hy) as (_ & _ & v & W & _).
        exists v. split; auto. intros Ev. apply Iall. exists v. auto. }
    exists T. split; auto. split; auto.
    (* the node behind an index *)
    assert (G : forall k t, nth_error T k = Some t -> exists x a par, nth_error vs k = Some (x, d x, par) /\ nth_error nodes x = Some a /\ u_leaf a = None /\
      td_depth t = d x /\ index_of par vs = Some (td_parent t) /\ length (td_children t) = length (u_kids a) /\
      ((x = 0 /\ par = 0) \/ (x <> 0 /\ exists b c, nth_error nodes par = Some b /\ In (c, x) (u_kids b))) /\
      forall c, In c (td_children t) -> exists k y v, In (k, y) (u_kids a) /\ nth_error nodes y = Some v /\
        match c with CLeaf s => u_leaf v = Some s | CInner j => u_leaf v = None /\ index_of y vs = Some j end).
    { intros k t Ht. assert (Lk : k < length vs) by (rewrite <- T2; apply nth_error_Some; congruence).
      destruct (nth_error vs k) as [[[x dep] par]|] eqn:Ek; [|apply nth_error_None in Ek; lia].
      destruct (T3 k x dep par Ek) as (t' & a & Q1 & Q2 & Q3 & Q4 & Q5 & Q6). assert (t' = t) as -> by congruence.
      destruct (V2 _ (nth_error_In _ _ Ek)) as ((a' & A1 & A2) & E & _ & Q). assert (a' = a) as -> by congruence. assert (Q3' : td_depth t = d x) by congruence. clear Q3. subst dep.
      exists x, a, par. split; auto. split; auto. split; auto. split; auto. split; auto. split; [|split; auto].
      - rewrite Q5. apply Permutation_length. apply Hperm.
      - intros c Hc. destruct (Q6 c Hc) as (k' & y & v & B1 & B2). exists k', y, v. split; auto. apply ord_in in B1. auto. }
    assert (G' : forall x a, nth_error nodes x = Some a -> u_leaf a = None -> exists k t, index_of x vs = Some k /\ nth_error T k = Some t /\ td_depth t = d x).
    { intros x a A1 A2. destruct (index_some vs x) as (k & dz & pz & J1 & J2); [apply Iall; exists a; auto|].
      destruct (T3 _ _ _ _ J2) as (t & a' & Q1 & _ & Q3 & _). destruct (V2 _ (nth_error_In _ _ J2)) as (_ & E & _). exists k, t. split; auto. split; auto. congruence. }
    assert (B : forall x a, nth_error nodes x = Some a -> u_leaf a = None -> p x + d x <= n \/ d x = 0).
    { intros x a A1 A2. pose proof (node_bound text suf nodes p d I Hsuf x a A1) as B. rewrite A2 in B. destruct B as [->|]; auto. }
    split.
    - exists (fun k => match nth_error vs k with Some (x, _, _) => piece text (p x) (d x) | None => [] end).
      intros k t Ht. destruct (G k t Ht) as (x & a & par & K1 & K2 & K3 & K4 & K5 & K6 & K7 & K8). rewrite K1.
      split; [|split; [|split]].
      + rewrite K4. destruct (B x a K2 K3) as [Bx|Bx]; [apply piece_length; auto|rewrite Bx; reflexivity].
      + intros E. rewrite E in K6. destruct (Nat.eq_dec x 0) as [->|X0].
        * destruct (t_leaf _ _ _ _ _ _ I 0 Hs0) as (z & w & Z1 & Z2). pose proof (root_below text _ _ _ _ _ I z w Z1) as Bz.
          inversion Bz as [|? b c y ? B1 B2 B3]; subst; [congruence|]. assert (b = a) as -> by congruence. destruct (u_kids a); [destruct B2|discriminate].
        * destruct (t_node _ _ _ _ _ _ I x a X0 K2) as [_ Q]. rewrite K3 in Q. cbn in K6. lia.
      + intros Hd. destruct K7 as [[-> ->]|(X0 & b & c & B1 & B2)]; [lia|].
        destruct (t_kid _ _ _ _ _ _ I _ _ _ _ B1 B2) as (Q1 & _ & v & W1 & _ & _ & W2). assert (v = a) as -> by congruence. rewrite K3 in W2.
        destruct (G' par b B1 Q1) as (j & u & J1 & J2 & J3). exists u. replace (td_parent t) with j by congruence. split; auto. lia.
      + intros c Hc. destruct (K8 c Hc) as (k' & y & v & C1 & C2 & C3).
        destruct (kid_label text suf nodes p d I Hsuf _ _ _ _ _ K2 C1 C2) as (Y0 & _ & L1 & L2 & _ & _ & L3). fold n in L2. rewrite K4.
        assert (Ex : piece text (p x) (d x) = piece text (p y) (d x)).
        { destruct (B x a K2 K3) as [Bx|Bx]; [apply piece_eq; auto; fold n; lia|rewrite Bx; reflexivity]. }
        pose proof (node_bound text suf nodes p d I Hsuf y v C2) as By. unfold wlen in L1, L2. destruct c as [s|j].
        * rewrite C3 in By, L1, L2. destruct By as [-> By]. fold n in L1, L2. split; [fold n; lia|auto].
        * destruct C3 as [C3 C4]. rewrite C3 in L1, L2. destruct (G' y v C2 C3) as (j' & u & J1 & J2 & J3). assert (j' = j) as -> by congruence.
          exists u. split; auto. split; [lia|]. destruct (G j u J2) as (y' & v' & par' & M1 & M2 & M3 & M4 & M5 & _ & M7 & _).
          destruct (index_some vs y) as (j' & dz & pz & N1 & N2); [apply Iall; exists v; auto|]. assert (j' = j) as -> by congruence.
          rewrite M1 in N2. injection N2 as -> _ _. rewrite M1. split.
          -- destruct M7 as [[? _]|(_ & b & c & B1 & B2)]; [congruence|].
             pose proof (t_uniq _ _ _ _ _ _ I _ _ _ _ _ _ _ K2 C1 B1 B2) as <-.
             pose proof (index_nth vs k x _ _ V4 K1) as N. congruence.
          -- rewrite Ex. unfold piece. rewrite firstn_firstn. f_equal. lia.
    - intros NR. apply Forall_forall. intros t Ht. apply In_nth_error in Ht. destruct Ht as (k & Ht).
      destruct (G k t Ht) as (x & a & par & K1 & K2 & K3 & K4 & _). rewrite K4. destruct (lt_dec (d x) 400) as [|Hd]; auto. exfalso.
      assert (X0 : x <> 0) by (intros ->; lia). destruct (t_node _ _ _ _ _ _ I x a X0 K2) as [_ Q]. rewrite K3 in Q. destruct Q as (_ & _ & Q).
      pose proof (t_det _ _ _ _ _ _ I _ _ K2) as D. destruct (u_kids a) as [|[c1 y1] [|[c2 y2] l]] eqn:Ek; cbn in Q; try lia.
      cbn in D. assert (Dn : c1 <> c2) by (inversion D as [|? ? D1 D2]; intros ->; apply D1; left; auto).
      assert (H1 : In (c1, y1) (u_kids a)) by (rewrite Ek; left; auto). assert (H2 : In (c2, y2) (u_kids a)) by (rewrite Ek; right; left; auto).
      destruct (t_kid _ _ _ _ _ _ I _ _ _ _ K2 H1) as (_ & _ & v1 & A1 & _). destruct (t_kid _ _ _ _ _ _ I _ _ _ _ K2 H2) as (_ & _ & v2 & A2 & _).
      destruct (kid_label text suf nodes p d I Hsuf _ _ _ _ _ K2 H1 A1) as (_ & _ & P1 & P2 & _ & P3 & P4).
      destruct (kid_label text suf nodes p d I Hsuf _ _ _ _ _ K2 H2 A2) as (_ & _ & O1 & O2 & _ & O3 & O4). fold n in P2, O2.
      assert (E : eqw text (p y1) (p y2) (d x)) by (eapply eqw_trans; [apply eqw_sym; exact P4|exact O4]).
      assert (E' : piece text (p y1) 400 = piece text (p y2) 400) by (apply piece_eq; fold n; try lia; eapply eqw_le; [|exact E]; lia).
      destruct (lt_eq_lt_dec (p y1) (p y2)) as [[Q1|Q1]|Q1]; [apply (NR _ _ Q1) in E'; [auto|fold n; lia]|rewrite Q1 in P3; congruence|].
      symmetry in E'. apply (NR _ _ Q1) in E'; [auto|fold n; lia].
  Qed.
End Tree.
