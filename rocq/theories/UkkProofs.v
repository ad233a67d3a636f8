(** Proofs about Ukkonen's construction: the invariant of the tree. *)
From Verif Require Import Base LfsTree Ukk.
Local Open Scope nat_scope.

(** ** maps from letters *)
Lemma kfind_in c l y : kfind c l = Some y -> In (c, y) l.
Proof.
  induction l as [|[d z] l IH]; cbn [kfind]; [discriminate|]. destruct (N.eqb_spec d c) as [->|]; intros H.
  - injection H as ->. left. auto. - right. auto.
Qed.
Lemma kfind_none c l y : kfind c l = None -> ~ In (c, y) l.
Proof.
  induction l as [|[d z] l IH]; cbn [kfind]; [intros _ []|]. destruct (N.eqb_spec d c) as [->|Hn]; intros H; [discriminate|].
  intros [E|Hin]; [injection E as <- <-; congruence|]. apply (IH H Hin).
Qed.
Lemma in_kfind c l y : NoDup (map fst l) -> In (c, y) l -> kfind c l = Some y.
Proof.
  induction l as [|[d z] l IH]; cbn [kfind map fst]; intros Hd []; inversion Hd as [|? ? D1 D2]; subst.
  - injection H as -> ->. rewrite N.eqb_refl. auto.
  - destruct (N.eqb_spec d c) as [->|]; [|auto]. exfalso. apply D1. apply in_map_iff. exists (c, y). auto.
Qed.
Lemma key_inj (l : list (N * nat)) c y z : NoDup (map fst l) -> In (c, y) l -> In (c, z) l -> y = z.
Proof. intros H H1 H2. apply (in_kfind c l y H) in H1. apply (in_kfind c l z H) in H2. congruence. Qed.
Lemma kput_new c y l : kfind c l = None -> kput c y l = l ++ [(c, y)].
Proof.
  induction l as [|[d z] l IH]; cbn [kfind kput]; auto. destruct (N.eqb_spec d c); [discriminate|]. intros. rewrite IH; auto.
Qed.
Lemma kput_keys c y z l : kfind c l = Some z -> map fst (kput c y l) = map fst l.
Proof.
  induction l as [|[d w] l IH]; cbn [kfind kput]; [discriminate|]. destruct (N.eqb_spec d c) as [->|]; auto.
  intros. cbn [map fst]. rewrite IH; auto.
Qed.
Lemma kput_in c y z l : NoDup (map fst l) -> kfind c l = Some z ->
  forall k v, In (k, v) (kput c y l) <-> (k = c /\ v = y) \/ (k <> c /\ In (k, v) l).
Proof.
  induction l as [|[d w] l IH]; cbn [kfind kput]; [discriminate|]. intros Hd. inversion Hd as [|? ? D1 D2]; subst.
  destruct (N.eqb_spec d c) as [->|Hn]; intros E k v.
  - cbn [In]. split.
    + intros [H|H]; [injection H as <- <-; auto|]. right. split; auto. intros ->. apply D1. apply in_map_iff. exists (c, v). auto.
    + intros [[-> ->]|[H1 [H2|H2]]]; auto. injection H2 as <- <-. congruence.
  - cbn [In]. rewrite (IH D2 E). split.
    + intros [H|[H|H]]; auto; [|tauto]. injection H as <- <-. auto.
    + intros [H|[H1 [H2|H2]]]; auto.
Qed.
Lemma kput_len c y z l : kfind c l = Some z -> length (kput c y l) = length l.
Proof.
  induction l as [|[d w] l IH]; cbn [kfind kput]; [discriminate|]. destruct (N.eqb_spec d c) as [->|]; auto.
  intros. cbn [length]. rewrite IH; auto.
Qed.

Section Tree.
  Context (text : list N).
  Notation at_ := (fun k => nth k text 0%N).
  (** the text at i and at j agrees on len letters *)
  Definition eqw (i j len : nat) : Prop := forall k, k < len -> nth (i + k) text 0%N = nth (j + k) text 0%N.
  Lemma eqw_refl i len : eqw i i len. Proof. intros k _. auto. Qed.
  Lemma eqw_sym i j len : eqw i j len -> eqw j i len. Proof. intros H k Hk. symmetry. auto. Qed.
  Lemma eqw_trans i j k len : eqw i j len -> eqw j k len -> eqw i k len.
  Proof. intros H1 H2 q Hq. rewrite H1; auto. Qed.
  Lemma eqw_le i j a b : a <= b -> eqw i j b -> eqw i j a. Proof. intros H H1 k Hk. apply H1. lia. Qed.
  Lemma eqw_tl i j len : eqw i j (S len) -> eqw (i + 1) (j + 1) len.
  Proof. intros H k Hk. rewrite <- !Nat.add_assoc. apply H. lia. Qed.

  (** [p]: a place in the text where the node's word occurs; [d]: the length of the word of
      an inner node.  Leaves end at [e]; the suffixes below [suf] have one *)
  Record tinv (e suf : nat) (nodes : list unode) (p d : nat -> nat) : Prop := {
    t_root : exists r, nth_error nodes 0 = Some r /\ u_leaf r = None;
    t_d0 : d 0 = 0;
    t_kid : forall x a c y, nth_error nodes x = Some a -> In (c, y) (u_kids a) ->
      u_leaf a = None /\ y <> 0 /\ exists v, nth_error nodes y = Some v /\ u_start v = p y + d x /\ c = nth (u_start v) text 0%N /\
        match u_leaf v with None => d x < d y | Some _ => p y + d x < e end;
    t_agree : forall x a c y, nth_error nodes x = Some a -> In (c, y) (u_kids a) -> eqw (p x) (p y) (d x);
    t_node : forall y v, y <> 0 -> nth_error nodes y = Some v -> p y < suf /\
      match u_leaf v with
      | None => u_end v = p y + d y /\ p y + d y <= e /\ 2 <= length (u_kids v)
      | Some i => u_end v = 0 /\ i = p y /\ u_kids v = []
      end;
    t_par : forall y v, y <> 0 -> nth_error nodes y = Some v -> exists x a c, nth_error nodes x = Some a /\ In (c, y) (u_kids a);
    t_uniq : forall x a c x' a' c' y, nth_error nodes x = Some a -> In (c, y) (u_kids a) ->
      nth_error nodes x' = Some a' -> In (c', y) (u_kids a') -> x = x';
    t_det : forall x a, nth_error nodes x = Some a -> NoDup (map fst (u_kids a));
    t_leaf : forall i, i < suf -> exists y v, nth_error nodes y = Some v /\ u_leaf v = Some i;
    t_leafu : forall y v y' v' i, nth_error nodes y = Some v -> u_leaf v = Some i -> nth_error nodes y' = Some v' -> u_leaf v' = Some i -> y = y' }.

  Lemma tinv_extend e e' suf nodes p d : e <= e' -> tinv e suf nodes p d -> tinv e' suf nodes p d.
  Proof.
    intros H I. destruct I. constructor; auto.
    - intros x a c y Hx Hc. destruct (t_kid0 _ _ _ _ Hx Hc) as (A & B & v & C1 & C2 & C3 & C4).
      split; auto. split; auto. exists v. repeat (split; auto). destruct (u_leaf v); auto. lia.
    - intros y v Hy Hv. destruct (t_node0 _ _ Hy Hv) as [A B]. split; auto. destruct (u_leaf v); auto. intuition lia.
  Qed.

  Inductive below (nodes : list unode) : nat -> nat -> Prop :=
  | b_refl x : below nodes x x
  | b_kid x a c y z : nth_error nodes x = Some a -> In (c, y) (u_kids a) -> below nodes y z -> below nodes x z.
  Lemma below_snoc nodes x y a c z : below nodes x y -> nth_error nodes y = Some a -> In (c, z) (u_kids a) -> below nodes x z.
  Proof. induction 1 as [x|x b k y w H1 H2 H3 IH]; intros H H'; [eapply b_kid; eauto; constructor|]. eapply b_kid; eauto. Qed.

  Section Inv.
  Context (e suf : nat) (nodes : list unode) (p d : nat -> nat) (I : tinv e suf nodes p d).
  Notation inner x := (exists a, nth_error nodes x = Some a /\ u_leaf a = None).
  Notation leaf z i := (exists v, nth_error nodes z = Some v /\ u_leaf v = Some i).

  Lemma leaf_inner z i : leaf z i -> inner z -> False.
  Proof. intros (v & V1 & V2) (a & A1 & A2). congruence. Qed.
  Lemma leaf_p z i : leaf z i -> i = p z /\ i < suf.
  Proof.
    intros (v & V1 & V2). destruct (Nat.eq_dec z 0) as [->|Hz].
    - destruct (t_root _ _ _ _ _ I) as (r & R1 & R2). congruence.
    - destruct (t_node _ _ _ _ _ I z v Hz V1) as [A B]. rewrite V2 in B. destruct B as (_ & -> & _). auto.
  Qed.
  Lemma inner_pos x : inner x -> x <> 0 -> 0 < d x.
  Proof.
    intros (a & A1 & A2) Hx. destruct (t_par _ _ _ _ _ I x a Hx A1) as (w & b & c & B1 & B2).
    destruct (t_kid _ _ _ _ _ I _ _ _ _ B1 B2) as (_ & _ & v & V1 & _ & _ & V2).
    assert (v = a) as -> by congruence. rewrite A2 in V2. lia.
  Qed.
  Lemma below_leaf z i w : leaf z i -> below nodes z w -> w = z.
  Proof.
    intros (v & V1 & V2) H. destruct H as [|x a c y w H1 H2 H3]; auto.
    destruct (t_kid _ _ _ _ _ I _ _ _ _ H1 H2) as (E & _). congruence.
  Qed.
  Lemma below_agree x z i : below nodes x z -> leaf z i -> inner x -> eqw (p x) i (d x) /\ i + d x < e.
  Proof.
    induction 1 as [x|x a c y z H1 H2 H3 IH]; intros L A; [exfalso; eapply leaf_inner; eauto|].
    destruct (t_kid _ _ _ _ _ I _ _ _ _ H1 H2) as (_ & _ & v & V1 & V2 & V3 & V4).
    pose proof (t_agree _ _ _ _ _ I _ _ _ _ H1 H2) as G.
    destruct (u_leaf v) as [j|] eqn:Ev.
    - assert (Ly : leaf y j) by (exists v; auto). pose proof (below_leaf y j z Ly H3) as ->.
      destruct L as (v' & W1 & W2). assert (v' = v) as -> by congruence. assert (j = i) as -> by congruence.
      destruct (leaf_p y i Ly) as [-> _]. auto.
    - destruct IH as [IH1 IH2]; eauto. split; [|lia]. apply (eqw_trans _ (p y)); auto. apply (eqw_le _ _ _ (d y)); auto. lia.
  Qed.
  Lemma root_inner_below : forall m x, d x <= m -> inner x -> below nodes 0 x.
  Proof.
    induction m as [m IH] using lt_wf_ind. intros x Hm (a & A1 & A2). destruct (Nat.eq_dec x 0) as [->|Hx]; [constructor|].
    destruct (t_par _ _ _ _ _ I x a Hx A1) as (w & b & c & B1 & B2).
    destruct (t_kid _ _ _ _ _ I _ _ _ _ B1 B2) as (B3 & _ & v & V1 & _ & _ & V2).
    assert (v = a) as -> by congruence. rewrite A2 in V2.
    apply (below_snoc nodes 0 w b c x); auto. apply (IH (d w)); [lia|auto|]. exists b. auto.
  Qed.
  Lemma root_below x v : nth_error nodes x = Some v -> below nodes 0 x.
  Proof.
    intros H. destruct (Nat.eq_dec x 0) as [->|Hx]; [constructor|].
    destruct (t_par _ _ _ _ _ I x v Hx H) as (w & b & c & B1 & B2).
    destruct (t_kid _ _ _ _ _ I _ _ _ _ B1 B2) as (B3 & _).
    apply (below_snoc nodes 0 w b c x); auto. apply (root_inner_below (d w)); auto. exists b. auto.
  Qed.
  Lemma under : forall m x z i, d x <= m -> inner x -> leaf z i -> eqw (p x) i (d x) -> below nodes x z.
  Proof.
    induction m as [m IH] using lt_wf_ind. intros x z i Hm Hx Hz He. destruct (Nat.eq_dec x 0) as [->|H0].
    { destruct Hz as (v & V & _). eapply root_below; eauto. }
    destruct Hx as (a & A1 & A2). destruct (t_par _ _ _ _ _ I x a H0 A1) as (w & b & c & B1 & B2).
    destruct (t_kid _ _ _ _ _ I _ _ _ _ B1 B2) as (B3 & _ & v & V1 & V2 & V3 & V4).
    assert (v = a) as -> by congruence. rewrite A2 in V4.
    pose proof (t_agree _ _ _ _ _ I _ _ _ _ B1 B2) as G.
    assert (Hw : below nodes w z).
    { apply (IH (d w)) with (i := i); auto; [lia|exists b; auto|]. apply (eqw_trans _ (p x)); auto. apply (eqw_le _ _ _ (d x)); auto. lia. }
    destruct Hw as [w|w b' c' y z H1 H2 H3]; [exfalso; apply (leaf_inner w i); auto; exists b; auto|].
    assert (b' = b) as -> by congruence.
    destruct (t_kid _ _ _ _ _ I _ _ _ _ B1 H2) as (_ & _ & v' & W1 & W2 & W3 & W4).
    assert (E : c' = c).
    { rewrite W3, V3, V2, W2. rewrite He by lia. destruct (u_leaf v') as [j|] eqn:Ej.
      - assert (Ly : leaf y j) by (exists v'; auto). pose proof (below_leaf y j z Ly H3) as ->.
        destruct Hz as (v'' & Z1 & Z2). assert (v'' = v') as -> by congruence. assert (j = i) as -> by congruence.
        destruct (leaf_p y i Ly) as [-> _]. auto.
      - assert (inner y) as Iy by (exists v'; auto). destruct (below_agree y z i H3 Hz Iy) as [Q _]. apply Q. auto. }
    rewrite E in H2. rewrite (key_inj _ c x y (t_det _ _ _ _ _ I _ _ B1) B2 H2). auto.
  Qed.
  (** from an inner node towards the leaf of suffix i *)
  Lemma descend x a i : nth_error nodes x = Some a -> u_leaf a = None -> i < suf -> eqw (p x) i (d x) ->
    i + d x < e /\ exists y v, In (nth (i + d x) text 0%N, y) (u_kids a) /\ nth_error nodes y = Some v /\
      match u_leaf v with None => eqw (p y) i (d y) /\ i + d y < e | Some j => j = i end.
  Proof.
    intros H1 H2 Hi He. destruct (t_leaf _ _ _ _ _ I i Hi) as (z & v0 & Z1 & Z2).
    assert (Lz : leaf z i) by (exists v0; auto). assert (Ix : inner x) by (exists a; auto).
    pose proof (under (d x) x z i (le_n _) Ix Lz He) as B.
    split; [apply (below_agree x z i B Lz Ix)|].
    destruct B as [x|x a' c y z B1 B2 B3]; [exfalso; eapply leaf_inner; eauto|].
    assert (a' = a) as -> by congruence.
    destruct (t_kid _ _ _ _ _ I _ _ _ _ B1 B2) as (_ & _ & v & V1 & V2 & V3 & V4).
    exists y, v. assert (G : match u_leaf v with None => eqw (p y) i (d y) /\ i + d y < e | Some j => j = i end).
    { destruct (u_leaf v) as [j|] eqn:Ej.
      - assert (Ly : leaf y j) by (exists v; auto). pose proof (below_leaf y j z Ly B3) as ->. congruence.
      - apply (below_agree y z i B3 Lz). exists v. auto. }
    split; [|auto]. replace (nth (i + d x) text 0%N) with c; auto.
    rewrite V3, V2. destruct (u_leaf v) as [j|] eqn:Ej.
    - subst j. destruct (leaf_p y i) as [-> _]; auto. exists v. auto.
    - apply (proj1 G). auto.
  Qed.
  End Inv.

  (** only the links differ *)
  Definition shape (v : unode) : unode := mk_un (u_start v) (u_end v) (u_kids v) 0 (u_leaf v).
  Definition same_shape (nodes nodes' : list unode) : Prop :=
    forall z, option_map shape (nth_error nodes' z) = option_map shape (nth_error nodes z).
  Lemma shape_get nodes nodes' z v : same_shape nodes nodes' -> nth_error nodes' z = Some v ->
    exists w, nth_error nodes z = Some w /\ u_start w = u_start v /\ u_end w = u_end v /\ u_kids w = u_kids v /\ u_leaf w = u_leaf v.
  Proof.
    intros H E. specialize (H z). rewrite E in H. cbn in H. destruct (nth_error nodes z) as [w|]; [|discriminate].
    exists w. cbn in H. unfold shape in H. injection H as E1 E2 E3 E4. auto.
  Qed.
  Lemma same_sym a b : same_shape a b -> same_shape b a. Proof. intros H z. symmetry. auto. Qed.
  Lemma tinv_shape e suf nodes nodes' p d : same_shape nodes nodes' -> tinv e suf nodes p d -> tinv e suf nodes' p d.
  Proof.
    intros S I. pose proof (same_sym _ _ S) as S'.
    assert (G : forall z v, nth_error nodes' z = Some v -> exists w, nth_error nodes z = Some w /\ u_start w = u_start v /\ u_end w = u_end v /\ u_kids w = u_kids v /\ u_leaf w = u_leaf v)
      by (intros; eapply shape_get; eauto).
    assert (G' : forall z v, nth_error nodes z = Some v -> exists w, nth_error nodes' z = Some w /\ u_start w = u_start v /\ u_end w = u_end v /\ u_kids w = u_kids v /\ u_leaf w = u_leaf v)
      by (intros; eapply shape_get; eauto).
    destruct I. constructor; auto.
    - destruct t_root0 as (r & R1 & R2). destruct (G' _ _ R1) as (w & W1 & _ & _ & _ & W2). exists w. split; congruence.
    - intros x a c y Hx Hc. destruct (G _ _ Hx) as (b & B1 & _ & _ & B2 & B3). rewrite <- B2 in Hc.
      destruct (t_kid0 _ _ _ _ B1 Hc) as (A & B & v & C1 & C2 & C3 & C4). split; [congruence|]. split; auto.
      destruct (G' _ _ C1) as (w & W1 & W2 & _ & _ & W3). exists w. rewrite W2, W3. auto.
    - intros x a c y Hx Hc. destruct (G _ _ Hx) as (b & B1 & _ & _ & B2 & B3). rewrite <- B2 in Hc. eauto.
    - intros y v Hy Hv. destruct (G _ _ Hv) as (w & W1 & W2 & W3 & W4 & W5). destruct (t_node0 _ _ Hy W1) as [A B].
      split; auto. rewrite <- W5, <- W3, <- W4. auto.
    - intros y v Hy Hv. destruct (G _ _ Hv) as (w & W1 & _). destruct (t_par0 _ _ Hy W1) as (x & a & c & X1 & X2).
      destruct (G' _ _ X1) as (b & B1 & _ & _ & B2 & _). exists x, b, c. rewrite B2. auto.
    - intros x a c x' a' c' y H1 H2 H3 H4. destruct (G _ _ H1) as (b & B1 & _ & _ & B2 & _). destruct (G _ _ H3) as (b' & B1' & _ & _ & B2' & _).
      rewrite <- B2 in H2. rewrite <- B2' in H4. eauto.
    - intros x a H1. destruct (G _ _ H1) as (b & B1 & _ & _ & B2 & _). rewrite <- B2. eauto.
    - intros i Hi. destruct (t_leaf0 i Hi) as (y & v & V1 & V2). destruct (G' _ _ V1) as (w & W1 & _ & _ & _ & W2). exists y, w. split; congruence.
    - intros y v y' v' i H1 H2 H3 H4. destruct (G _ _ H1) as (w & W1 & _ & _ & _ & W2). destruct (G _ _ H3) as (w' & W1' & _ & _ & _ & W2').
      eapply (t_leafu0 y w y' w' i); congruence.
  Qed.
  Lemma add_sl_shape nodes last x v : nth_error nodes last = Some v \/ last = 0 ->
    exists nodes', add_sl nodes last x = Some nodes' /\ same_shape nodes nodes' /\ length nodes' = length nodes /\
      (forall z, z <> last \/ last = 0 -> nth_error nodes' z = nth_error nodes z) /\
      (last <> 0 -> exists w, nth_error nodes' last = Some w /\ u_link w = x).
  Proof.
    intros H. unfold add_sl. destruct (Nat.eqb_spec last 0) as [->|Hl].
    - exists nodes. repeat split; auto; try congruence.
    - destruct H as [H|H]; [|congruence]. rewrite H. cbn [obind]. assert (L : last < length nodes) by (apply nth_error_Some; congruence).
      eexists. split; [reflexivity|]. split; [|split; [apply upd_length|split]].
      + intros z. destruct (Nat.eq_dec last z) as [<-|Hne]; [rewrite nth_error_upd_eq by auto; rewrite H; reflexivity|rewrite nth_error_upd_ne by auto; auto].
      + intros z [Hz| ->]; [|congruence]. apply nth_error_upd_ne. auto.
      + intros _. rewrite nth_error_upd_eq by auto. eexists. split; reflexivity.
  Qed.
End Tree.
