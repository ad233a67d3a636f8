(** One round of choosing a monotone subsequence, for any strategy. *)
From Coq Require Import Sorted Permutation.
From Verif Require Import Base Succinct SubseqSpec SuccinctProofs.

(** [R]: the entries that have no subsequence yet *)
Definition partial_ok (sis R dpi : list nat) (b : list bool) : Prop :=
  length dpi = length sis /\
  (forall i, i < length sis -> ~ In i R -> nth i dpi 0 < length b) /\
  (forall l, l < length b -> exists i, i < length sis /\ ~ In i R /\ nth i dpi 0 = l) /\
  (forall i j, i < j < length sis -> ~ In i R -> ~ In j R -> nth i dpi 0 = nth j dpi 0 ->
     if nth (nth i dpi 0) b false then nth j sis 0 < nth i sis 0 else nth i sis 0 < nth j sis 0).

Lemma round_ok sis R R' s dpi dpi' b down :
  partial_ok sis R dpi b -> s <> [] -> incl s R -> (forall x, In x R -> x < length sis) ->
  (forall x, In x R' <-> In x R /\ ~ In x s) -> mono sis s down ->
  length dpi' = length sis -> (forall x, In x s -> nth x dpi' 0 = length b) -> (forall x, x < length sis -> ~ In x R -> nth x dpi' 0 = nth x dpi 0) ->
  partial_ok sis R' dpi' (b ++ [down]).
Proof.
  intros (L & P1 & P2 & P3) Hne Hs HR HR' Hm L' Ds Dn.
  assert (Hc : forall i, i < length sis -> ~ In i R' -> In i s \/ (~ In i R /\ ~ In i s)).
  { intros i Hi Hn. destruct (in_dec Nat.eq_dec i s); [auto|]. right. split; [|auto]. intros H. apply Hn. apply HR'. auto. }
  assert (Hb : forall i, i < length sis -> ~ In i R -> nth (nth i dpi 0) (b ++ [down]) false = nth (nth i dpi 0) b false).
  { intros i Hi Hn. apply app_nth1. auto. }
  split; [auto|]. split; [|split].
  - intros i Hi Hn. rewrite app_length. cbn [length]. destruct (Hc i Hi Hn) as [H|[H _]].
    + rewrite Ds by auto. lia.
    + rewrite Dn by auto. specialize (P1 i Hi H). lia.
  - intros l Hl. rewrite app_length in Hl. cbn [length] in Hl. destruct (Nat.eq_dec l (length b)) as [->|Hl'].
    + destruct s as [|x s]; [congruence|]. exists x. assert (In x (x :: s)) by (left; auto). split; [apply HR, Hs; auto|]. split; [|auto].
      rewrite HR'. tauto.
    + destruct (P2 l) as (i & Hi & Hn & E); [lia|]. exists i. split; [auto|]. split; [rewrite HR'; tauto|]. rewrite Dn; auto.
  - intros i j Hij Hi Hj E. destruct (Hc i) as [Ci|[Ci Ci']]; [lia|auto| |]; (destruct (Hc j) as [Cj|[Cj Cj']]; [lia|auto| |]).
    + rewrite (Ds i) by auto. rewrite app_nth2, Nat.sub_diag by lia. cbn [nth]. apply Hm; auto; lia.
    + exfalso. rewrite (Ds i), (Dn j) in E by (auto; lia). specialize (P1 j). lia || (specialize (P1 ltac:(lia) Cj); lia).
    + exfalso. rewrite (Ds j), (Dn i) in E by (auto; lia). specialize (P1 i ltac:(lia) Ci). lia.
    + rewrite (Dn i), (Dn j) in E by (auto; lia). rewrite (Dn i) by (auto; lia). rewrite Hb by (auto; lia). apply P3; auto.
Qed.
Lemma round_start sis dpi : length dpi = length sis -> partial_ok sis (seq 0 (length sis)) dpi [].
Proof.
  intros L. split; [auto|]. split; [|split].
  - intros i Hi Hn. exfalso. apply Hn, in_seq. lia.
  - cbn. lia.
  - intros i j Hij Hn. exfalso. apply Hn, in_seq. lia.
Qed.
Lemma round_end sis dpi b : partial_ok sis [] dpi b -> subseq_ok sis dpi b.
Proof.
  intros (L & P1 & P2 & P3). split; [auto|]. split; [|split].
  - intros i Hi. apply P1; auto.
  - intros l Hl. destruct (P2 l Hl) as (i & Hi & _ & E). eauto.
  - intros i j Hij E. apply P3; auto.
Qed.
Lemma label_ok c s : forall dpi, (forall x, In x s -> x < length dpi) ->
  length (label c dpi s) = length dpi /\ (forall x, In x s -> nth x (label c dpi s) 0 = c) /\ (forall x, ~ In x s -> nth x (label c dpi s) 0 = nth x dpi 0).
Proof.
  unfold label. induction s as [|y s IH]; intros dpi H; cbn [fold_left]; [repeat split; auto; contradiction|].
  destruct (IH (upd dpi y c)) as (I1 & I2 & I3). { intros x Hx. rewrite upd_length. apply H. right. auto. }
  rewrite upd_length in I1. split; [auto|]. split.
  - intros x Hx. destruct (in_dec Nat.eq_dec x s) as [Hs|Hs]; [auto|]. rewrite I3 by auto. destruct Hx as [->|Hx]; [|contradiction].
    apply nth_upd_eq. apply H. left. auto.
  - intros x Hx. rewrite I3 by (intros Hs; apply Hx; right; auto). apply nth_upd_ne. intros ->. apply Hx. left. auto.
Qed.
Lemma sorted_pairs (P : nat -> nat -> Prop) l : StronglySorted P l -> forall x y, In x l -> In y l -> x = y \/ P x y \/ P y x.
Proof.
  induction 1 as [|a l H IH HF]; intros x y Hx Hy; [contradiction|]. rewrite Forall_forall in HF.
  destruct Hx as [->|Hx], Hy as [->|Hy]; auto.
Qed.
