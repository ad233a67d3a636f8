(** Doubly linked rings given by two functions: lemmas for Cedar (Cedar.v). *)
From Coq Require Import ZArith List Lia Permutation.
From Verif Require Import Base.
Import ListNotations.
Local Open Scope Z_scope.

Fixpoint chain (nx pv : Z -> Z) (x : Z) (l : list Z) (z : Z) : Prop :=
  match l with
  | [] => nx x = z /\ pv z = x
  | y :: l' => nx x = y /\ pv y = x /\ chain nx pv y l' z
  end.
Definition ring (nx pv : Z -> Z) (R : list Z) : Prop :=
  NoDup R /\ match R with [] => True | x :: l => chain nx pv x l x end.

Section S.
  Variables nx pv : Z -> Z.
  Lemma chain_app x l1 y l2 z : chain nx pv x (l1 ++ y :: l2) z <-> chain nx pv x l1 y /\ chain nx pv y l2 z.
  Proof.
    revert x. induction l1 as [|a l1 IH]; intros x; cbn [app chain]; [tauto|]. rewrite IH. tauto.
  Qed.
  Lemma ring_rot a b : ring nx pv (a ++ b) -> ring nx pv (b ++ a).
  Proof.
    intros [N C]. split.
    - eapply Permutation_NoDup; [|exact N]. apply Permutation_app_comm.
    - destruct a as [|x a]; [rewrite app_nil_r in *; cbn [app] in C; exact C|].
      destruct b as [|y b]; [rewrite app_nil_r in C; exact C|].
      cbn [app] in C |- *. rewrite chain_app in *. tauto.
  Qed.
  Lemma chain_last x l z : chain nx pv x l z -> In (pv z) (x :: l).
  Proof.
    revert x. induction l as [|y l IH]; intros x; cbn [chain].
    - intros [_ <-]; left; auto.
    - intros (_ & _ & H). right. apply IH; auto.
  Qed.
  Lemma chain_first x l z : chain nx pv x l z -> nx x = hd z l.
  Proof. destruct l; cbn [chain hd]; tauto. Qed.
  Lemma ring_next e R : ring nx pv R -> In e R -> In (nx e) R /\ In (pv e) R.
  Proof.
    intros HR Hin. apply in_split in Hin as (l1 & l2 & ->). apply ring_rot in HR. destruct HR as [_ C].
    cbn [app] in C. split.
    - apply chain_first in C. rewrite C. rewrite in_app_iff.
      destruct l2 as [|a l2]; cbn [app hd]; [|right; right; left; auto].
      destruct l1; cbn [hd]; [right; left; auto|left; left; auto].
    - apply chain_last in C. rewrite in_app_iff in *. cbn [In] in *. rewrite in_app_iff in C. tauto.
  Qed.
End S.

Lemma chain_ext (nx pv nx' pv' : Z -> Z) x l z :
  (forall s, In s (x :: l) -> nx' s = nx s) -> (forall s, In s (l ++ [z]) -> pv' s = pv s) ->
  chain nx pv x l z -> chain nx' pv' x l z.
Proof.
  revert x. induction l as [|y l IH]; intros x H1 H2; cbn [chain].
  - rewrite H1, H2 by (cbn; auto). auto.
  - rewrite H1, H2 by (cbn; auto). intros (A & B & C); repeat split; auto.
    apply IH; auto; intros s Hs; [apply H1|apply H2]; cbn; auto.
Qed.
Lemma ring_ext (nx pv nx' pv' : Z -> Z) R :
  (forall s, In s R -> nx' s = nx s /\ pv' s = pv s) -> ring nx pv R -> ring nx' pv' R.
Proof.
  intros H [N C]. split; auto. destruct R as [|x l]; auto.
  apply (chain_ext nx pv); auto; intros s Hs; apply H; auto.
  rewrite in_app_iff in Hs. cbn in *. tauto.
Qed.
Lemma chain_close (nx pv nx' pv' : Z -> Z) x l z z' :
  chain nx pv x l z -> NoDup (x :: l) ->
  (forall s, In s (x :: l) -> s <> pv z -> nx' s = nx s) -> nx' (pv z) = z' ->
  (forall s, In s l -> pv' s = pv s) -> pv' z' = pv z ->
  chain nx' pv' x l z'.
Proof.
  revert x. induction l as [|y l IH]; intros x C N H1 H2 H3 H4; cbn [chain] in *.
  - destruct C as [C1 C2]. rewrite C2 in *. auto.
  - destruct C as (C1 & C2 & C3). inversion N as [|? ? N1 N2]; subst.
    assert (x <> pv z) by (intros ->; apply N1, (chain_last _ _ _ _ _ C3)).
    repeat split.
    + apply H1; auto; left; auto.
    + rewrite H3 by (left; auto). auto.
    + apply IH; auto. intros s Hs; apply H1. right; auto.
      intros s Hs; apply H3; right; auto.
Qed.

(** Removing [e]. *)
Lemma ring_remove (nx pv nx' pv' : Z -> Z) l1 e l2 :
  ring nx pv (l1 ++ e :: l2) ->
  (l1 ++ l2 <> [] -> nx' (pv e) = nx e /\ pv' (nx e) = pv e) ->
  (forall s, In s (l1 ++ l2) -> s <> pv e -> nx' s = nx s) ->
  (forall s, In s (l1 ++ l2) -> s <> nx e -> pv' s = pv s) ->
  ring nx' pv' (l1 ++ l2) /\ (l1 = [] -> l2 <> [] -> nx e = hd 0 l2).
Proof.
  intros HR E1 E2 E3.
  assert (F : l1 = [] -> l2 <> [] -> nx e = hd 0 l2).
  { intros -> H. destruct HR as [_ C]. cbn [app] in C. apply chain_first in C. rewrite C. destruct l2; cbn; congruence. }
  split; auto. clear F. apply ring_rot. apply ring_rot in HR. cbn [app] in HR.
  destruct HR as [N C]. inversion N as [|? ? N1 N2]; subst. split; auto.
  assert (P : forall s, In s (l2 ++ l1) <-> In s (l1 ++ l2)) by (intros s; rewrite !in_app_iff; tauto).
  assert (Q : l1 ++ l2 <> [] <-> l2 ++ l1 <> []) by (destruct l1, l2; cbn; try rewrite app_nil_r; split; congruence).
  rewrite Q in E1.
  assert (E2' : forall s, In s (l2 ++ l1) -> s <> pv e -> nx' s = nx s) by (intros s; rewrite P; auto).
  assert (E3' : forall s, In s (l2 ++ l1) -> s <> nx e -> pv' s = pv s) by (intros s; rewrite P; auto).
  clear E2 E3 P Q. destruct (l2 ++ l1) as [|y l]; auto.
  destruct E1 as [A B]; [congruence|].
  cbn [chain] in C. destruct C as (C1 & C2 & C3). rewrite C1 in *.
  apply (chain_close nx pv nx' pv' y l e y); auto.
  intros s Hs; apply E3'; [right; auto|]. apply NoDup_cons_iff in N2. destruct N2 as [N2 _]. congruence.
Qed.

(** Inserting [e] behind the head. *)
Lemma ring_ins (nx pv nx' pv' : Z -> Z) h l e :
  ring nx pv (h :: l) -> ~ In e (h :: l) ->
  nx' h = e -> nx' e = nx h -> pv' e = h -> pv' (nx h) = e ->
  (forall s, In s l -> nx' s = nx s) ->
  (forall s, In s (h :: l) -> s <> nx h -> pv' s = pv s) ->
  ring nx' pv' (h :: e :: l).
Proof.
  intros [N C] He A1 A2 A3 A4 A5 A6. split.
  - apply NoDup_cons_iff in N. destruct N as [N1 N2]. constructor; [|constructor; auto].
    + intros [E|E]; [apply He; left; auto|auto].
    + intros E; apply He; right; auto.
  - change (chain nx' pv' h (e :: l) h). cbn [chain]. rewrite A1, A3. repeat split. destruct l as [|y l]; cbn [chain] in *.
    + destruct C as [C1 C2]. rewrite C1 in *. auto.
    + destruct C as (C1 & C2 & C3). rewrite C1 in *. repeat split; auto.
      apply NoDup_cons_iff in N. destruct N as [N1 N2]. apply NoDup_cons_iff in N2. destruct N2 as [N2 N3].
      apply (chain_ext nx pv); auto.
      intros s Hs. rewrite in_app_iff in Hs. apply A6; cbn in *; [tauto|].
      destruct Hs as [Hs|[Hs|[]]]; subst; [congruence|]. intros E. apply N1; auto.
Qed.
(** Inserting [e] before the head. *)
Lemma ring_front (nx pv nx' pv' : Z -> Z) h l e :
  ring nx pv (h :: l) -> ~ In e (h :: l) ->
  nx' e = h -> pv' e = pv h -> nx' (pv h) = e -> pv' h = e ->
  (forall s, In s (h :: l) -> s <> pv h -> nx' s = nx s) ->
  (forall s, In s l -> pv' s = pv s) ->
  ring nx' pv' (e :: h :: l).
Proof.
  intros [N C] He A1 A2 A3 A4 A5 A6. split; [constructor; auto|].
  change (chain nx' pv' e (h :: l) e). cbn [chain]. repeat split; auto.
  apply (chain_close nx pv nx' pv' h l h e); auto.
Qed.
