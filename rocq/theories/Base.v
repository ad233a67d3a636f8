(** Common definitions: bytes, bits, machine words, array update. *)
From Coq Require Export List Arith NArith ZArith Lia Bool.
From Coq Require Export ZifyBool ZifyNat ZifyN.
Export ListNotations.
Ltac Zify.zify_post_hook ::= Z.div_mod_to_equations.

#[global] Arguments N.add : simpl never.
#[global] Arguments N.mul : simpl never.
#[global] Arguments N.sub : simpl never.
#[global] Arguments N.pow : simpl never.
#[global] Arguments N.div : simpl never.
#[global] Arguments N.modulo : simpl never.
#[global] Arguments N.land : simpl never.
#[global] Arguments N.lor : simpl never.
#[global] Arguments N.shiftl : simpl never.
#[global] Arguments N.shiftr : simpl never.
#[global] Arguments N.testbit : simpl never.
#[global] Arguments N.eqb : simpl never.
#[global] Arguments N.ltb : simpl never.
#[global] Arguments N.leb : simpl never.
#[global] Arguments N.of_nat : simpl never.
#[global] Arguments N.to_nat : simpl never.
#[global] Arguments N.size : simpl never.

(** A file (or any byte sequence, [std::string], [View]) is a list of [N]
    below 256.  [uliteral_t] is [uint8_t] (include/tudocomp/def.hpp). *)
Definition byte_ok (b : N) : Prop := (b < 256)%N.
Definition bytes_ok (l : list N) : Prop := Forall byte_ok l.
Definition byte_okb (b : N) : bool := (b <? 256)%N.
Definition bytes_okb (l : list N) : bool := forallb byte_okb l.

(** [size_t] / [uint64_t] arithmetic is modulo 2^64. *)
Definition w64 (x : N) : N := (x mod 2 ^ 64)%N.
(** [len_t] is [uint32_t] in the default configuration
    (include/tudocomp/def.hpp, include/tudocomp/config.h.in). *)
Definition w32 (x : N) : N := (x mod 2 ^ 32)%N.
Definition w8 (x : N) : N := (x mod 256)%N.
Definition is64 (x : N) : Prop := (x < 2 ^ 64)%N.
Definition is32 (x : N) : Prop := (x < 2 ^ 32)%N.

Lemma bytes_okb_spec l : bytes_okb l = true <-> bytes_ok l.
Proof.
  unfold bytes_okb, bytes_ok, byte_okb, byte_ok. rewrite forallb_forall, Forall_forall.
  split; intros H x Hx; specialize (H x Hx); lia.
Qed.

(** Array update; out-of-range writes are a model error and are excluded
    by the callers (they return [None] there). *)
Fixpoint upd {A} (l : list A) (i : nat) (x : A) : list A :=
  match l, i with
  | [], _ => []
  | _ :: t, O => x :: t
  | h :: t, S i => h :: upd t i x
  end.

Lemma upd_length {A} (l : list A) i x : length (upd l i x) = length l.
Proof. revert i; induction l; destruct i; simpl; auto. Qed.

Lemma nth_error_upd_eq {A} (l : list A) i x :
  i < length l -> nth_error (upd l i x) i = Some x.
Proof. revert i; induction l; destruct i; simpl; intros; try lia; auto. apply IHl; lia. Qed.

Lemma nth_error_upd_ne {A} (l : list A) i j x :
  i <> j -> nth_error (upd l i x) j = nth_error l j.
Proof. revert i j; induction l; destruct i, j; simpl; intros; try lia; auto. Qed.

Lemma nth_upd_eq {A} (l : list A) i x d : i < length l -> nth i (upd l i x) d = x.
Proof. revert i; induction l; destruct i; simpl; intros; try lia; auto. apply IHl; lia. Qed.

Lemma nth_upd_ne {A} (l : list A) i j x d : i <> j -> nth j (upd l i x) d = nth j l d.
Proof. revert i j; induction l; destruct i, j; simpl; intros; try lia; auto. Qed.

Lemma upd_out {A} (l : list A) i x : length l <= i -> upd l i x = l.
Proof. revert i; induction l; destruct i; simpl; intros; try lia; auto. f_equal; apply IHl; lia. Qed.

Lemma nth_error_ext {A} (l1 l2 : list A) :
  (forall i, nth_error l1 i = nth_error l2 i) -> l1 = l2.
Proof.
  revert l2; induction l1 as [|a l1 IH]; intros [|b l2] H; auto.
  - specialize (H 0); discriminate.
  - specialize (H 0); discriminate.
  - f_equal. { specialize (H 0); simpl in H; congruence. }
    apply IH; intros i; apply (H (S i)).
Qed.

(** Optional-result bind, used for "undefined behaviour" / error outcomes. *)
Definition obind {A B} (o : option A) (f : A -> option B) : option B :=
  match o with Some a => f a | None => None end.
Notation "'do' x <- m ; k" := (obind m (fun x => k))
  (at level 200, x pattern, m at level 100, k at level 200).

(** A list of all bit strings of a given length, for finite sweeps. *)
Fixpoint all_bits (n : nat) : list (list bool) :=
  match n with
  | O => [[]]
  | S n => map (cons false) (all_bits n) ++ map (cons true) (all_bits n)
  end.

Lemma all_bits_in l : In l (all_bits (length l)).
Proof.
  induction l as [|b l IH]; simpl; auto.
  apply in_or_app. destruct b; [right|left]; apply in_map; auto.
Qed.

Lemma all_bits_forall n (P : list bool -> bool) :
  forallb P (all_bits n) = true -> forall l, length l = n -> P l = true.
Proof. intros H l <-. rewrite forallb_forall in H. apply H, all_bits_in. Qed.

Lemma bytes_forall (P : N -> bool) :
  forallb P (map N.of_nat (seq 0 256)) = true -> forall b, byte_ok b -> P b = true.
Proof.
  intros H b Hb. rewrite forallb_forall in H. apply H.
  rewrite in_map_iff. exists (N.to_nat b). unfold byte_ok in Hb. rewrite in_seq. lia.
Qed.

Lemma skipn_cons_nth {A} (l : list A) i d :
  i < length l -> skipn i l = nth i l d :: skipn (S i) l.
Proof.
  revert i; induction l; destruct i; simpl; intros; try lia; auto.
  apply IHl; lia.
Qed.

Lemma cons_inj {A} (a b : A) l m : a :: l = b :: m -> a = b /\ l = m.
Proof. intros H; injection H; auto. Qed.

Lemma all_bits_forall_le n (P : list bool -> bool) :
  forallb (fun k => forallb P (all_bits k)) (seq 0 (S n)) = true ->
  forall l, length l <= n -> P l = true.
Proof.
  intros H l Hl. rewrite forallb_forall in H.
  apply (all_bits_forall (length l)); auto. apply H. apply in_seq. lia.
Qed.

Lemma Some_inj {A} (a b : A) : Some a = Some b -> a = b.
Proof. intros H; injection H; auto. Qed.
