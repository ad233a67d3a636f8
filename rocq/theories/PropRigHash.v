(** C60: rigtorp::HashMap behaves as a finite map. *)
From Coq Require Import Permutation.
From Verif Require Import Base RigHash RigHashSpec RigHashProofs.
Local Open Scope nat_scope.

(** Every history of calls on a new table, for every hash function, bucket count and empty key that is not used as a
    key: every call ends, answers as the finite map does, and iteration yields the entries of the map once each. *)
Theorem C60_hash_map_is_a_map :
  forall (K V : Type) (keq : K -> K -> bool) (hash : K -> nat) (dflt : V) (count : nat) (empty : K) (os : list (map_op K V)),
    (forall a b, keq a b = true <-> a = b) ->
    (forall o k, In o os -> op_key o = Some k -> k <> empty) ->
    exists m ans l, hm_run keq hash dflt (hm_new dflt count empty) os = Some (m, ans) /\
      m_run keq dflt [] os = (l, ans) /\ NoDup (map fst l) /\ Permutation (hm_all keq m) l.
Proof.
  intros K V keq hash dflt count empty os Hk HK.
  destruct (rep_run keq hash dflt Hk empty os (hm_new dflt count empty) [] (rep_new keq hash dflt Hk empty count) HK) as (m & l & a & E & R & S).
  exists m, a, l. split; [exact E | ]. split; [exact S | ]. split; [exact (rep_nodup keq hash dflt Hk empty m l R) | ].
  destruct R as (B & sz & -> & _ & _ & PM). exact PM.
Qed.
Print Assumptions C60_hash_map_is_a_map.

(** The table: a power of two of buckets, at most half of them full. *)
Theorem C60_load :
  forall (K V : Type) (keq : K -> K -> bool) (hash : K -> nat) (dflt : V) (count : nat) (empty : K) (os : list (map_op K V)) m ans,
    (forall a b, keq a b = true <-> a = b) ->
    (forall o k, In o os -> op_key o = Some k -> k <> empty) ->
    hm_run keq hash dflt (hm_new dflt count empty) os = Some (m, ans) ->
    (exists j, length (h_buckets m) = 2 ^ j) /\ 2 * length (hm_all keq m) <= length (h_buckets m) /\ h_empty m = empty.
Proof.
  intros K V keq hash dflt count empty os m ans Hk HK E.
  destruct (rep_run keq hash dflt Hk empty os (hm_new dflt count empty) [] (rep_new keq hash dflt Hk empty count) HK) as (m' & l & a & E' & R & S).
  rewrite E in E'. injection E' as <- <-. destruct R as (B & sz & -> & H & HS & _). cbn [h_buckets h_empty].
  rewrite hm_all_ent, HS. split; [apply H | ]. split; [apply H | reflexivity].
Qed.
Print Assumptions C60_load.

(** Outside of the domain: the empty key is accepted without a message when assertions are off, is never found again
    as an entry and counts twice. *)
Theorem C60_refuted_empty_key :
  exists m, hm_run Nat.eqb (fun k => k) 0 (hm_new 0 4 0) [MInsert 0 7; MInsert 0 8; MSize] = Some (m, [ABool true; ABool true; ANat 2]) /\
    hm_all Nat.eqb m = [].
Proof. eexists. split; reflexivity. Qed.
Print Assumptions C60_refuted_empty_key.

(** colliding keys, growth, deletion with entries that move back over the end of the table *)
Example C60_example :
  let os := [MInsert 7 70; MInsert 15 150; MUpdate 23 (fun v => v + 5); MUpdate 7 (fun v => v + 1); MInsert 15 0; MSize;
             MErase 7; MAt 15; MAt 23; MAt 7; MErase 7; MInsert 31 1; MInsert 39 2; MRehash 1; MErase 15; MCount 39; MReserve 40; MSize; MAt 31] in
  (forall o k, In o os -> op_key o = Some k -> k <> 0) /\
  option_map snd (hm_run Nat.eqb (fun k => k) 0 (hm_new 0 8 0) os) =
    Some [ABool true; ABool true; AVal 5; AVal 71; ABool false; ANat 3; ANat 1; AVal 150; AVal 5; AThrow; ANat 0; ABool true; ABool true;
          AUnit; ANat 1; ANat 1; AUnit; ANat 3; AVal 1].
Proof.
  split; [ | reflexivity]. intros o k Hi. cbn [In] in Hi.
  repeat (destruct Hi as [<- | Hi]; [cbn [op_key]; congruence | ]). destruct Hi.
Qed.
