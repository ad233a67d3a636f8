(** C44.  The compact sparse hash table (util/compact_sparse_hash.hpp) is the map of
    the operations done on it, as long as no operation fails. *)
From Verif Require Import Base CompactHash CompactHashSpec CompactSparseProofs CompactMapProofs CompactOpsProofs CompactRunProofs.

(** The operations of the table: insert(k, v, w) and index(k, w) = v *)
Definition table_step (t : tbl) (o : map_op) : option tbl :=
  match o with Ins k v w => insert t k v w | Asg k v w => assign t k v w end.
Fixpoint table_run (ops : list map_op) (t : tbl) : option tbl :=
  match ops with [] => Some t | o :: ops => do t <- table_step t o; table_run ops t end.
Lemma run_table ops : forall t, run ops t = table_run ops t.
Proof.
  induction ops as [|o ops IH]; intros t; cbn [run table_run]; [reflexivity|].
  change (table_step t o) with (step t o). destruct (step t o); cbn [obind]; auto.
Qed.

Lemma big_ops n : (N.of_nat n < 2 ^ 16)%N -> n < big.
Proof. intros H. unfold big. apply N.compare_lt_iff in H. apply Nat.compare_lt_iff. rewrite Nat2N.inj_compare, Nat2N.inj_pow. exact H. Qed.

(** From any initial capacity 2^log <= 2^17, for every sequence of fewer than 65536
    operations whose key widths do not shrink and suffice: if the sequence runs to its
    end, then afterwards every key that fits is looked up to the value that the map has,
    and size() is the number of keys.  Assignments through index() are only covered from
    capacity 128 on (see below). *)
Theorem compact_hash_is_map : forall log w0 ops t,
  1 <= log <= 17 -> w0 <= 64 -> widths_ok w0 ops -> (N.of_nat (length ops) < 2 ^ 16)%N ->
  (7 <= log \/ forallb is_ins ops = true) ->
  table_run ops (new_tbl log w0) = Some t ->
  t_size t = length (map_run ops []) /\
  forall k, (k < 2 ^ N.of_nat (last_width w0 ops))%N -> lookup t k = Some (find (map_run ops []) k).
Proof.
  intros log w0 ops t Hl Hw Hok Hn Hi Hr. rewrite <- run_table in Hr.
  destruct (run_rep ops (new_tbl log w0) (fun _ => 0) [] t) as (dd & R1 & R2 & R3 & R4); auto.
  - apply (rep_ext _ _ (fun _ => None)); [reflexivity|]. apply new_rep; auto.
  - cbn [length plus]. apply big_ops. auto.
  - split; [auto|]. intros k Hk. apply (rep_lookup t dd); [auto|]. apply fits_rw. unfold fits. rewrite R3. exact Hk.
Qed.
Print Assumptions compact_hash_is_map.

(** An operation on a table that was reached like this fails only while it inserts an
    absent key into a table (the new one, if it grows) that has its first slot free and
    all slots from the key's home slot to the last one occupied. *)
Theorem compact_hash_insert_fails_only_at_wrap : forall log w0 ops t k v,
  1 <= log <= 17 -> w0 <= 64 -> widths_ok w0 ops -> (N.of_nat (length ops) < 2 ^ 16)%N ->
  (7 <= log \/ forallb is_ins ops = true) ->
  table_run ops (new_tbl log w0) = Some t -> needs_capacity t = false ->
  (k < 2 ^ N.of_nat (last_width w0 ops))%N ->
  table_step t (Ins k v (last_width w0 ops)) = None ->
  find (map_run ops []) k = None /\
  sparse_exists (t_bs t) 0 = Some false /\
  forall p, fst (decompose t k) <= p < cap t -> sparse_exists (t_bs t) p = Some true.
Proof.
  intros log w0 ops t k v Hl Hw Hok Hn Hi Hr Hc Hk Hs. rewrite <- run_table in Hr.
  destruct (run_rep ops (new_tbl log w0) (fun _ => 0) [] t) as (dd & R1 & R2 & R3 & R4); auto.
  { apply (rep_ext _ _ (fun _ => None)); [reflexivity|]. apply new_rep; auto. }
  { cbn [length plus]. apply big_ops. auto. }
  cbn [new_tbl t_width] in R3. cbn [table_step] in Hs. unfold insert, grow, needs_realloc in Hs. rewrite Hc, <- R3, Nat.eqb_refl in Hs. cbn [orb negb obind] in Hs.
  assert (Hs' : insert_core t k v = None) by (destruct (insert_core t k v) as [[]|]; [discriminate|auto]).
  unfold needs_capacity in Hc. apply Nat.leb_gt in Hc.
  destruct (crash_where t dd _ k v R1) as (C1 & C2 & C3); auto; [apply fits_rw; unfold fits; rewrite R3; auto|].
  pose proof (CompactCoreProofs.ti_shp _ _ (r_inv _ _ _ R1)) as (W & L & B). pose proof (CompactTableProofs.cap_pos t).
  split; [auto|]. split.
  - destruct (sparse_exists_ok (t_bs t) 0 W ltac:(lia)) as (b & B1 & B2). rewrite B1. destruct b; [|auto]. exfalso. apply (proj1 B2); auto.
  - intros p Hp. destruct (sparse_exists_ok (t_bs t) p W ltac:(lia)) as (b & B1 & B2). rewrite B1. destruct b; [auto|]. exfalso. apply (C3 p); auto. destruct (slot (t_bs t) p) eqn:E; [|auto]. exfalso. assert (false = true) by (apply B2; discriminate). discriminate.
Qed.
Print Assumptions compact_hash_insert_fails_only_at_wrap.

Fixpoint ins_all (ks : list N) (w : nat) : list map_op := match ks with [] => [] | k :: ks => Ins k (k + 1) w :: ins_all ks w end.
Fixpoint asg_all (ks : list N) (w : nat) : list map_op := match ks with [] => [] | k :: ks => Asg k (k + 1) w :: asg_all ks w end.

(** Findings.  (1) Inserting the keys 6, 7, 14 into a table of the smallest capacity
    fails: the run of slots ends at the last slot and sparse_shift is called with an
    empty range.  (2) For capacities up to 64, index() can give the address of another
    element: after assigning k+1 to the keys 14, 15, 0, 30 the key 14 has the value 31 and
    30 the value 0. (3) insert() does not overwrite. *)
Theorem compact_hash_wrap_refuted :
  table_run (ins_all [6; 7; 14]%N 16) (new_tbl 1 16) = None /\
  (exists t, table_run (asg_all [14; 15; 0; 30]%N 16) (new_tbl 1 16) = Some t /\
     lookup t 14 = Some (Some 31%N) /\ lookup t 30 = Some (Some 0%N) /\ lookup t 15 = Some (Some 16%N)) /\
  (exists t, table_run [Ins 5 1 16; Ins 5 2 16] (new_tbl 1 16) = Some t /\ lookup t 5 = Some (Some 1%N)).
Proof.
  split; [vm_compute; reflexivity|]. split.
  - assert (X : option_map (fun t => (lookup t 14, lookup t 30, lookup t 15)) (table_run (asg_all [14; 15; 0; 30]%N 16) (new_tbl 1 16)) = Some (Some (Some 31%N), Some (Some 0%N), Some (Some 16%N))) by (vm_compute; reflexivity).
    destruct (table_run (asg_all [14; 15; 0; 30]%N 16) (new_tbl 1 16)) as [t|]; [|discriminate]. exists t. apply Some_inj in X.
    split; [reflexivity|]. split; [exact (f_equal (fun p => fst (fst p)) X)|]. split; [exact (f_equal (fun p => snd (fst p)) X)|exact (f_equal snd X)].
  - assert (X : option_map (fun t => lookup t 5) (table_run [Ins 5 1 16; Ins 5 2 16] (new_tbl 1 16)) = Some (Some (Some 1%N))) by (vm_compute; reflexivity).
    destruct (table_run [Ins 5 1 16; Ins 5 2 16] (new_tbl 1 16)) as [t|]; [|discriminate]. exists t. apply Some_inj in X. auto.
Qed.
Print Assumptions compact_hash_wrap_refuted.

(** (4) A table always has 4032 buckets of 64 slots.  With a capacity of 2^18 or more
    (needed from 65535 elements on) there are keys that cannot be inserted into, nor
    looked up in, any table with such a capacity. *)
Theorem compact_hash_large_refuted : forall log w,
  18 <= log <= 63 -> w <= 64 ->
  exists k, (k < 2 ^ N.of_nat (Nat.max (log + 1) w))%N /\ forall t v, t_log t = log -> t_width t = w -> length (t_bs t) = 4032 -> insert_core t k v = None.
Proof.
  intros log w Hl Hw. set (t0 := new_tbl log w). assert (Hrw : real_width t0 <= 64) by (unfold real_width; cbn [t0 new_tbl t_log t_width]; lia).
  assert (Hc : 64 * n_buckets < cap t0).
  { change (cap t0) with (2 ^ log). replace log with (6 + (12 + (log - 18))) by lia. rewrite Nat.pow_add_r. change (2 ^ 6) with 64. apply Nat.mul_lt_mono_pos_l; [lia|].
    apply Nat.lt_le_trans with (2 ^ 12); [unfold n_buckets; apply Nat.ltb_lt; vm_compute; reflexivity|apply Nat.pow_le_mono_r; lia]. }
  destruct (CompactKeyProofs.dec_compose t0 (64 * n_buckets) 0%N Hrw Hc) as [D1 D2]; [apply N.neq_0_lt_0, N.pow_nonzero; lia|].
  exists (compose t0 (64 * n_buckets) 0). split; [exact D2|]. intros t v E1 E2 E3.
  assert (Ed : decompose t (compose t0 (64 * n_buckets) 0) = (64 * n_buckets, 0%N)).
  { transitivity (decompose t0 (compose t0 (64 * n_buckets) 0)); [|exact D1]. unfold decompose, real_width. rewrite E1, E2. reflexivity. }
  unfold insert_core. rewrite Ed. cbv beta iota. unfold sparse_exists, sparse_pos. rewrite Nat.mul_comm, Nat.div_mul by lia.
  rewrite (proj2 (nth_error_None (t_bs t) n_buckets)); [reflexivity|]. rewrite E3. unfold n_buckets. lia.
Qed.
Print Assumptions compact_hash_large_refuted.

(** Non-vacuity: a run with growth, changes of the width, overwriting and an absent key. *)
Definition demo_ops : list map_op :=
  asg_all [0; 1; 2; 3; 4; 5; 6; 7; 100; 200]%N 8 ++ asg_all [1000; 70000; 5]%N 20 ++ [Asg 1000 4 20; Ins 1 9 30; Ins 536870912 8 30] ++
  ins_all (map (fun i => N.of_nat i * 37)%N (seq 300 60)) 30.
Example compact_hash_is_map_ex :
  widths_ok 0 demo_ops /\ match table_run demo_ops (new_tbl 7 0) with
  | Some t => t_log t = 8 /\ t_size t = 73 /\ map (lookup t) [0; 1; 5; 1000; 536870912; 11100; 6666]%N =
      [Some (Some 1%N); Some (Some 2%N); Some (Some 6%N); Some (Some 4%N); Some (Some 8%N); Some (Some 11101%N); Some None]
  | None => False
  end.
Proof.
  split; [|vm_compute; repeat split; reflexivity].
  assert (H : forall w ops, (fix chk w ops := match ops with [] => true | o :: ops => (w <=? op_width o) && (op_width o <=? 64) && (op_key o <? 2 ^ N.of_nat (op_width o))%N && chk (op_width o) ops end) w ops = true -> widths_ok w ops).
  { intros w ops. revert w. induction ops as [|o ops IH]; intros w; [constructor|]. intros X. apply andb_true_iff in X. destruct X as [X X4]. apply andb_true_iff in X. destruct X as [X X3]. apply andb_true_iff in X. destruct X as [X1 X2].
    apply Nat.leb_le in X1, X2. apply N.ltb_lt in X3. cbn [widths_ok]. auto. }
  apply H. vm_compute. reflexivity.
Qed.
