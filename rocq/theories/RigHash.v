(** Model of compressors/esp/HashMap.h (rigtorp::HashMap: open addressing, linear probing, deletion
    that moves entries back). *)
From Verif Require Import Base.
Local Open Scope nat_scope.

Section HM.
  Context {K V : Type} (keq : K -> K -> bool) (hash : K -> nat) (dflt : V).
  (** :326-328: empty_key_, buckets_, size_.  Sizes are not wrapped at 2^64. *)
  Record hm := mk_hm { h_empty : K; h_buckets : list (K * V); h_size : nat }.
  (** :114-117 *)
  Fixpoint pow2_from (fuel p n : nat) : nat :=
    match fuel with
    | O => p
    | S f => if p <? n then pow2_from f (2 * p) n else p
    end.
  (** :113-119 HashMap(bucket_count, empty_key) *)
  Definition hm_new (count : nat) (e : K) : hm := mk_hm e (repeat (e, dflt) (pow2_from count 1 count)) 0.
  (** :310-313 key_to_idx *)
  Definition key_to_idx (m : hm) (k : K) : nat := Nat.land (hash k) (length (h_buckets m) - 1).
  (** :315-318 *)
  Definition probe_next (m : hm) (i : nat) : nat := Nat.land (i + 1) (length (h_buckets m) - 1).
  (** :320-323: a - b wraps at 2^64, a multiple of the number of buckets *)
  Definition diff (m : hm) (a b : nat) : nat := Nat.land (length (h_buckets m) + a - b) (length (h_buckets m) - 1).

  (** :293-303 find_impl; [None]: the loop does not end.  The assert on the empty key is off with -DNDEBUG *)
  Fixpoint find_loop (m : hm) (k : K) (fuel idx : nat) : option (option nat) :=
    match fuel with
    | O => None
    | S f =>
        do (k', _) <- nth_error (h_buckets m) idx;
        if keq k' k then Some (Some idx)
        else if keq k' (h_empty m) then Some None
        else find_loop m k f (probe_next m idx)
    end.
  Definition hm_find (m : hm) (k : K) : option (option nat) := find_loop m k (length (h_buckets m)) (key_to_idx m k).
  (** :278-284 at; the inner [None] is the exception *)
  Definition hm_at (m : hm) (k : K) : option (option V) :=
    do r <- hm_find m k;
    match r with
    | None => Some None
    | Some i => do (_, v) <- nth_error (h_buckets m) i; Some (Some v)
    end.
  (** :290-292 *)
  Definition hm_count (m : hm) (k : K) : option nat := do r <- hm_find m k; Some (match r with None => 0 | Some _ => 1 end).
  (** :81-85, :97-102, :129-139 iteration: the buckets that are not empty *)
  Definition hm_all (m : hm) : list (K * V) := filter (fun e => negb (keq (fst e) (h_empty m))) (h_buckets m).

  (** :240-249, the loop of emplace_impl *)
  Fixpoint emplace_loop (m : hm) (k : K) (v : V) (fuel idx : nat) : option (hm * nat * bool) :=
    match fuel with
    | O => None
    | S f =>
        do (k', _) <- nth_error (h_buckets m) idx;
        if keq k' (h_empty m) then Some (mk_hm (h_empty m) (upd (h_buckets m) idx (k, v)) (h_size m + 1), idx, true)
        else if keq k' k then Some (m, idx, false)
        else emplace_loop m k v f (probe_next m idx)
    end.
  (** :237-250 emplace_impl with :218-228 reserve and rehash and :121-126 the copy constructor, which call each other;
      [depth] bounds that recursion *)
  Fixpoint emplace_impl (depth : nat) (m : hm) (k : K) (v : V) : option (hm * nat * bool) :=
    let count := h_size m + 1 in
    do m <- (if length (h_buckets m) <? count * 2 then
               match depth with
               | O => None
               | S d =>
                   fold_left (fun o e => do o <- o; do (o', _, _) <- emplace_impl d o (fst e) (snd e); Some o')
                     (hm_all m) (Some (hm_new (Nat.max (count * 2) (h_size m * 2)) (h_empty m)))
               end
             else Some m);
    emplace_loop m k v (length (h_buckets m)) (key_to_idx m k).
  (** :218-222 *)
  Definition hm_rehash (m : hm) (count : nat) : option hm :=
    fold_left (fun o e => do o <- o; do (o', _, _) <- emplace_impl 1 o (fst e) (snd e); Some o')
      (hm_all m) (Some (hm_new (Nat.max count (h_size m * 2)) (h_empty m))).
  (** :224-228 *)
  Definition hm_reserve (m : hm) (count : nat) : option hm :=
    if length (h_buckets m) <? count * 2 then hm_rehash m (count * 2) else Some m.
  (** :154-165 insert, emplace: whether the key is new *)
  Definition hm_insert (m : hm) (k : K) (v : V) : option (hm * bool) := do (m', _, b) <- emplace_impl 1 m k v; Some (m', b).
  (** :190-192 operator[], and what the caller does to the reference: the updater reads the value and
      returns the new one; [S] is what else the updater's closure changes *)
  Definition hm_access {S : Type} (f : S -> V -> S * V) (s : S) (k : K) (m : hm) : option (S * V * hm) :=
    do (m', i, _) <- emplace_impl 1 m k dflt;
    do (k', v) <- nth_error (h_buckets m') i;
    let (s', v') := f s v in
    Some (s', v', mk_hm (h_empty m') (upd (h_buckets m') i (k', v')) (h_size m')).
  (** :252-267 erase_impl(iterator) *)
  Fixpoint erase_loop (m : hm) (fuel bucket idx : nat) : option hm :=
    match fuel with
    | O => None
    | S f =>
        do (k, v) <- nth_error (h_buckets m) idx;
        if keq k (h_empty m) then
          do (_, w) <- nth_error (h_buckets m) bucket;
          Some (mk_hm (h_empty m) (upd (h_buckets m) bucket (h_empty m, w)) (h_size m - 1))
        else
          let ideal := key_to_idx m k in
          if diff m bucket ideal <? diff m idx ideal then
            erase_loop (mk_hm (h_empty m) (upd (h_buckets m) bucket (k, v)) (h_size m)) f idx (probe_next m idx)
          else erase_loop m f bucket (probe_next m idx)
    end.
  (** :269-276 erase(key): the number of erased entries *)
  Definition hm_erase (m : hm) (k : K) : option (hm * nat) :=
    do r <- hm_find m k;
    match r with
    | None => Some (m, 0)
    | Some i => do m' <- erase_loop m (length (h_buckets m)) i (probe_next m i); Some (m', 1)
    end.
  (** :149-152 *)
  Definition hm_clear (m : hm) : hm := hm_new (length (h_buckets m)) (h_empty m).
End HM.
Arguments hm : clear implicits.

From Verif Require Import RigHashSpec.
Section RUN.
  Context {K V : Type} (keq : K -> K -> bool) (hash : K -> nat) (dflt : V).
  (** one call of the interface; [None]: an endless loop or an access outside of the table *)
  Definition hm_op (m : hm K V) (o : map_op K V) : option (hm K V * map_ans V) :=
    match o with
    | MInsert k v => do (m', b) <- hm_insert keq hash dflt m k v; Some (m', ABool b)
    | MUpdate k g => do (_, w, m') <- hm_access keq hash dflt (fun s v => (s, g v)) tt k m; Some (m', AVal w)
    | MErase k => do (m', n) <- hm_erase keq hash m k; Some (m', ANat n)
    | MClear => Some (hm_clear dflt m, AUnit)
    | MRehash n => do m' <- hm_rehash keq hash dflt m n; Some (m', AUnit)
    | MReserve n => do m' <- hm_reserve keq hash dflt m n; Some (m', AUnit)
    | MAt k => do r <- hm_at keq hash m k; Some (m, match r with Some v => AVal v | None => AThrow end)
    | MCount k => do n <- hm_count keq hash m k; Some (m, ANat n)
    | MSize => Some (m, ANat (h_size m))
    end.
  Fixpoint hm_run (m : hm K V) (os : list (map_op K V)) : option (hm K V * list (map_ans V)) :=
    match os with
    | [] => Some (m, [])
    | o :: os => do (m', a) <- hm_op m o; do (m'', r) <- hm_run m' os; Some (m'', a :: r)
    end.
End RUN.
