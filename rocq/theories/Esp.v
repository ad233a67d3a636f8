(** Model of the ESP grammar compressor with the plain SLP coder
    (EspCompressor.hpp, esp/*.hpp).  size_t values are [N], lengths and
    positions [nat]; vectors are lists.  DebugContext and the statistics are not
    modelled.  Each fuel is shown to suffice by the theorems; running out of it
    means the loop would not end. *)
From Verif Require Import Base BitIO IntCodes.
Local Open Scope N_scope.

(** ** Alphabet reduction *)

(** esp/esp_math.hpp:8-14 iter_log *)
Definition iter_log (n : N) : nat :=
  if n <? 7 then 0%nat else if n <? 9 then 1%nat else if n <? 17 then 2%nat
  else if n <? 257 then 3%nat else 4%nat.

(** __builtin_ctz takes an unsigned int and is undefined on 0. *)
Fixpoint pos_ctz (p : positive) : N := match p with xO p => 1 + pos_ctz p | _ => 0 end.
Definition ctz32 (x : N) : option N :=
  match w32 x with 0 => None | N.pos p => Some (pos_ctz p) end.

(** esp/esp_math.hpp:16-36 label *)
Definition label (left right : N) : option N :=
  do l <- ctz32 (N.lxor left right);
  Some (2 * l + N.b2n (N.testbit right l)).

(** esp/meta_blocks.hpp:95-100: one pass over the buffer, buf[i-1] := label(buf[i-1],
    buf[i]) for i = 1.., then pop_back (undefined on an empty buffer). *)
Fixpoint labels (buf : list N) : option (list N) :=
  match buf with
  | [] => None
  | [_] => Some []
  | a :: (b :: _) as l => do x <- label a b; do r <- labels l; Some (x :: r)
  end.
(** esp/meta_blocks.hpp:94-101 *)
Fixpoint reduce_to_6 (k : nat) (buf : list N) : option (list N) :=
  match k with
  | O => Some buf
  | S k => do b <- labels buf; reduce_to_6 k b
  end.

(** esp/utils.hpp:84-107 do_for_neighbors: the neighbours of position i, left first.
    The callback of the reduction changes t[i] in place, so the left neighbour is
    the new value. *)
Definition neighbors (prev : option N) (rest : list N) : list N :=
  (match prev with Some p => [p] | None => [] end) ++
  (match rest with n :: _ => [n] | [] => [] end).

(** esp/meta_blocks.hpp:116-119: e = 0 and two sweeps over the neighbours *)
Definition bump (e n : N) : N := if n =? e then e + 1 else e.
Definition pick (ns : list N) : N := fold_left bump ns (fold_left bump ns 0).
(** esp/meta_blocks.hpp:113-122, one value of to_replace *)
Fixpoint replace_pass (v : N) (prev : option N) (buf : list N) : list N :=
  match buf with
  | [] => []
  | x :: rest =>
      let e := if x =? v then pick (neighbors prev rest) else x in
      e :: replace_pass v (Some e) rest
  end.
(** esp/meta_blocks.hpp:112-124 *)
Definition reduce_to_3 (buf : list N) : list N :=
  replace_pass 5 None (replace_pass 4 None (replace_pass 3 None buf)).

(** ** Landmarks *)

(** esp/meta_blocks.hpp:136-146: local maxima *)
Fixpoint high_landmarks (prev : option N) (buf : list N) : list bool :=
  match buf with
  | [] => []
  | x :: rest => forallb (fun e => negb (x <? e)) (neighbors prev rest) :: high_landmarks (Some x) rest
  end.
(** esp/meta_blocks.hpp:150-167: local minima without a landmark next to them; [lms] are
    the landmarks found so far, [plm] the (already final) one on the left *)
Fixpoint low_landmarks (prev : option N) (plm : bool) (buf : list N) (lms : list bool) : list bool :=
  match buf, lms with
  | x :: rest, h :: hs =>
      let low := forallb (fun e => negb (e <? x)) (neighbors prev rest) in
      let lm := if low && negb plm && negb (hd false hs) then true else h in
      lm :: low_landmarks (Some x) lm rest hs
  | _, _ => []
  end.
Definition landmarks (buf : list N) : list bool :=
  low_landmarks None false buf (high_landmarks None buf).

(** esp/landmarks.hpp:29-78 landmark_spanner with tie = true (EspContext.hpp:33): the
    lengths right - left + 1 pushed; [cur] is blocks[0] once a landmark was seen. *)
Fixpoint span (size i : nat) (cur : option (nat * nat)) (lms : list bool) : list nat :=
  match lms with
  | [] => match cur with None => [] | Some (l, r) => [(r - l + 1)%nat] end
  | false :: lms => span size (S i) cur lms
  | true :: lms =>
      let left := if (i =? 0)%nat then i else (i - 1)%nat in
      let right := if (i =? size - 1)%nat then i else (i + 1)%nat in
      match cur with
      | None => span size (S i) (Some (left, right)) lms
      | Some (l, r) =>
          let r := if (left =? r)%nat then (r - 1)%nat else r in
          (r - l + 1)%nat :: span size (S i) (Some (left, right)) lms
      end
  end.

(** ** Blocks: length and type (TypedBlock.hpp:7-10; both fit uint8_t) *)
Notation block := (nat * nat)%type.

(** esp/meta_blocks.hpp:34-63 eager_mb13 *)
Fixpoint mb13 (t n : nat) : list block :=
  match n with
  | 0 => []
  | 1 => [(1, t)]
  | 2 => [(2, t)]
  | 3 => [(3, t)]
  | 4 => [(2, t); (2, t)]
  | S (S (S n')) => (3, t) :: mb13 t n'
  end%nat.

(** esp/meta_blocks.hpp:65-186 eager_mb2 *)
Definition mb2 (alphabet : N) (src : list N) : option (list block) :=
  let p := Nat.min (iter_log alphabet) (length src) in
  let pre := mb13 3 p in
  if (p =? length src)%nat then Some pre
  else
    do buf <- reduce_to_6 p src;
    let lms := landmarks (reduce_to_3 buf) in
    Some (pre ++ map (fun l => (l, 2%nat)) (span (length lms) 0 None lms)).

(** esp/RoundContextImpl.hpp:6-13 split_where, as the number of positions from i on;
    [mx]: the parameter max *)
Fixpoint split_where (mx : bool) (f : N -> N -> bool) (src : list N) : nat :=
  match src with
  | [] => 0
  | [_] => 1
  | a :: (b :: _) as l => if f a b then S (split_where mx f l) else if mx then 1 else 0
  end.

(** esp/RoundContextImpl.hpp:15-55 split, with
    behavior_metablocks_maximimze_repeating = true (EspContext.hpp:32) *)
Fixpoint split (fuel : nat) (alphabet : N) (src : list N) : option (list block) :=
  match src, fuel with
  | [], _ => Some []
  | _, O => None
  | _, S fuel =>
      let j := split_where false (fun a b => negb (a =? b)) src in
      do b2 <- (if (j =? 0)%nat then Some [] else mb2 alphabet (firstn j src));
      let src1 := skipn j src in
      let k := split_where true N.eqb src1 in
      let b1 := if (k =? 0)%nat then [] else mb13 1 (length (firstn k src1)) in
      do r <- split fuel alphabet (skipn k src1);
      Some (b2 ++ b1 ++ r)
  end.

(** ** esp/BlockAdjust.hpp *)

(** :10-12 needs_merge *)
Definition needs_merge (a b : block) : bool := ((fst a =? 1) || (fst b =? 1))%nat.
(** :14-36 merge: the new blocks and the returned number *)
Definition merge (a b : block) (t : nat) : block * block * nat :=
  match (fst a + fst b)%nat with
  | 2%nat => ((2, t), (2, t), 1)%nat
  | 3%nat => ((3, t), (3, t), 1)%nat
  | 4%nat => ((2, t), (2, t), 2)%nat
  | _ => (a, b, 0%nat)
  end.
(** the first two blocks merged; pop_front if the result is one block *)
Definition merge_front (a b : block) (rest : list block) (t : nat) : list block :=
  let '(a', b', n) := merge a b t in if (n =? 1)%nat then b' :: rest else a' :: b' :: rest.

(** :96-131, the second part of the callback *)
Definition adjust_front (v : list block) : list block * bool :=
  match v with
  | a :: b :: rest =>
      if needs_merge a b && (snd a =? 2)%nat && (snd b =? 2)%nat then (merge_front a b rest 2, true)
      else if needs_merge a b && (snd a =? 3)%nat then (merge_front a b rest 3, true)
      else if needs_merge a b && ((snd a =? 1) || (snd b =? 1))%nat then (merge_front a b rest 1, true)
      else (v, negb (1 <? fst a)%nat)
  | [a] => (v, negb (1 <? fst a)%nat)
  | [] => (v, true)
  end.
(** :72-132 the callback: the changed queue and the returned bool *)
Definition adjust_step (v : list block) : list block * bool :=
  if negb (existsb (fun e => (fst e =? 1)%nat) v) then (v, false)
  else match v with
       | [x; a; b] =>
           if needs_merge a b && (snd a =? 2)%nat && (snd b =? 2)%nat then
             let '(a', b', n) := merge a b 2 in
             (if (n =? 1)%nat then [x; a'] else [x; a'; b'], true)
           else adjust_front v
       | _ => adjust_front v
       end.

(** :47-52 fill: a queue of at most 3 blocks (FixedVector<TypedBlock, 3>) *)
Definition fill (q rd : list block) : list block * list block :=
  let k := (3 - length q)%nat in (q ++ firstn k rd, skipn k rd).
(** :58-62 the inner loop *)
Fixpoint adjust_inner (fuel : nat) (q rd : list block) : option (list block * list block) :=
  match fuel with
  | O => None
  | S fuel =>
      let '(q, rd) := fill q rd in
      let '(q', again) := adjust_step q in
      if again then adjust_inner fuel q' rd else Some (q', rd)
  end.
(** :53-71 the outer loop; the result is what write_it has written *)
Fixpoint adjust_outer (fuel : nat) (q rd : list block) : option (list block) :=
  match q, fuel with
  | [], _ => Some []
  | _, O => None
  | _, S fuel =>
      do (q', rd') <- adjust_inner (S (length q + length rd)) q rd;
      match q' with
      | [] => None
      | e :: q'' => do r <- adjust_outer fuel q'' rd'; Some (e :: r)
      end
  end.
(** :38-134 adjust_blocks *)
Definition adjust_blocks (bs : list block) : option (list block) :=
  if (length bs <? 2)%nat then Some bs
  else let '(q, rd) := fill [] bs in adjust_outer (S (length bs)) q rd.

(** ** esp/GrammarRules.hpp.  The map n2 (an IPD, default std::unordered_map) is
    represented by its keys in the order of insertion: the value stored for the
    i-th key is initial_counter + i = counter_start + 1 + i. *)
Fixpoint key_index (k : N * N) (keys : list (N * N)) : option nat :=
  match keys with
  | [] => None
  | k' :: keys => if (fst k' =? fst k) && (snd k' =? snd k) then Some O else option_map S (key_index k keys)
  end.
(** n2.access(key, updater) - 1 *)
Definition gr_access (start : N) (keys : list (N * N)) (k : N * N) : N * list (N * N) :=
  match key_index k keys with
  | Some i => (start + 1 + N.of_nat i - 1, keys)
  | None => (start + 1 + N.of_nat (length keys) - 1, keys ++ [k])
  end.
(** :40-78 add *)
Definition gr_add (start : N) (keys : list (N * N)) (v : list N) : option (N * list (N * N)) :=
  match v with
  | [a; b] => Some (gr_access start keys (a, b))
  | [a; b; c] => let '(r, keys1) := gr_access start keys (a, b) in Some (gr_access start keys1 (r, c))
  | _ => None
  end.

(** esp/EspContextImpl.hpp:86-97: the blocks of a round become symbols of the next
    layer, an IntVector of the given bit width *)
Fixpoint layer (start : N) (width : N) (keys : list (N * N)) (s : list N) (bs : list block)
  : option (list N * list (N * N)) :=
  match bs with
  | [] => Some ([], keys)
  | (len, _) :: bs =>
      do (r, keys1) <- gr_add start keys (firstn len s);
      do (l, keys2) <- layer start width keys1 (skipn len s) bs;
      Some ((r - start) mod 2 ^ width :: l, keys2)
  end.

(** esp/SLP.hpp:13-16 *)
Record slp := mk_slp { s_rules : list (N * N); s_root : N; s_empty : bool }.

(** esp/EspContextImpl.hpp:42-155: the rounds.  [prev] is prev_slp_counter, [alphabet]
    the alphabet size of the round and the start of its rule counter.  The rules of
    the round are appended in order of their numbers (:113-131; for_all visits each key
    once, in any order, and writes to its own index). *)
Fixpoint rounds (fuel : nat) (rules : list (N * N)) (prev alphabet : N) (s : list N) : option slp :=
  match s, fuel with
  | [], _ => Some (mk_slp rules 0 true)
  | [x], _ => Some (mk_slp rules (x + prev) false)
  | _, O => None
  | _, S fuel =>
      do bs0 <- split (length s) alphabet s;
      do bs <- adjust_blocks bs0;
      do (l, keys) <- layer alphabet (bits_for (N.of_nat (length s) - 1)) [] s bs;
      rounds fuel (rules ++ map (fun k => (fst k + prev, snd k + prev)) keys)
             (256 + N.of_nat (length rules)) (N.of_nat (length keys)) l
  end.
(** esp/EspContextImpl.hpp:14-165 generate_grammar *)
Definition generate_grammar (text : list N) : option slp :=
  rounds (length text) [] 0 256 text.

(** ** esp/PlainSLPCoder.hpp *)
(** :18-52 encode *)
Definition plain_slp_bits (g : slp) : list bool :=
  let max_val := N.of_nat (length (s_rules g)) + 256 - 1 in
  let w := if s_empty g then 0%nat else bits_forn max_val in
  write_int (N.of_nat w) 6 ++ write_int (s_root g) w ++
  concat (map (fun r => write_int (fst r) w ++ write_int (snd r) w) (s_rules g)).
(** :69-76: the loop reading rules *)
Fixpoint plain_slp_rules (fuel : nat) (w : nat) (s : bis) : option (list (N * N)) :=
  if bis_eof s then Some []
  else match fuel with
       | O => None
       | S fuel =>
           let '(a, s1) := rd_int bis_read_bit w s in
           let '(b, s2) := rd_int bis_read_bit w s1 in
           do r <- plain_slp_rules fuel w s2; Some ((a, b) :: r)
       end.
(** :54-79 decode *)
Definition plain_slp_decode (f : list N) : option slp :=
  let '(w, s1) := rd_int bis_read_bit 6 (bis_open f) in
  let w := N.to_nat w in
  let '(root, s2) := rd_int bis_read_bit w s1 in
  do rules <- plain_slp_rules (S (8 * length f)) w s2;
  Some (mk_slp rules root (w =? 0)%nat).

(** ** esp/SLP.hpp:25-38 derive_text_rec; [fuel] bounds the recursion depth *)
Fixpoint derive_rec (fuel : nat) (rules : list (N * N)) (r : N) : option (list N) :=
  if r <? 256 then Some [r]
  else match fuel with
       | O => None
       | S fuel =>
           do (a, b) <- nth_error rules (N.to_nat (r - 256));
           do x <- derive_rec fuel rules a;
           do y <- derive_rec fuel rules b;
           Some (x ++ y)
       end.
Definition derive_text (g : slp) : option (list N) :=
  if s_empty g then Some [] else derive_rec (S (length (s_rules g))) (s_rules g) (s_root g).

(** ** EspCompressor.hpp:35-71 compress, :73-89 decompress *)
Definition esp_compress (text : list N) : option (list N) :=
  do g <- generate_grammar text; Some (bits_file (plain_slp_bits g)).
Definition esp_decompress (f : list N) : option (list N) :=
  do g <- plain_slp_decode f; derive_text g.
