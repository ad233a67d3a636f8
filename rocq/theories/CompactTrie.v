(** Model of compressors/lz78/CompactSparseHashTrie.hpp over the compact_hash of
    CompactHash.v, and of how LZ78 and LZW set it up. *)
From Verif Require Import Base IntCodes Coders LZ Tries UtilArith CompactHash.
Local Open Scope N_scope.

(** CompactSparseHashTrie.hpp:15-17: the table and m_key_width *)
Definition cst := (tbl * nat)%type.
(** :19-22 key_width *)
Definition cst_width (kw : nat) (key : N) : nat := Nat.max kw (bits_forn key).
(** :32-38 the constructor; compact_sparse_hash.hpp:61-71, 348-362: capacity
    max(2, zero_or_next_power_of_two(reserve)), key width 0 *)
Definition cst_log (reserve : N) : nat := N.to_nat (N.log2 (N.max 2 (zero_or_next_power_of_two reserve))).
Definition cst_new (reserve : N) : cst := (new_tbl (cst_log reserve) 0, 0%nat).
(** index(key, key_width(key)): the state, the place and the value there *)
Definition cst_index (s : cst) (key : N) : option (cst * loc * N) :=
  let kw := cst_width (snd s) key in
  do (t, l) <- index (fst s) key kw;
  do e <- get_at (t_bs t) l;
  Some ((t, kw), l, snd e).
(** assigning through the reference *)
Definition cst_write (s : cst) (l : loc) (v : N) : option cst :=
  do e <- get_at (t_bs (fst s)) l;
  do bs <- put_at (t_bs (fst s)) l (fst e, v);
  Some (set_bs (fst s) bs, snd s).
(** :93-95 size() *)
Definition cst_size (s : cst) : N := N.of_nat (CompactHash.t_size (fst s)).
(** :51-61 add_rootnode; the value is a factorid_t (32 bits) *)
Definition cst_root (s : cst) (c : N) : option cst :=
  do (s', l, _) <- cst_index s (create_node 0 c);
  cst_write s' l (w32 (cst_size s)).
Fixpoint cst_roots (cs : list N) (s : cst) : option cst :=
  match cs with [] => Some s | c :: cs => do s <- cst_root s c; cst_roots cs s end.
(** :71-91 find_or_insert *)
Definition cst_find (s : cst) (parent c : N) : option (N * bool * cst) :=
  let newleaf := w32 (cst_size s) in
  do (s', l, val) <- cst_index s (create_node parent c);
  if val =? 0 then do s'' <- cst_write s' l newleaf; Some (newleaf, true, s'')
  else Some (val, false, s').
(** :63-69 get_rootnode(c) is c; clear() does nothing *)
Definition compact_trie (reserve : N) : trie :=
  mk_trie cst (fun k => cst_roots (map N.of_nat (seq 0 (N.to_nat k))) (cst_new reserve))
    (fun k s => cst_roots (map N.of_nat (seq 0 (N.to_nat k))) s) (fun _ c => c) cst_find cst_size.

(** LZ78Compressor.hpp:65-66, 78: what LZ78 reserves for n bytes *)
Definition lz78_reserve (n : N) : option N := do r <- isqrt 8 n; Some (r * 2).
(** LZWCompressor.hpp:40-41, 52 *)
Definition lzw_reserve (n : N) : option N := do r <- isqrt 8 n; Some (r * 2 + 256).
(** compress() of lz78(lz78trie=compact_sparse_hash) and lzw(...), dict_size = 0 *)
Definition lz78_compact (c : coder) (text : list N) : option (list N) :=
  do r <- lz78_reserve (N.of_nat (length text)); lz78_compress (compact_trie r) 0 c text.
Definition lzw_compact (c : coder) (text : list N) : option (list N) :=
  do r <- lzw_reserve (N.of_nat (length text)); lzw_compress (compact_trie r) 0 c text.

