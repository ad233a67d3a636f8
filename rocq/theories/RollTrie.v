(** RollingTrie and RollingTriePlus (compressors/lz78/RollingTrie.hpp,
    RollingTriePlus.hpp): LZ78/LZW dictionaries whose keys are rolling-hash
    fingerprints of whole phrases.

    The hash tables inside are modelled as the finite maps they implement
    (HashMap.v and PropHashMap.v treat the tables themselves), so that
    RollingTriePlus, which moves to a second table at some point, is the
    same model.  ExtHashTrie is at the end. *)
From Verif Require Import Base BitIO IntCodes Coders LZ Tries.
Local Open Scope N_scope.

(** A rolling hash: its state after construction or clear(), operator+= and
    operator(). *)
Record roller := mk_roller {
  rl_st : Type;
  rl_clear : rl_st;
  rl_add : rl_st -> N -> rl_st;
  rl_key : rl_st -> N }.

(** A byte passed as [char] and converted to [uint64_t]: sign extended. *)
Definition char_u64 (c : N) : N := if c <? 128 then c else c + (2 ^ 64 - 256).

(** util/Hash.hpp:330-350 WordpackRollingHash *)
Definition wordpack : roller :=
  mk_roller N 0 (fun v c => w64 (v + w64 (v * 2 ^ 8) + char_u64 c)) (fun v => v).

(** util/Hash.hpp:306-328 ZBackupRollingHash: [m_len] starts at 0 and
    [m_len += m_len << 8]; the result is taken modulo [-1], i.e. 2^64 - 1. *)
Definition zbackup : roller :=
  mk_roller (N * N) (0, 0)
    (fun s c => (w64 (w64 (fst s * 2 ^ 8) + fst s + char_u64 c),
                 w64 (snd s + w64 (snd s * 2 ^ 8))))
    (fun s => (w64 (fst s + snd s)) mod (2 ^ 64 - 1)).

(** util/hash/rabinkarphash.h:29-90 KarpRabinHash: [tab] is the table of 256
    random words (util/hash/characterhash.h:47-66) drawn in the constructor;
    the byte is passed as [char], then as [unsigned char]. *)
Definition karp_rabin (tab : list N) : roller :=
  mk_roller N 0 (fun h c => w64 (37 * h + nth (N.to_nat c) tab 0)) (fun h => h).

(** ** The trie *)
Section RT.
  Variable r : roller.

  (** m_roller and m_table (RollingTrie.hpp:18-20) *)
  Definition rt_st : Type := (rl_st r * list (N * N))%type.

  (** RollingTrie.hpp:60-64 add_rootnode: the roller goes on from the state it
      has, the pair is inserted, then the roller is cleared.  The id is
      size() - 1. *)
  Definition rt_add_root (st : rt_st) (c : N) : rt_st :=
    let h := rl_add r (fst st) c in
    (rl_clear r, snd (hm_insert (snd st) (rl_key r h) (w32 (N.of_nat (length (snd st)))))).
  (** RollingTrie.hpp:66-69 get_rootnode: feeds the (mutable) roller *)
  Definition rt_get_root (st : rt_st) (c : N) : N * rt_st :=
    (c, (rl_add r (fst st) c, snd st)).
  (** RollingTrie.hpp:75-84 find_or_insert: the parent is not used *)
  Definition rt_find (st : rt_st) (c : N) : N * bool * rt_st :=
    let newleaf := w32 (N.of_nat (length (snd st))) in
    let h := rl_add r (fst st) c in
    let '(v, isnew, m) := hm_insert (snd st) (rl_key r h) newleaf in
    if isnew then (newleaf, true, (rl_clear r, m)) else (v, false, (h, m)).
  (** clear() (RollingTrie.hpp:71-73) does nothing; the compressors call it and
      then add_rootnode for 0..k-1 *)
  Definition rt_roots (k : N) (st : rt_st) : rt_st :=
    fold_left rt_add_root (map N.of_nat (seq 0 (N.to_nat k))) st.
  Definition rt_init (k : N) : rt_st := rt_roots k (rl_clear r, []).
  Definition rt_size (st : rt_st) : N := N.of_nat (length (snd st)).

  (** LZ78Compressor.hpp:96-131, as [lz78_loop] in LZ.v but with the state that
      get_rootnode changes *)
  Variable dms : N.
  Fixpoint rlz78_loop (st : rt_st) (node parent fc lastc : N) (text : list N) : list call :=
    match text with
    | [] => if node =? 0 then [] else [(parent, RInt 0 fc); (sext8 lastc, RLit)]
    | c :: text' =>
        let '(child, isnew, st1) := rt_find st c in
        if isnew then
          let '(root, st2) := rt_get_root st1 0 in
          if rt_size st2 =? dms then
            (node, RInt 0 fc) :: (c, RLit) :: rlz78_loop (rt_roots 1 st2) root root 0 c text'
          else
            (node, RInt 0 fc) :: (c, RLit) :: rlz78_loop st2 root root (fc + 1) c text'
        else rlz78_loop st1 child node fc c text'
    end.
  (** LZ78Compressor.hpp:64-140 compress *)
  Definition rlz78_calls (text : list N) : list call :=
    let '(root, st) := rt_get_root (rt_init 1) 0 in
    rlz78_loop st root root 0 0 text.
  Definition rlz78_compress (c : coder) (text : list N) : option (list N) :=
    c_enc c [] (rlz78_calls text).

  (** LZWCompressor.hpp:72-101 *)
  Fixpoint rlzw_loop (st : rt_st) (node fc : N) (text : list N) : list call :=
    match text with
    | [] => [(node, RInt 0 (fc + 256))]
    | c :: text' =>
        let '(child, isnew, st1) := rt_find st c in
        if isnew then
          let '(root, st2) := rt_get_root st1 c in
          if rt_size st2 =? dms then
            (node, RInt 0 (fc + 256)) :: rlzw_loop (rt_roots 256 st2) root 0 text'
          else
            (node, RInt 0 (fc + 256)) :: rlzw_loop st2 root (fc + 1) text'
        else rlzw_loop st1 child fc text'
    end.
  (** LZWCompressor.hpp:39-108 compress *)
  Definition rlzw_calls (text : list N) : list call :=
    match text with
    | [] => []
    | c :: text' =>
        let '(root, st) := rt_get_root (rt_init 256) c in rlzw_loop st root 0 text'
    end.
  Definition rlzw_compress (c : coder) (text : list N) : option (list N) :=
    c_enc c [] (rlzw_calls text).
End RT.

(** ** ExtHashTrie.hpp: std::unordered_map on the same keys as HashTrie;
    clear() (line 69-72) empties it. The early rehashing (line 81-86) does not
    change the map. *)
Definition ext_find (m : list (N * N)) (parent c : N) : option (N * bool * list (N * N)) :=
  let newleaf := w32 (N.of_nat (length m)) in
  let '(v, isnew, m') := hm_insert m (create_node parent c) newleaf in
  if isnew then Some (w32 (N.of_nat (length m') - 1), true, m') else Some (v, false, m').
Definition ext_trie : trie :=
  mk_trie (list (N * N))
    (fun k => Some (hash_roots (map N.of_nat (seq 0 (N.to_nat k))) []))
    (fun k _ => Some (hash_roots (map N.of_nat (seq 0 (N.to_nat k))) []))
    (fun _ c => c) ext_find (fun m => N.of_nat (length m)).
