(** Models of LZ78Compressor.hpp, LZWCompressor.hpp, lzw/LZWDecoding.hpp over an
    abstract trie interface (lz78/LZ78Trie.hpp). *)
From Verif Require Import Base BitIO IntCodes Coders.
Local Open Scope N_scope.

(** ** The trie interface (LZ78Trie.hpp:40-100).
    [t_init k]: a freshly constructed dictionary after clear() and [k] calls
    add_rootnode(0), ..., add_rootnode(k-1).  [t_reset k st]: the same two steps on a
    used dictionary.  [t_find]: find_or_insert(parent, c) giving the child's id
    and is_new().  [t_root]: get_rootnode(c).id(). *)
Record trie := mk_trie {
  t_st : Type;
  t_init : N -> option t_st;
  t_reset : N -> t_st -> option t_st;
  t_root : t_st -> N -> N;
  t_find : t_st -> N -> N -> option (N * bool * t_st);
  t_size : t_st -> N }.

(** Specification of a trie: [k] roots with ids 0..k-1 and a list of inserted
    (parent id, letter) pairs; the i-th inserted pair has id k + i. *)
Record atrie := mk_atrie { a_roots : N; a_ent : list (N * N) }.

Fixpoint ent_find (ent : list (N * N)) (p c : N) : option nat :=
  match ent with
  | [] => None
  | (p', c') :: ent' =>
      if (p' =? p) && (c' =? c) then Some O else option_map S (ent_find ent' p c)
  end.

Definition at_find (a : atrie) (p c : N) : N * bool * atrie :=
  match ent_find (a_ent a) p c with
  | Some k => (a_roots a + N.of_nat k, false, a)
  | None => (a_roots a + N.of_nat (length (a_ent a)), true,
             mk_atrie (a_roots a) (a_ent a ++ [(p, c)]))
  end.

Definition at_size (a : atrie) : N := a_roots a + N.of_nat (length (a_ent a)).

(** The abstract trie itself as an instance of the interface. *)
Definition spec_trie : trie :=
  mk_trie atrie (fun k => Some (mk_atrie k [])) (fun k _ => Some (mk_atrie k []))
          (fun _ c => c)
          (fun a p c => Some (at_find a p c)) at_size.

(** [t] behaves like the specification as long as fewer than [lim] nodes exist,
    parents are existing nodes and letters are bytes. *)
Definition trie_ok (lim : N) (t : trie) : Prop :=
  exists R : t_st t -> atrie -> Prop,
    (forall k, (k = 1 \/ k = 256) -> exists st, t_init t k = Some st /\ R st (mk_atrie k [])) /\
    (forall st a k, R st a -> (k = 1 \/ k = 256) -> exists st', t_reset t k st = Some st' /\ R st' (mk_atrie k [])) /\
    (forall st a c, R st a -> c < a_roots a -> t_root t st c = c) /\
    (forall st a, R st a -> t_size t st = at_size a) /\
    (forall st a p c, R st a -> p < at_size a -> c < 256 -> at_size a < lim ->
       exists st', t_find t st p c = Some (fst (at_find a p c), st') /\ R st' (snd (at_find a p c))).

(** ** LZ78 *)
Section LZ78.
  Variable t : trie.
  (** dict_size option; 0 = unlimited *)
  Variable dms : N.

  (** LZ78Compressor.hpp:96-131: the loop over the input and the left-over.
      [lastc] is the variable [c], which keeps the last byte read; line 126 passes
      it as a signed [char]. *)
  Fixpoint lz78_loop (st : t_st t) (node parent fc lastc : N) (text : list N)
    : option (list call) :=
    match text with
    | [] => if node =? 0 then Some []
            else Some [(parent, RInt 0 fc); (sext8 lastc, RLit)]
    | c :: text' =>
        match t_find t st node c with
        | None => None
        | Some (child, isnew, st1) =>
            if isnew then
              let root := t_root t st1 0 in
              if t_size t st1 =? dms then
                do st2 <- t_reset t 1 st1;
                do r <- lz78_loop st2 root root 0 c text';
                Some ((node, RInt 0 fc) :: (c, RLit) :: r)
              else
                do r <- lz78_loop st1 root root (fc + 1) c text';
                Some ((node, RInt 0 fc) :: (c, RLit) :: r)
            else lz78_loop st1 child node fc c text'
        end
    end.

  (** LZ78Compressor.hpp:64-140 compress *)
  Definition lz78_calls (text : list N) : option (list call) :=
    do st <- t_init t 1;
    let root := t_root t st 0 in
    lz78_loop st root root 0 0 text.
  Definition lz78_compress (c : coder) (text : list N) : option (list N) :=
    do cs <- lz78_calls text; c_enc c [] cs.
End LZ78.

(** LZ78Compressor.hpp:26-35: following the references.  [buf] holds the buffer,
    last pushed first, i.e. already in output order.  An index outside the
    vectors is undefined; out of fuel = the loop does not end. *)
Fixpoint lz78_chain (fuel : nat) (ents : list (N * N)) (index lit : N) (buf : list N)
  : option (list N) :=
  if index =? 0 then Some (lit :: buf)
  else match fuel with
       | O => None
       | S fuel =>
           match nth_error ents (N.to_nat (index - 1)) with
           | Some (i', l') => lz78_chain fuel ents i' l' (lit :: buf)
           | None => None
           end
       end.

(** LZ78Compressor.hpp:142-157 decompress; [ents] are the vectors
    indices/literals of lz78::Decompressor (:16-38). *)
Fixpoint lz78_dec_loop (c : coder) (fuel : nat) (ents : list (N * N)) (fc : N) (s : c_st c)
  : option (list N) :=
  if c_eof c s then Some []
  else match fuel with
       | O => None
       | S fuel =>
           do (index, s1) <- c_dec c (RInt 0 fc) s;
           do (chr, s2) <- c_dec c RLit s1;
           let ents' := ents ++ [(w32 index, chr)] in
           do o <- lz78_chain (S (length ents')) ents' (w32 index) chr [];
           do r <- lz78_dec_loop c fuel ents' (fc + 1) s2;
           Some (o ++ r)
       end.
Definition lz78_decompress (c : coder) (fuel : nat) (f : list N) : option (list N) :=
  do s <- c_open c f; lz78_dec_loop c fuel [] 0 s.

(** ** LZW *)
Section LZW.
  Variable t : trie.
  Variable dms : N.

  (** LZWCompressor.hpp:72-101 *)
  Fixpoint lzw_loop (st : t_st t) (node fc : N) (text : list N) : option (list call) :=
    match text with
    | [] => Some [(node, RInt 0 (fc + 256))]
    | c :: text' =>
        match t_find t st node c with
        | None => None
        | Some (child, isnew, st1) =>
            if isnew then
              let node' := t_root t st1 c in
              if t_size t st1 =? dms then
                do st2 <- t_reset t 256 st1;
                do r <- lzw_loop st2 node' 0 text';
                Some ((node, RInt 0 (fc + 256)) :: r)
              else
                do r <- lzw_loop st1 node' (fc + 1) text';
                Some ((node, RInt 0 (fc + 256)) :: r)
            else lzw_loop st1 child fc text'
        end
    end.

  (** LZWCompressor.hpp:39-108 compress *)
  Definition lzw_calls (text : list N) : option (list call) :=
    do st <- t_init t 256;
    match text with
    | [] => Some []
    | c :: text' => lzw_loop st (t_root t st c) 0 text'
    end.
  Definition lzw_compress (c : coder) (text : list N) : option (list N) :=
    do cs <- lzw_calls text; c_enc c [] cs.
End LZW.

(** LZWDecoding.hpp:20-29 reset_dictionary *)
Definition lzw_dict0 (dms : N) : list (N * N) := map (fun c => (dms, N.of_nat c)) (seq 0 256).

(** LZWDecoding.hpp:31-47 rebuild_string; [acc] is the reversed string so far *)
Fixpoint lzw_rebuild (fuel : nat) (dms : N) (dict : list (N * N)) (k : N) (acc : list N)
  : option (list N) :=
  if k =? dms then Some acc
  else match fuel with
       | O => None
       | S fuel =>
           match nth_error dict (N.to_nat k) with
           | Some (k', c) => lzw_rebuild fuel dms dict k' (c :: acc)
           | None => None
           end
       end.

(** LZWDecoding.hpp:56-95 with the callback of LZWCompressor.hpp:119-132.
    front() of an empty vector is undefined; [k > dictionary.size()] throws. *)
Fixpoint lzw_dec_loop (c : coder) (dms : N) (fuel : nat) (dict : list (N * N)) (i counter : N)
         (s : c_st c) : option (list N) :=
  let reset := N.of_nat (length dict) =? dms in
  let dict := if reset then lzw_dict0 dms else dict in
  let counter := if reset then 0 else counter in
  if c_eof c s then Some []
  else match fuel with
       | O => None
       | S fuel =>
           do (k0, s1) <- c_dec c (RInt 0 (counter + 256)) s;
           let k := w32 k0 in
           let size := N.of_nat (length dict) in
           if size <? k then None
           else if k =? size then
             do si <- lzw_rebuild (S (length dict)) dms dict i [];
             match si with
             | [] => None
             | ch :: _ =>
                 let dict' := dict ++ [(i, ch)] in
                 do sk <- lzw_rebuild (S (length dict')) dms dict' k [];
                 do r <- lzw_dec_loop c dms fuel dict' k (counter + 1) s1;
                 Some (sk ++ r)
             end
           else
             do sk <- lzw_rebuild (S (length dict)) dms dict k [];
             match sk with
             | [] => None
             | ch :: _ =>
                 let dict' := if i =? dms then dict else dict ++ [(i, ch)] in
                 do r <- lzw_dec_loop c dms fuel dict' k (counter + 1) s1;
                 Some (sk ++ r)
             end
       end.

(** LZWCompressor.hpp:110-133; [dms_opt] is the dict_size option, 0 = unlimited
    (DMS_MAX = 2^32 - 1, LZ78Trie.hpp:17) *)
Definition lzw_decompress (c : coder) (dms_opt : N) (fuel : nat) (f : list N) : option (list N) :=
  let dms := if dms_opt =? 0 then 2 ^ 32 - 1 else dms_opt in
  do s <- c_open c f; lzw_dec_loop c dms fuel (lzw_dict0 dms) dms 0 s.
