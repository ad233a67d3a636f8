(** Model of LZ78UCompressor.hpp and lz78u/{StreamingStrategy,BufferingStrategy,SuffixTree}.hpp.

    The suffix tree itself comes from sdsl (cst_sada), which is not part of the repository.
    What the code asks of it is modelled by its definition: the internal nodes above the
    leaf of the suffix at [pos] are the prefixes of that suffix whose length is the longest
    common prefix with another suffix.  A node is identified with its string (nid is an
    injective numbering of the internal nodes).  An entry of sdsl::int_vector keeps the
    low bits that fit its width. *)
From Verif Require Import Base BitIO IntCodes Coders BitCoders Huffman.
Local Open Scope nat_scope.

(** INDEX_MAX; len_r (Range.hpp:96-99, :115) *)
Definition index_max : N := (2 ^ 32 - 1)%N.

(** ** SuffixTree.hpp *)
Fixpoint lcp (a b : list N) : nat :=
  match a, b with
  | x :: a', y :: b' => if (x =? y)%N then S (lcp a' b') else 0
  | _, _ => 0
  end.
(** string depths of the internal nodes above the leaf select_leaf(isa[pos]) (:53-55), from the
    root down: level_anc(leaf, 0), level_anc(leaf, 1), ... (:43-46) *)
Definition depths (T : list N) (pos : nat) : list nat :=
  let ls := map (fun j => if j =? pos then length T else lcp (skipn pos T) (skipn j T)) (seq 0 (length T)) in
  filter (fun d => existsb (Nat.eqb d) ls) (seq 0 (length T)).
(** the node of string depth [d] above the leaf of [pos] *)
Definition node (T : list N) (pos d : nat) : list N := firstn d (skipn pos T).

(** R (LZ78UCompressor.hpp:139), the entries that were written, newest first; 0 elsewhere *)
Definition rmap := list (list N * N).
Fixpoint list_eqb (a b : list N) : bool :=
  match a, b with
  | [], [] => true
  | x :: a, y :: b => (x =? y)%N && list_eqb a b
  | _, _ => false
  end.
Fixpoint rget (R : rmap) (w : list N) : N :=
  match R with
  | [] => 0%N
  | (k, v) :: R => if list_eqb k w then v else rget R w
  end.
(** :136: max_z; csa.sigma is the number of different symbols *)
Definition sigma (T : list N) : nat := length (nodup N.eq_dec T).
Definition r_width (T : list N) : nat :=
  let n := N.of_nat (length T) in
  bits_forn (n * N.of_nat (bits_forn (N.of_nat (sigma T))) / N.of_nat (bits_forn n)).
Definition rset (wd : nat) (R : rmap) (w : list N) (z : N) : rmap := (w, (z mod 2 ^ N.of_nat wd)%N) :: R.

(** calls of the strategy (encode_ref with the end of its range, encode_sep, encode_char) *)
Inductive ev := ERef (v mx : N) | ESep (b : bool) | EChr (c : N).
(** encode_str (StreamingStrategy.hpp:45-50, BufferingStrategy.hpp:61-66) *)
Definition ev_str (s : list N) : list ev := map EChr s ++ [EChr 0%N].

Section Compress.
  Variables (T : list N) (th : nat).

  (** :158: while(T[end-1] == 0) --end *)
  Fixpoint strip (e : nat) : option nat :=
    match e with
    | O => None
    | S e' => do c <- nth_error T e'; if (c =? 0)%N then strip e' else Some e
    end.
  (** :175-181, :246-254: the depths of [parent] and, if there is one below, of [node], the
      first internal node without a factor *)
  Fixpoint walk (R : rmap) (pos : nat) (parent : nat) (ds : list nat) : nat * option nat :=
    match ds with
    | [] => (parent, None)
    | d :: ds => if (rget R (node T pos d) =? 0)%N then (parent, Some d) else walk R pos d ds
    end.
  (** :171-211 *)
  Fixpoint sub_loop (fuel : nat) (R : rmap) (fc : N) (pos e : nat) : option (list ev) :=
    if pos <? e then
      match fuel with
      | O => None
      | S fuel =>
          let depth := fst (walk R pos 0 (tl (depths T pos))) in
          if depth <? th then
            do c <- nth_error T pos;
            do r <- sub_loop fuel R fc (pos + 1) e;
            Some (ESep false :: EChr c :: r)
          else
            do r <- sub_loop fuel R fc (pos + depth) e;
            Some (ESep true :: ERef (rget R (node T pos depth)) fc ::
                  (if e <? pos + depth then [ESep true; ERef 0 fc; ERef (N.of_nat (pos + depth - e)) index_max] else []) ++ r)
      end
    else Some [ESep false; EChr 0%N].
  (** :156-221 output(begin, end, ref); [fc]: factor_count.  end < begin (which would wrap
      around in end-begin) is excluded. *)
  Definition out_factor (fuel : nat) (R : rmap) (fc : N) (b e : nat) (ref : N) : option (list ev) :=
    do e <- strip e;
    if e <? b then None
    else if th <=? e - b then
      do s <- sub_loop fuel R fc b e; Some (ERef ref fc :: ESep false :: s)
    else Some (ERef ref fc :: ESep true :: ev_str (firstn (e - b) (skipn b T))).
  (** :226-270; the calls of each factor *)
  Fixpoint lz78u_loop (fuel : nat) (R : rmap) (fc : N) (pos : nat) : option (list (list ev)) :=
    if pos <? length T - 1 then
      match fuel with
      | O => None
      | S fuel =>
          let ds := depths T pos in
          let pd := last ds 0 in                                       (* str_depth(parent(l)) *)
          if (pd =? 0) || negb (rget R (node T pos pd) =? 0)%N then
            do f <- out_factor fuel R fc (pos + pd) (pos + pd + 1) (rget R (node T pos pd));
            do r <- lz78u_loop fuel R (fc + 1) (pos + pd + 1);
            Some (f :: r)
          else
            match walk R pos 0 (tl ds) with
            | (_, None) => None                                        (* nid of a leaf *)
            | (p, Some d) =>
                do f <- out_factor fuel R fc (pos + p) (pos + d) (rget R (node T pos p));
                do r <- lz78u_loop fuel (rset (r_width T) R (node T pos d) (fc + 1)) (fc + 1) (pos + d);
                Some (f :: r)
            end
      end
    else Some [].
End Compress.
(** the factors of a text (with its terminator) *)
Definition lz78u_factors (fuel : nat) (T : list N) (th : nat) : option (list (list ev)) := lz78u_loop T th fuel [] 0 0.

(** ** The strategies.  [cr]: coder of the references, [cs]: coder of the characters *)
Section Strategy.
  Context (cr cs : bcoder).

  Definition ev_chars (es : list ev) : list N := flat_map (fun e => match e with EChr c => [c] | _ => [] end) es.
  (** StreamingStrategy.hpp:35-55, BufferingStrategy.hpp:85-108 *)
  Definition enc_ev (sr : bc_st cr) (ss : bc_st cs) (e : ev) : option (list bool) :=
    match e with
    | ERef v mx => bc_enc cr sr (v, RInt 0 mx)
    | ESep b => Some [b]
    | EChr c => bc_enc cs ss (c, RLit)
    end.
  Fixpoint enc_evs (sr : bc_st cr) (ss : bc_st cs) (es : list ev) : option (list bool) :=
    match es with
    | [] => Some []
    | e :: es => do a <- enc_ev sr ss e; do b <- enc_evs sr ss es; Some (a ++ b)
    end.
  (** the file: BufferingStrategy.hpp:68-114 (the destructor; [lits] are the characters collected),
      StreamingStrategy.hpp:26-33 (NoLiterals) *)
  Definition enc_strategy (lits : list N) (es : list ev) : option (list N) :=
    do (sr, h1) <- bc_init cr [];
    do (ss, h2) <- bc_init cs lits;
    do b <- enc_evs sr ss es;
    Some (bits_file (h1 ++ h2 ++ b)).
  Definition buffering (es : list ev) : option (list N) := enc_strategy (ev_chars es) es.
  Definition streaming (es : list ev) : option (list N) := enc_strategy [] es.

  (** decode_str (StreamingStrategy.hpp:82-92) *)
  Fixpoint dec_str (fuel : nat) (ds : bc_dst cs) (s : bis) : option (list N * bis) :=
    match fuel with
    | O => None
    | S fuel =>
        do (c, s) <- bc_dec cs RLit ds s;
        if (w8 c =? 0)%N then Some ([], s)
        else do (r, s) <- dec_str fuel ds s; Some (w8 c :: r, s)
    end.
  (** lz78u::Decompressor (LZ78UCompressor.hpp:24-86): reference and string of each factor.
      The strings are stored one after the other there. *)
  Definition entries := list (N * list N).
  (** :32-51 ref_at, str_at; the argument is a 32-bit number *)
  Definition entry_at (es : entries) (i : N) : option (N * list N) :=
    if (w32 i =? 0)%N then None else nth_error es (N.to_nat (w32 i - 1)).
  (** :66-81 and :331-352: following the references; [acc]: the string so far *)
  Fixpoint expand (fuel : nat) (es : entries) (i : N) (acc : list N) : option (list N) :=
    if (i =? 0)%N then Some acc
    else match fuel with
    | O => None
    | S fuel => do (r, lab) <- entry_at es i; expand fuel es r (lab ++ acc)
    end.
  (** :309-359: the label of a factor that was factorized; popping from an empty vector is [None] *)
  Fixpoint dec_label (fuel : nat) (dr : bc_dst cr) (ds : bc_dst cs) (es : entries) (fc : N) (buf : list N) (s : bis)
      : option (list N * bis) :=
    match fuel with
    | O => None
    | S fuel =>
        let (b, s) := bis_read_bit s in
        do (buf, s) <-
          (if b then
             do (r, s) <- bc_dec cr (RInt 0 fc) dr s;
             if (r =? 0)%N then
               do (cut, s) <- bc_dec cr (RInt 0 index_max) dr s;
               if (N.of_nat (length buf) <? cut)%N then None else Some (firstn (length buf - N.to_nat cut) buf, s)
             else do w <- expand (S (length es)) es r []; Some (buf ++ w, s)
           else do (c, s) <- bc_dec cs RLit ds s; Some (buf ++ [w8 c], s));
        if (0 <? length buf) && (last buf 1%N =? 0)%N then Some (removelast buf, s)
        else dec_label fuel dr ds es fc buf s
    end.
  (** :291-375 *)
  Fixpoint dec_factors (fuel : nat) (dr : bc_dst cr) (ds : bc_dst cs) (es : entries) (s : bis) : option (list N) :=
    if bis_eof s then Some [0%N]                                        (* :378 *)
    else match fuel with
    | O => None
    | S fuel' =>
        let fc := N.of_nat (length es) in
        do (ref, s) <- bc_dec cr (RInt 0 fc) dr s;
        let (b, s) := bis_read_bit s in
        do (lab, s) <- (if b then dec_str fuel ds s else dec_label fuel dr ds es fc [] s);
        let es' := es ++ [(w32 ref, lab)] in
        do w <- expand (S (length es')) es' (w32 ref) lab;
        do r <- dec_factors fuel' dr ds es' s;
        Some (w ++ r)
    end.
  (** :273-380; the constructors of the decoders (StreamingStrategy.hpp:64-71) *)
  Definition lz78u_decompress (fuel : nat) (file : list N) : option (list N) :=
    do (dr, s) <- bc_open cr (bis_open file);
    do (ds, s) <- bc_open cs s;
    dec_factors fuel dr ds [] s.
End Strategy.

(** :117-271 compress with either strategy *)
Definition lz78u_buffering (cr cs : bcoder) (fuel : nat) (T : list N) (th : nat) : option (list N) :=
  do fs <- lz78u_factors fuel T th; buffering cr cs (concat fs).
Definition lz78u_streaming (cr cs : bcoder) (fuel : nat) (T : list N) (th : nat) : option (list N) :=
  do fs <- lz78u_factors fuel T th; streaming cr cs (concat fs).
