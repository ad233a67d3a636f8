(** Models of io/Input.hpp, io/InputSize.hpp, io/InputView.hpp, io/InputStream.hpp,
    io/InputAlloc.hpp, io/InputSource.hpp and io/Output.hpp, io/OutputStream.hpp.

    Positions are natural numbers ([None] is [npos]); their sums do not overflow 64 bits.
    [dbg] says whether DCHECKs are compiled in. A failed CHECK or DCHECK, or an access outside of
    the data, is [None]. *)
From Verif Require Import Base Escape.
Local Open Scope nat_scope.

(** View::slice (pre_header/GenericViewBase.hpp:178-188, modelled in View.v), on the
    elements; out of range is rejected *)
Definition vslice (data : list N) (from : nat) (to : option nat) : option (list N) :=
  let e := match to with Some t => t | None => length data end in
  if (from <=? e) && (e <=? length data) then Some (firstn (e - from) (skipn from data)) else None.

(** InputSource.hpp:13-30: what the source holds *)
Inductive source := SView (data : list N) | SFile (data : list N) | SStream (data : list N).
Definition src_data (s : source) : list N := match s with SView d | SFile d | SStream d => d end.

(** Input.hpp Variant: source, from, to, restrictions *)
Record input := mk_input { i_src : source; i_from : nat; i_to : option nat; i_restr : restr }.
(** Input.hpp: constructors from a source (m_from = 0, m_to = npos, no restrictions) *)
Definition input_of (s : source) : input := mk_input s 0 None (mk_restrictions [] false).
(** InputSize.hpp:60-72 Variant::slice *)
Definition in_slice (i : input) (from : nat) (to : option nat) : input :=
  mk_input (i_src i) (i_from i + from)
    (match to with None => None | Some t => Some (i_from i + t) end) (i_restr i).
(** InputSize.hpp:74-78 Variant::restrict *)
Definition in_restrict (i : input) (r : restr) : input :=
  mk_input (i_src i) (i_from i) (i_to i) (restr_or (i_restr i) r).

(** *** Memory and files: every access builds its own buffer *)
(** InputAlloc.hpp:303-351 find_or_construct, for view and file sources: a cached chunk has the same
    source, range and restrictions, hence the same contents as a new one.
    RestrictedBuffer.hpp:108-134 (view), :135-185 (file; the mapping continues with the
    file's bytes behind the slice, then with zeros). *)
Definition mem_view (i : input) (data : list N) : option (list N) :=
  do s <- vslice data (i_from i) (i_to i); restrict_view (i_restr i) s.
Definition file_view (i : input) (data : list N) : option (list N) :=
  do s <- vslice data (i_from i) (i_to i);
  restrict_file (i_restr i) s (fun k => nth (i_from i + length s + k) data 0%N).
(** InputStream.hpp:146-191 as_stream: the bytes until eof *)
Definition apply_istream (r : restr) (s : list N) : option (list N) :=
  if has_no_restrictions r then Some s else istream_restrict r s.
Definition mem_stream (i : input) (data : list N) : option (list N) :=
  do s <- vslice data (i_from i) (i_to i); apply_istream (i_restr i) s.
(** the file is opened at offset [from]; [to] is only looked at by a DCHECK *)
Definition file_stream (dbg : bool) (i : input) (data : list N) : option (list N) :=
  match i_to i with
  | Some _ => if dbg then None else apply_istream (i_restr i) (skipn (i_from i) data)
  | None => apply_istream (i_restr i) (skipn (i_from i) data)
  end.
(** InputSize.hpp:4-55 size() (the cached value is the one computed at first).  The size
    of an unrestricted input is [to - from], without any check. *)
Definition plain_size (i : input) (data : list N) : option nat :=
  let e := match i_to i with Some t => t | None => length data end in
  if i_from i <=? e then Some (e - i_from i) else None.
Definition mem_size (i : input) (data : list N) : option nat :=
  if has_no_restrictions (i_restr i) then plain_size i data
  else do s <- mem_stream i data; Some (length s).
Definition file_size (dbg : bool) (i : input) (data : list N) : option nat :=
  if has_no_restrictions (i_restr i) then plain_size i data
  else do s <- file_stream dbg i data; Some (length s).

(** as_view, as_stream and size of an Input on memory or a file (streams: see below) *)
Definition as_view (i : input) : option (list N) :=
  match i_src i with SView d => mem_view i d | SFile d => file_view i d | SStream _ => None end.
Definition as_stream (dbg : bool) (i : input) : option (list N) :=
  match i_src i with SView d => mem_stream i d | SFile d => file_stream dbg i d | SStream _ => None end.
Definition in_size (dbg : bool) (i : input) : option nat :=
  match i_src i with SView d => mem_size i d | SFile d => file_size dbg i d | SStream _ => None end.

(** *** Streams: one shared buffer *)
(** A slice of the shared buffer registered in the pool (InputAllocChunkReferenced,
    InputAlloc.hpp:80-107) *)
Record kid := mk_kid { k_id : nat; k_from : nat; k_to : option nat; k_bytes : list N }.
(** The pool (InputAlloc.hpp:111-361): the buffer with the whole stream and its
    restrictions, the registered slices, the live handles (held by InputView and
    InputStream objects; [None]: a handle on the whole buffer) and a counter for fresh
    chunk identities. *)
Record pool_st := mk_pool { p_root : option (restr * list N); p_kids : list kid;
                            p_open : list (nat * option nat); p_next : nat }.
Definition pool0 : pool_st := mk_pool None [] [] 0.
Definition same_to (a b : option nat) : bool :=
  match a, b with Some x, Some y => x =? y | None, None => true | _, _ => false end.

(** InputAlloc.hpp:239-259: the loops that translate an offset to an offset in the
    escaped buffer; result, and the rest of the buffer where the loop stopped *)
Fixpoint scan (v : list N) (eb : N) (i u target : nat) : option nat * list N * nat * nat :=
  match v with
  | [] => (None, [], i, u)
  | c :: v' => if u =? target then (Some i, v, i, u)
               else scan v' eb (S i) (if (c =? eb)%N then u else S u) target
  end.
(** InputAlloc.hpp:222-277: the slice of the shared buffer [v] with restrictions [r] *)
Definition slice_root (r : restr) (v : list N) (from : nat) (to : option nat) : option (list N) :=
  do (ef, et) <-
    (if has_no_escape_restrictions r then Some (from, to)
     else do m <- escape_map r;
          let '(a, v', i, u) := scan v (em_escape_byte m) 0 0 from in
          let ef := match a with Some x => x | None => 0 end in
          match to with
          | Some t => let '(b, _, _, _) := scan v' (em_escape_byte m) i u t in
                      Some (ef, Some (match b with Some x => x | None => 0 end))
          | None => Some (ef, None)
          end);
  if r_nt r && (match et with Some _ => true | None => false end) then None
  else vslice v ef et.

(** the result of find_or_construct: the chunk's identity ([None]: the whole buffer) and
    its bytes *)
(** InputAlloc.hpp:158-277 create_stream and :303-338 find_or_construct, for a stream source *)
Definition find_or_construct (data : list N) (st : pool_st) (from : nat) (to : option nat) (r : restr) :
  option (pool_st * (option nat * list N)) :=
  let whole := (from =? 0) && same_to to None in
  (* exact matches in the pool *)
  match p_root st with
  | Some (r0, v0) =>
      if whole && restr_eq r0 r then Some (st, (None, v0))
      else
        match (if restr_eq r0 r
               then find (fun k => (k_from k =? from) && same_to (k_to k) to) (p_kids st) else None) with
        | Some k => Some (st, (Some (k_id k), k_bytes k))
        | None =>
            (* change the restrictions of the shared buffer, which nobody else may hold *)
            do v <- (if restr_eq r0 r then Some v0
                     else match p_kids st, p_open st with
                          | [], [] => change_restrictions r0 r v0
                          | _, _ => None
                          end);
            let st1 := mk_pool (Some (r, v)) (p_kids st) (p_open st) (p_next st) in
            if whole then Some (st1, (None, v))
            else do b <- slice_root r v from to;
                 Some (mk_pool (Some (r, v)) (p_kids st ++ [mk_kid (p_next st) from to b]) (p_open st) (S (p_next st)),
                       (Some (p_next st), b))
        end
  | None =>
      do v <- restrict_stream r data;
      if whole then Some (mk_pool (Some (r, v)) (p_kids st) (p_open st) (p_next st), (None, v))
      else do b <- slice_root r v from to;
           Some (mk_pool (Some (r, v)) (p_kids st ++ [mk_kid (p_next st) from to b]) (p_open st) (S (p_next st)),
                 (Some (p_next st), b))
  end.
(** InputAlloc.hpp:368-383 unregister_alloc_chunk_handle, :279-300 remove *)
Definition unregister (st : pool_st) (c : option nat) : pool_st :=
  match c with
  | None => st
  | Some id => mk_pool (p_root st) (filter (fun k => negb (k_id k =? id)) (p_kids st)) (p_open st) (p_next st)
  end.
(** a user's accesses to Inputs of one stream; [h] names the new InputView / InputStream object *)
Inductive access :=
| AView (h : nat) (from : nat) (to : option nat) (r : restr)
| AStream (h : nat) (from : nat) (to : option nat) (r : restr)
| ASize (from : nat) (to : option nat) (r : restr)
| AClose (h : nat).
Inductive answer := RBytes (l : list N) | RSize (n : nat) | RDone.
Definition open_handle (st : pool_st) (h : nat) (c : option nat) : pool_st :=
  mk_pool (p_root st) (p_kids st) ((h, c) :: p_open st) (p_next st).
(** InputView.hpp:48-52; InputStream.hpp:174-190 (the moved-from temporary, whose handle was copied
    at :20-23, unregisters the chunk at once); InputSize.hpp:47-53; the destructors
    InputView.hpp:20-22 and InputStream.hpp:37-39 *)
Definition do_access (data : list N) (st : pool_st) (a : access) : option (pool_st * answer) :=
  match a with
  | AView h from to r =>
      do (st1, (c, b)) <- find_or_construct data st from to r;
      Some (open_handle st1 h c, RBytes b)
  | AStream h from to r =>
      do (st1, (c, b)) <- find_or_construct data st from to r;
      Some (unregister (open_handle st1 h c) c, RBytes b)
  | ASize from to r =>
      do (st1, (c, b)) <- find_or_construct data st from to r;
      Some (unregister st1 c, RSize (length b))
  | AClose h =>
      match find (fun x => fst x =? h) (p_open st) with
      | None => None
      | Some (_, c) =>
          let st1 := mk_pool (p_root st) (p_kids st) (filter (fun x => negb (fst x =? h)) (p_open st)) (p_next st) in
          Some (unregister st1 c, RDone)
      end
  end.
Fixpoint do_accesses (data : list N) (st : pool_st) (l : list access) : option (pool_st * list answer) :=
  match l with
  | [] => Some (st, [])
  | a :: l' => do (st1, x) <- do_access data st a;
               do (st2, xs) <- do_accesses data st1 l';
               Some (st2, x :: xs)
  end.

(** *** Outputs *)
(** Output.hpp:24-128: the contents of the target ([None]: no such file), the overwrite flag
    (files only), the restrictions to undo *)
Inductive okind := OMem | OFile | OStream.
Record output := mk_output { o_kind : okind; o_over : bool; o_restr : restr }.
Definition output_of (k : okind) (overwrite : bool) : output := mk_output k overwrite (mk_restrictions [] false).
(** Output.hpp:164 and :51-54, :71-74, :87-90 *)
Definition out_unrestrict (o : output) (r : restr) : output :=
  mk_output (o_kind o) (o_over o) (restr_or (o_restr o) r).
(** OutputStream.hpp:185-225 as_stream (files are opened for appending unless the flag is set, :67-79), everything written through it, and its end; result: the
    new contents and the Output with its flag cleared *)
Definition out_write (o : output) (contents : list N) (l : list N) : option (output * list N) :=
  do l' <- (if has_no_restrictions (o_restr o) then Some l else ostream_unrestrict (o_restr o) l);
  match o_kind o with
  | OFile => Some (mk_output OFile false (o_restr o), (if o_over o then [] else contents) ++ l')
  | _ => Some (o, contents ++ l')
  end.
