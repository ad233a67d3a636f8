(** Models of io/InputRestrictions.hpp, io/EscapeMap.hpp, io/RestrictedBuffer.hpp and
    io/RestrictedIOStream.hpp. *)
From Verif Require Import Base.
Local Open Scope N_scope.

(** ** InputRestrictions (io/InputRestrictions.hpp) *)
Record restr := mk_restr { r_esc : list N; r_nt : bool }.

(** std::sort, on bytes: any sorting function gives the same list; insertion sort here *)
Fixpoint insert_byte (x : N) (l : list N) : list N :=
  match l with
  | [] => [x]
  | y :: l' => if x <=? y then x :: l else y :: insert_byte x l'
  end.
Fixpoint sort_bytes (l : list N) : list N :=
  match l with [] => [] | x :: l' => insert_byte x (sort_bytes l') end.
(** std::unique + erase: keep the first of each run of equal elements *)
Fixpoint uniq (l : list N) : list N :=
  match l with
  | x :: ((y :: _) as l') => if x =? y then uniq l' else x :: uniq l'
  | _ => l
  end.
(** InputRestrictions.hpp:14-17 sort_and_dedup, :23-28 constructor *)
Definition mk_restrictions (esc : list N) (nt : bool) : restr := mk_restr (uniq (sort_bytes esc)) nt.
(** InputRestrictions.hpp:38-52 *)
Definition has_no_escape_restrictions (r : restr) : bool := match r_esc r with [] => true | _ => false end.
Definition has_no_restrictions (r : restr) : bool := has_no_escape_restrictions r && negb (r_nt r).
Definition has_escape_restrictions (r : restr) : bool := negb (has_no_escape_restrictions r).
Definition has_restrictions (r : restr) : bool := negb (has_no_restrictions r).
(** InputRestrictions.hpp:64-80 operator| (the constructor already sorts; the second
    sort_and_dedup() is modelled too) *)
Definition restr_or (a b : restr) : restr :=
  let r := mk_restrictions (r_esc a ++ r_esc b) (r_nt a || r_nt b) in
  mk_restr (uniq (sort_bytes (r_esc r))) (r_nt r).
Fixpoint eqb_list (a b : list N) : bool :=
  match a, b with
  | [], [] => true
  | x :: a', y :: b' => (x =? y) && eqb_list a' b'
  | _, _ => false
  end.
(** InputRestrictions.hpp:88-92 operator== *)
Definition restr_eq (a b : restr) : bool := eqb_list (r_esc a) (r_esc b) && Bool.eqb (r_nt a) (r_nt b).

(** ** EscapeMap (io/EscapeMap.hpp:10-24) *)
Definition pool : list N := [255; 254; 192; 193; 245; 246; 247; 248; 249; 250; 251; 252; 253].

(** EscapeMap.hpp:47-55: the loop over the pool *)
Definition byte_in (x : N) (l : list N) : bool := existsb (N.eqb x) l.
Fixpoint pick_repl (ps esc acc : list N) : list N :=
  match ps with
  | [] => acc
  | b :: ps' => if negb (byte_in b esc) && (length acc <? length esc + 1)%nat
                then pick_repl ps' esc (acc ++ [b])
                else pick_repl ps' esc acc
  end.
Record escmap := mk_em { em_rb : list N; em_eb : list N; em_nt : bool }.
(** EscapeMap.hpp:39-64; [None]: at(0) throws, or fewer replacement than escape
    bytes, in which case FastEscapeMap (:110-113) reads past the end. *)
Definition escape_map (r : restr) : option escmap :=
  match r_esc r with
  | [] => Some (mk_em [] [] (r_nt r))
  | _ => let rb := pick_repl pool (r_esc r) [] in
         match rb with
         | [] => None
         | e :: _ => if (length rb =? length (e :: r_esc r))%nat
                     then Some (mk_em rb (e :: r_esc r) (r_nt r)) else None
         end
  end.
(** EscapeMap.hpp:66-77: escape_byte() is (uint8_t)-1 without escape bytes *)
Definition em_escape_byte (m : escmap) : N := match em_rb m with e :: _ => e | [] => 255 end.
Definition em_has_escape (m : escmap) : bool := match em_eb m with [] => false | _ => true end.
(** EscapeMap.hpp:94-139 FastEscapeMap and :142-181 FastUnescapeMap: 256-entry tables
    filled in order of i, later entries overwriting earlier ones *)
Fixpoint table_set (keys vals : list N) (t : list N) : list N :=
  match keys, vals with
  | k :: keys', v :: vals' => table_set keys' vals' (upd t (N.to_nat k) v)
  | _, _ => t
  end.
Definition ident_table : list N := map N.of_nat (seq 0 256).
Definition fe_map (m : escmap) : list N := table_set (em_eb m) (em_rb m) ident_table.
Definition fe_flag (m : escmap) : list N := table_set (em_eb m) (map (fun _ => 1) (em_eb m)) (repeat 0 256).
Definition fu_map (m : escmap) : list N := table_set (em_rb m) (em_eb m) ident_table.
Definition look (t : list N) (b : N) : N := nth (N.to_nat b) t 0.

(** ** RestrictedBuffer *)
(** RestrictedBuffer.hpp:43-66, in place: the next [k] bytes (from the right) are
    read from [buf] and written leftwards from index [w].  [None] = index below 0. *)
Fixpoint esc_loop (m : escmap) (k w : nat) (buf : list N) : option (list N) :=
  match k with
  | O => Some buf
  | S k' =>
      match w with
      | O => None
      | S w1 =>
          let c := nth k' buf 0 in
          let buf1 := upd buf w1 (look (fe_map m) c) in
          if negb (look (fe_flag m) c =? 0) then
            match w1 with
            | O => None
            | S w2 => esc_loop m k' w2 (upd buf1 w2 (em_escape_byte m))
            end
          else esc_loop m k' w1 buf1
      end
  end.
(** the same with separate source and target (RestrictedBuffer.hpp:117-131) *)
Fixpoint esc_loop2 (m : escmap) (src : list N) (k w : nat) (buf : list N) : option (list N) :=
  match k with
  | O => Some buf
  | S k' =>
      match w with
      | O => None
      | S w1 =>
          let c := nth k' src 0 in
          let buf1 := upd buf w1 (look (fe_map m) c) in
          if negb (look (fe_flag m) c =? 0) then
            match w1 with
            | O => None
            | S w2 => esc_loop2 m src k' w2 (upd buf1 w2 (em_escape_byte m))
            end
          else esc_loop2 m src k' w1 buf1
      end
  end.
(** RestrictedBuffer.hpp:67-73 do_copy *)
Fixpoint copy_loop (src : list N) (k w : nat) (buf : list N) : option (list N) :=
  match k with
  | O => Some buf
  | S k' => match w with
            | O => None
            | S w1 => copy_loop src k' w1 (upd buf w1 (nth k' src 0))
            end
  end.
(** RestrictedBuffer.hpp:81-106 *)
Definition extra_size (r : restr) (m : escmap) (data : list N) : nat :=
  ((if has_no_escape_restrictions r then 0
    else fold_left (fun a c => a + N.to_nat (look (fe_flag m) c)) data 0)
   + (if r_nt r then 1 else 0))%nat.

(** RestrictedBuffer.hpp:109-134: source is a view.  MMap(size) is zero-filled. *)
Definition restrict_view (r : restr) (data : list N) : option (list N) :=
  do m <- escape_map r;
  let extra := extra_size r m data in
  if (extra =? 0)%nat then Some data
  else
    let buf := repeat 0 (length data + extra) in
    let wend := (length data + extra - (if r_nt r then 1 else 0))%nat in
    if has_no_escape_restrictions r then copy_loop data (length data) wend buf
    else esc_loop2 m data (length data) wend buf.

(** RestrictedBuffer.hpp:135-185: source is a file; [junk] are the bytes the mapping
    contains behind the data (as many as needed) *)
Definition restrict_file (r : restr) (data : list N) (junk : nat -> N) : option (list N) :=
  do m <- escape_map r;
  let extra := extra_size r m data in
  if has_no_restrictions r then Some data
  else
    let buf := data ++ map junk (seq 0 extra) in
    let wend := (length data + extra - (if r_nt r then 1 else 0))%nat in
    do buf' <- (if has_no_escape_restrictions r then Some buf else esc_loop m (length data) wend buf);
    Some (if r_nt r then upd buf' wend 0 else buf').

(** RestrictedBuffer.hpp:186-250: source is a stream; remap() zero-fills *)
Definition restrict_stream (r : restr) (data : list N) : option (list N) :=
  do m <- escape_map r;
  let extra := extra_size r m data in
  let buf := data ++ repeat 0 extra in
  let wend := (length data + extra - (if r_nt r then 1 else 0))%nat in
  if has_no_escape_restrictions r then Some buf else esc_loop m (length data) wend buf.

(** RestrictedBuffer.hpp:303-352 restrict(): add restrictions to an unrestricted stream buffer *)
Definition restrict_again (r : restr) (data : list N) : option (list N) :=
  if restr_eq (mk_restrictions [] false) r then Some data
  else
    do m <- escape_map r;
    let extra := extra_size r m data in
    if (extra =? 0)%nat then Some data
    else
      let buf := data ++ repeat 0 extra in
      let wend := (length data + extra - (if r_nt r then 1 else 0))%nat in
      do buf' <- (if has_no_escape_restrictions r then Some buf else esc_loop m (length data) wend buf);
      Some (if r_nt r then upd buf' wend 0 else buf').

(** RestrictedBuffer.hpp:281-290, in place; [p] is read_p, [q] write_p; reading at or
    beyond [lim] = end of the mapping is undefined *)
Fixpoint unesc_loop (m : escmap) (fuel p q dend : nat) (buf : list N) : option (nat * nat * list N) :=
  if (p =? dend)%nat then Some (p, q, buf)
  else match fuel with
       | O => None
       | S fuel =>
           do c <- nth_error buf p;
           if c =? em_escape_byte m then
             do d <- nth_error buf (S p);
             unesc_loop m fuel (S (S p)) (S q) dend (upd buf q (look (fu_map m) d))
           else unesc_loop m fuel (S p) (S q) dend (upd buf q c)
       end.
(** RestrictedBuffer.hpp:257-300 unrestrict() *)
Definition unrestrict (r : restr) (buf : list N) : option (list N) :=
  if has_no_restrictions r then Some buf
  else
    do m <- escape_map r;
    let noff := if r_nt r then 1%nat else 0%nat in
    if (length buf <? noff)%nat then None
    else
      do (p, q, buf') <- unesc_loop m (S (length buf)) 0 0 (length buf - noff) buf;
      Some (firstn (length buf - ((p - q) + noff)) buf').
(** RestrictedBuffer.hpp:357-364 change_restrictions *)
Definition change_restrictions (r r' : restr) (buf : list N) : option (list N) :=
  do b <- unrestrict r buf; restrict_again r' b.

(** ** Streams (io/RestrictedIOStream.hpp) *)
(** :476-536 RestrictedIStreamBuf: the bytes delivered until eof *)
Definition istream_restrict (r : restr) (data : list N) : option (list N) :=
  do m <- escape_map r;
  Some (flat_map (fun b => if negb (look (fe_flag m) b =? 0)
                           then [em_escape_byte m; look (fe_map m) b] else [b]) data
        ++ (if em_nt m then [0] else [])).
(** :417-446 push_unescape: state (saw_escape, saw_null), output *)
Definition push_unescape (m : escmap) (st : bool * bool) (c : N) : bool * bool * list N :=
  let (saw_esc, saw_null) := st in
  let pend := if saw_null then [0] else [] in
  if saw_esc then (false, false, pend ++ [look (fu_map m) c])
  else if em_has_escape m && (c =? em_escape_byte m) then (true, saw_null, [])
  else if (c =? 0) && em_nt m then (false, true, pend)
  else (false, false, pend ++ [c]).
Fixpoint push_all (m : escmap) (st : bool * bool) (l : list N) : bool * bool * list N :=
  match l with
  | [] => (st, [])
  | c :: l' => let (st1, o1) := push_unescape m st c in
               let (st2, o2) := push_all m st1 l' in (st2, o1 ++ o2)
  end.
(** everything written to the underlying stream until the adapter is destroyed *)
Definition ostream_unrestrict (r : restr) (l : list N) : option (list N) :=
  do m <- escape_map r; Some (snd (push_all m (false, false) l)).
