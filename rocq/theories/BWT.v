(** Model of ds/bwt.hpp and compressors/BWTCompressor.hpp.  Counters are [nat]: texts are
    shorter than 2^32 (len_compact_t). *)
From Verif Require Import Base.
Local Open Scope nat_scope.

(** bwt.hpp:20-22 *)
Definition bwt_char (text : list N) (p : nat) : option N :=
  if p =? 0 then nth_error text (length text - 1) else nth_error text (p - 1).
(** BWTCompressor.hpp:29-50 compress: one symbol per entry of the suffix array [sa]
    (t.size() entries) *)
Fixpoint bwt_encode (text : list N) (sa : list nat) : option (list N) :=
  match sa with
  | [] => Some []
  | p :: sa' => do c <- bwt_char text p; do r <- bwt_encode text sa'; Some (c :: r)
  end.

(** bwt.hpp:32-37: C[c+1] counts symbol c, except ULITERAL_MAX = 255 *)
Fixpoint bwt_count (C : list nat) (bwt : list N) : list nat :=
  match bwt with
  | [] => C
  | c :: bwt' =>
      let c := N.to_nat c in
      bwt_count (if c =? 255 then C else upd C (c + 1) (nth (c + 1) C 0 + 1)) bwt'
  end.
(** bwt.hpp:38-41: for i = 1 .. ULITERAL_MAX-1: C[i] += C[i-1] *)
Fixpoint bwt_accum (C : list nat) (i k : nat) : list nat :=
  match k with
  | O => C
  | S k' => bwt_accum (upd C i (nth i C 0 + nth (i - 1) C 0)) (i + 1) k'
  end.
(** bwt.hpp:46-51 *)
Fixpoint bwt_lf (C : list nat) (bwt : list N) : list nat :=
  match bwt with
  | [] => []
  | c :: bwt' =>
      let c := N.to_nat c in
      nth c C 0 :: bwt_lf (upd C c (nth c C 0 + 1)) bwt'
  end.
(** bwt.hpp:29-69 compute_LF *)
Definition compute_LF (bwt : list N) : list nat :=
  bwt_lf (bwt_accum (bwt_count (repeat 0 256) bwt) 1 254) bwt.
(** bwt.hpp:84-95: [k] steps are left; fills the string from the back *)
Fixpoint bwt_walk (bwt : list N) (LF : list nat) (i k : nat) (acc : list N) : option (list N) :=
  match k with
  | O => Some acc
  | S k' => do c <- nth_error bwt i; do i' <- nth_error LF i; bwt_walk bwt LF i' k' (c :: acc)
  end.
(** bwt.hpp:76-98 *)
Definition decode_bwt (bwt : list N) : option (list N) :=
  if length bwt <=? 1 then Some [] else bwt_walk bwt (compute_LF bwt) 0 (length bwt - 1) [].
(** BWTCompressor.hpp:52-68 decompress: nothing for an empty string, else the string and
    '\0' *)
Definition bwt_decompress (bwt : list N) : option (list N) :=
  do s <- decode_bwt bwt; match s with [] => Some [] | _ => Some (s ++ [0%N]) end.
